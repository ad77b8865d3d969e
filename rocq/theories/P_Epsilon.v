(** Property theorems: the corrected epsilon (C139). *)
From Coq Require Import String.
From Verif Require Import Base Num Numpy M_Utils M_Photometry S_Photometry M_Petrosian M_Interp M_Cubic M_Sersic Gamma S_Sersic S_Utils S_PetObj S_Zoom S_Petrosian S_PetroR S_Conv S_Robust S_Noise S_Spline S_Cubic S_Epsilon
  M_PSF S_PSF M_Fitting S_Fitting M_Integrate S_Integrate M_Exact S_Exact S_Galaxy S_Render S_Image.
From Verif Require L_Epsilon E_Epsilon.
Local Open Scope list_scope.
Local Open Scope R_scope.

(** C139: for every index, eta and flux fraction there is one epsilon that makes the measured radii and fluxes those of the
    whole galaxy *)
Theorem C139_epsilon : forall n eta ef, 0 < n -> 0 < eta < 1 -> 0 < ef < 1 ->
  exists epsilon, 0 < epsilon /\ forall A re e rt, 0 < A -> 0 < re -> e < 1 -> 0 < rt ->
    petrosian_profile (Fin rt) (Fin re) (Fin n) = Fin eta ->
    forall ep, 0 < ep -> (fits_epsilon A re n e rt ef ep <-> ep = epsilon).
Proof. exact L_Epsilon.epsilon_exists. Qed.
Print Assumptions C139_epsilon.

Theorem C139_radius : forall A re n e rt ef epsilon total, sersic_enclosed PInf (Fin A) (Fin re) (Fin n) (Fin e) = Fin total ->
  forall f r, fits_epsilon A re n e rt ef epsilon -> ef <> 0 ->
  (true_radius A re n e rt epsilon ef f r <-> 0 < r /\ sersic_enclosed (Fin r) (Fin A) (Fin re) (Fin n) (Fin e) = Fin (f * total)).
Proof. exact L_Epsilon.fitted_radius. Qed.
Print Assumptions C139_radius.

Theorem C139_half_light : forall A re n e rt ef epsilon total, 0 < A -> 0 < re -> 0 < n -> e < 1 ->
  sersic_enclosed PInf (Fin A) (Fin re) (Fin n) (Fin e) = Fin total ->
  forall r, fits_epsilon A re n e rt ef epsilon -> ef <> 0 -> (true_radius A re n e rt epsilon ef (1 / 2) r <-> r = re).
Proof. exact L_Epsilon.fitted_half. Qed.
Print Assumptions C139_half_light.

(** a smaller epsilon gives a half-light radius below r_eff, a larger one above *)
Theorem C139_bias : forall A re n e rt ef epsilon total, 0 < A -> 0 < re -> 0 < n -> e < 1 ->
  sersic_enclosed PInf (Fin A) (Fin re) (Fin n) (Fin e) = Fin total ->
  forall r Fe, 0 < ef -> true_radius A re n e rt epsilon ef (1 / 2) r ->
  sersic_enclosed (Fin (epsilon * rt)) (Fin A) (Fin re) (Fin n) (Fin e) = Fin Fe ->
  (r < re <-> Fe < ef * total) /\ (re < r <-> ef * total < Fe).
Proof. exact L_Epsilon.half_bias. Qed.
Print Assumptions C139_bias.

Theorem C139_measured_half_light : forall A re n e, 0 < A -> 0 < re -> 0 < n -> 0 <= e < 1 -> forall q, 0 < q -> forall rt eta, 0 < rt ->
  petrosian_profile (Fin rt) (Fin re) (Fin n) = Fin eta -> forall epsilon ef, 0 < epsilon -> 0 < ef ->
  fits_epsilon A re n e rt ef epsilon -> forall eps, 0 < eps ->
    exists d, 0 < d /\ forall rs, (2 < List.length rs)%nat -> increasing rs -> 0 < at_ rs 0 -> fine d (0 :: rs) -> steps_within q (0 :: rs) ->
      Rmax rt (Rmax re (epsilon * rt)) + eps <= last_of rs ->
    exists K0, forall K X Y t x0 y0 m k kd mk s, K0 <= K -> shows_sersic A (K * re) n e X Y t (K * last_of rs) x0 y0 m ->
      set_to eta epsilon ef d rs kd s -> cubic_spline (mk kd) ->
    exists F Ar o, radial_photometry exact_overlap k m (Fin (X - x0), Fin (Y - y0)) (map Fin (map (Rmult K) rs)) None None (Fin (/ (1 - e))) (Fin t)
        = Ok (map Fin F, map Fin Ar, map (fun _ => NaN) (map (Rmult K) rs)) /\ Petrosian_new (plain (map (Rmult K) rs) Ar F) s = Ok o /\
      exists b, read mk o A_r_half_light = Ok (VNum (Fin b)) /\ Rabs (b / K - re) < eps.
Proof. exact L_Epsilon.fitted_half_measured. Qed.
Print Assumptions C139_measured_half_light.

Theorem C139_measured_flux : forall A re n e, 0 < A -> 0 < re -> 0 < n -> 0 <= e < 1 -> forall q, 0 < q -> forall rt eta, 0 < rt ->
  petrosian_profile (Fin rt) (Fin re) (Fin n) = Fin eta -> forall epsilon ef, 0 < epsilon -> 0 < ef ->
  fits_epsilon A re n e rt ef epsilon -> forall f r total eps, 0 < f -> 0 < r ->
  sersic_enclosed PInf (Fin A) (Fin re) (Fin n) (Fin e) = Fin total ->
  sersic_enclosed (Fin r) (Fin A) (Fin re) (Fin n) (Fin e) = Fin (f * total) -> 0 < eps ->
    exists d, 0 < d /\ forall rs, (2 < List.length rs)%nat -> increasing rs -> 0 < at_ rs 0 -> fine d (0 :: rs) -> steps_within q (0 :: rs) ->
      Rmax rt (Rmax r (epsilon * rt)) + eps <= last_of rs ->
    exists K0, forall K X Y t x0 y0 m k kd mk s, K0 <= K -> shows_sersic A (K * re) n e X Y t (K * last_of rs) x0 y0 m ->
      set_to eta epsilon ef d rs kd s -> s_total_flux_fraction s = Fin f -> cubic_spline (mk kd) ->
    exists F Ar o, radial_photometry exact_overlap k m (Fin (X - x0), Fin (Y - y0)) (map Fin (map (Rmult K) rs)) None None (Fin (/ (1 - e))) (Fin t)
        = Ok (map Fin F, map Fin Ar, map (fun _ => NaN) (map (Rmult K) rs)) /\ Petrosian_new (plain (map (Rmult K) rs) Ar F) s = Ok o /\
      exists v, read mk o A_total_flux = Ok (VNum (Fin v)) /\ Rabs (v / (K * K) - f * total) < eps.
Proof. exact L_Epsilon.fitted_total_measured. Qed.
Print Assumptions C139_measured_flux.

Theorem C139_measured_concentration : forall A re n e, 0 < A -> 0 < re -> 0 < n -> 0 <= e < 1 -> forall q, 0 < q -> forall rt eta, 0 < rt ->
  petrosian_profile (Fin rt) (Fin re) (Fin n) = Fin eta -> forall epsilon ef, 0 < epsilon -> 0 < ef ->
  fits_epsilon A re n e rt ef epsilon -> forall f1 f2 r1 r2 total eps, 0 < f1 -> 0 < f2 -> 0 < r1 -> 0 < r2 ->
  sersic_enclosed PInf (Fin A) (Fin re) (Fin n) (Fin e) = Fin total ->
  sersic_enclosed (Fin r1) (Fin A) (Fin re) (Fin n) (Fin e) = Fin (f1 * total) ->
  sersic_enclosed (Fin r2) (Fin A) (Fin re) (Fin n) (Fin e) = Fin (f2 * total) -> 0 < eps ->
    exists d, 0 < d /\ forall rs, (2 < List.length rs)%nat -> increasing rs -> 0 < at_ rs 0 -> fine d (0 :: rs) -> steps_within q (0 :: rs) ->
      Rmax rt (Rmax (Rmax r1 r2) (epsilon * rt)) + eps <= last_of rs ->
    exists K0, forall K X Y t x0 y0 m k kd mk s, K0 <= K -> shows_sersic A (K * re) n e X Y t (K * last_of rs) x0 y0 m ->
      set_to eta epsilon ef d rs kd s -> cubic_spline (mk kd) ->
    exists F Ar o, radial_photometry exact_overlap k m (Fin (X - x0), Fin (Y - y0)) (map Fin (map (Rmult K) rs)) None None (Fin (/ (1 - e))) (Fin t)
        = Ok (map Fin F, map Fin Ar, map (fun _ => NaN) (map (Rmult K) rs)) /\ Petrosian_new (plain (map (Rmult K) rs) Ar F) s = Ok o /\
      forall a, concentration_of f1 f2 a -> exists c, read mk o a = Ok (VNum (Fin c)) /\ Rabs (c - 5 * (ln (r2 / r1) / ln 10)) < eps.
Proof. exact L_Epsilon.fitted_concentration_measured. Qed.
Print Assumptions C139_measured_concentration.

Theorem C139_concentration : forall n f1 f2, 0 < n -> 0 < f1 < 1 -> 0 < f2 < 1 -> exists c, forall A re e total r1 r2, 0 < A -> 0 < re -> e < 1 -> 0 < r1 -> 0 < r2 ->
  sersic_enclosed PInf (Fin A) (Fin re) (Fin n) (Fin e) = Fin total ->
  sersic_enclosed (Fin r1) (Fin A) (Fin re) (Fin n) (Fin e) = Fin (f1 * total) ->
  sersic_enclosed (Fin r2) (Fin A) (Fin re) (Fin n) (Fin e) = Fin (f2 * total) -> r2 / r1 = c.
Proof. exact L_Epsilon.index_concentration. Qed.
Print Assumptions C139_concentration.

Example C139_example : petrosian_profile (Fin 1) (Fin 1) (Fin (1 / 2)) = Fin (ln 2) /\ 0 < ln 2 < 1 /\ fits_epsilon 1 1 (1 / 2) 0 1 (15 / 16) 2 /\
  forall d, 0 < d -> exists rs num, (2 < List.length rs)%nat /\ increasing rs /\ 0 < at_ rs 0 /\ fine d (0 :: rs) /\ steps_within 1 (0 :: rs) /\
    Rmax 1 (Rmax 1 (2 * 1)) + 1 <= last_of rs /\ set_to (ln 2) 2 (15 / 16) d rs KCubic (E_Epsilon.set_fit num) /\
    forall K, 1 <= K -> exists M m, shows_sersic 1 (K * 1) (1 / 2) 0 M M 0 (K * last_of rs) 0 0 m.
Proof. exact E_Epsilon.C139_ex. Qed.
