(** Property theorems: cubic splines, the default interpolation, and measurements with them (C133-C136). *)
From Coq Require Import String.
From Verif Require Import Base Num Numpy M_Utils M_Photometry S_Photometry M_Petrosian M_Interp M_Cubic M_Sersic Gamma S_Sersic S_Utils S_Petrosian S_Conv S_Robust S_Spline S_Cubic
  M_PSF S_PSF M_Fitting S_Fitting M_Integrate S_Integrate M_Exact S_Exact S_Galaxy S_Render S_Image.
From Verif Require L_Cubic L_Cubic2 L_Cubic4 L_Cubic5 L_PetroExists E_Cubic.
Local Open Scope list_scope.
Local Open Scope R_scope.

(** C133: the cubic spline through given samples exists, is unique, reproduces cubic polynomials, overshoots by
    little, and is what the model of interp1d(kind="cubic") computes *)
Theorem C133_computed : cubic_spline (mk_cubic KCubic) /\ cubic_spline (mk_cubic (KOrder 3)).
Proof. exact (conj (L_Cubic2.mk_cubic_spline KCubic (or_introl eq_refl)) (L_Cubic2.mk_cubic_spline (KOrder 3) (or_intror eq_refl))). Qed.
Print Assumptions C133_computed.

Theorem C133_errors : forall xs ys : list xr, (List.length xs < 4)%nat \/ List.length xs <> List.length ys ->
  mk_cubic KCubic xs ys = Err ValueError.
Proof. exact L_Cubic2.interp_cubic_errors. Qed.
Print Assumptions C133_errors.

Theorem C133_unique : forall f g xs ys, increasing xs -> not_a_knot f xs ys -> not_a_knot g xs ys ->
  forall x, at_ xs 0 <= x <= last_of xs -> f x = g x.
Proof. exact L_Cubic2.spline_unique. Qed.
Print Assumptions C133_unique.

Theorem C133_exact : forall f xs ys a0 a1 a2 a3, increasing xs -> not_a_knot f xs ys ->
  (forall i, (i < List.length xs)%nat -> at_ ys i = a0 + a1 * at_ xs i + a2 * at_ xs i ^ 2 + a3 * at_ xs i ^ 3) ->
  forall x, at_ xs 0 <= x <= last_of xs -> f x = a0 + a1 * x + a2 * x ^ 2 + a3 * x ^ 3.
Proof. exact L_Cubic2.spline_exact. Qed.
Print Assumptions C133_exact.

Theorem C133_overshoot : forall f xs ys q w, increasing xs -> steps_within q xs -> jumps_within w ys -> not_a_knot f xs ys ->
  forall i x, (S i < List.length xs)%nat -> at_ xs i <= x <= at_ xs (S i) ->
  exists z, between (at_ ys i) (at_ ys (S i)) z /\ Rabs (f x - z) <= (1 + 2 * q) * q ^ 2 * w.
Proof. exact L_Cubic.spline_overshoot. Qed.
Print Assumptions C133_overshoot.

Example C133_example : increasing [0; 1; 2; 3] /\ steps_within 1 [0; 1; 2; 3] /\ jumps_within 1 [0; 1; 1; 0] /\
  exists f, not_a_knot f [0; 1; 2; 3] [0; 1; 1; 0] /\ f (3 / 2) = 9 / 8 /\
    exists F, mk_cubic KCubic (map Fin [0; 1; 2; 3]) (map Fin [0; 1; 1; 0]) = Ok F /\ F (Fin (3 / 2)) = Fin (9 / 8).
Proof. exact E_Cubic.C133_ex. Qed.

(** C134: with cubic splines the radii, fluxes and concentrations of an ideal galaxy converge *)
Theorem C134_radius : forall A re n e rt eta eps q, 0 < A -> 0 < re -> 0 < n -> e < 1 -> 0 < rt ->
  petrosian_profile (Fin rt) (Fin re) (Fin n) = Fin eta -> 0 < eps -> 0 < q ->
  exists d, 0 < d /\ forall mk k rs L s, sampled A re n e d (rt + eps) rs L -> steps_within q (0 :: rs) ->
    s_eta s = Fin eta -> s_kind s = Some k -> cubic_spline (mk k) -> last_of rs < d * INR (s_num s - 1) ->
    exists o a, Petrosian_new (ideal_data e rs L) s = Ok o /\
      read mk o A_r_petrosian = Ok (VNum (Fin a)) /\ Rabs (a - rt) < eps.
Proof. exact L_Cubic4.spline_radius. Qed.
Print Assumptions C134_radius.

Theorem C134_fraction : forall A re n e rt eta epsilon ef, 0 < A -> 0 < re -> 0 < n -> e < 1 -> 0 < rt ->
  petrosian_profile (Fin rt) (Fin re) (Fin n) = Fin eta -> 0 < epsilon -> forall q, 0 < q ->
  forall f r eps, 0 < f / ef -> true_radius A re n e rt epsilon ef f r -> 0 < eps ->
    exists d, 0 < d /\ forall mk k rs L s,
      sampled A re n e d (Rmax rt (Rmax r (epsilon * rt)) + eps) rs L -> steps_within q (0 :: rs) ->
      set_to eta epsilon ef d rs k s -> cubic_spline (mk k) ->
      exists o, Petrosian_new (ideal_data e rs L) s = Ok o /\
        forall a, radius_of s f a -> exists b, read mk o a = Ok (VNum (Fin b)) /\ Rabs (b - r) < eps.
Proof. exact L_Cubic4.spline_fraction. Qed.
Print Assumptions C134_fraction.

Theorem C134_flux : forall A re n e rt eta epsilon ef, 0 < A -> 0 < re -> 0 < n -> e < 1 -> 0 < rt ->
  petrosian_profile (Fin rt) (Fin re) (Fin n) = Fin eta -> 0 < epsilon -> forall q, 0 < q ->
  forall f r Ft eps, 0 < f / ef -> true_radius A re n e rt epsilon ef f r ->
    sersic_enclosed (Fin r) (Fin A) (Fin re) (Fin n) (Fin e) = Fin Ft -> 0 < eps ->
    exists d, 0 < d /\ forall mk k rs L s,
      sampled A re n e d (Rmax rt (Rmax r (epsilon * rt)) + eps) rs L -> steps_within q (0 :: rs) ->
      set_to eta epsilon ef d rs k s -> cubic_spline (mk k) ->
      exists o, Petrosian_new (ideal_data e rs L) s = Ok o /\
        forall a, flux_of s f a -> exists F, read mk o a = Ok (VNum (Fin F)) /\ Rabs (F - Ft) < eps.
Proof. exact L_Cubic4.spline_flux. Qed.
Print Assumptions C134_flux.

Theorem C134_concentration : forall A re n e rt eta epsilon ef, 0 < A -> 0 < re -> 0 < n -> e < 1 -> 0 < rt ->
  petrosian_profile (Fin rt) (Fin re) (Fin n) = Fin eta -> 0 < epsilon -> forall q, 0 < q ->
  forall f1 f2 r1 r2 eps, 0 < f1 / ef -> 0 < f2 / ef ->
    true_radius A re n e rt epsilon ef f1 r1 -> true_radius A re n e rt epsilon ef f2 r2 -> 0 < eps ->
    exists d, 0 < d /\ forall mk k rs L s,
      sampled A re n e d (Rmax rt (Rmax (Rmax r1 r2) (epsilon * rt)) + eps) rs L -> steps_within q (0 :: rs) ->
      set_to eta epsilon ef d rs k s -> cubic_spline (mk k) ->
      exists o, Petrosian_new (ideal_data e rs L) s = Ok o /\
        (exists a b c, read mk o (A_concentration (Fin f1) (Fin f2)) = Ok (VTriple (Fin a) (Fin b) (Fin c)) /\
           Rabs (a - r1) < eps /\ Rabs (b - r2) < eps /\ Rabs (c - 5 * (ln (r2 / r1) / ln 10)) < eps) /\
        forall a, concentration_of f1 f2 a -> exists c, read mk o a = Ok (VNum (Fin c)) /\
           Rabs (c - 5 * (ln (r2 / r1) / ln 10)) < eps.
Proof. exact L_Cubic4.spline_concentration. Qed.
Print Assumptions C134_concentration.

Example C134_example : petrosian_profile (Fin 1) (Fin 1) (Fin (1 / 2)) = Fin (ln 2) /\
  true_radius 1 1 (1 / 2) 0 1 2 (99 / 100) (99 / 100) 2 /\ cubic_spline (mk_cubic KCubic) /\
  forall d, 0 < d -> exists rs L num, sampled 1 1 (1 / 2) 0 d (Rmax 1 (Rmax 2 (2 * 1)) + 1) rs L /\ steps_within 1 (0 :: rs) /\
    set_to (ln 2) 2 (99 / 100) d rs KCubic (E_Cubic.set_cubic num).
Proof. exact E_Cubic.C134_ex. Qed.

(** C135: the same for galaxies drawn on pixels *)
Theorem C135_petrosian : forall A re n e, 0 < A -> 0 < re -> 0 < n -> 0 <= e < 1 -> forall q, 0 < q -> forall rt eta, 0 < rt ->
  petrosian_profile (Fin rt) (Fin re) (Fin n) = Fin eta ->
  forall eps, 0 < eps ->
    exists d, 0 < d /\ forall rs, (2 < List.length rs)%nat -> increasing rs -> 0 < at_ rs 0 -> fine d (0 :: rs) -> steps_within q (0 :: rs) ->
      rt + eps <= last_of rs ->
    exists K0, forall K X Y t x0 y0 m k kd mk s, K0 <= K -> shows_sersic A (K * re) n e X Y t (K * last_of rs) x0 y0 m ->
      s_eta s = Fin eta -> s_kind s = Some kd -> cubic_spline (mk kd) -> last_of rs < d * INR (s_num s - 1) ->
      exists F Ar o a, radial_photometry exact_overlap k m (Fin (X - x0), Fin (Y - y0)) (map Fin (map (Rmult K) rs)) None None (Fin (/ (1 - e))) (Fin t)
        = Ok (map Fin F, map Fin Ar, map (fun _ => NaN) (map (Rmult K) rs)) /\ Petrosian_new (plain (map (Rmult K) rs) Ar F) s = Ok o /\
        read mk o A_r_petrosian = Ok (VNum (Fin a)) /\ Rabs (a / K - rt) < eps.
Proof. exact L_Cubic5.image_spline_radius. Qed.
Print Assumptions C135_petrosian.

Theorem C135_fraction : forall A re n e, 0 < A -> 0 < re -> 0 < n -> 0 <= e < 1 -> forall q, 0 < q -> forall rt eta, 0 < rt ->
  petrosian_profile (Fin rt) (Fin re) (Fin n) = Fin eta -> forall epsilon ef, 0 < epsilon ->
  forall f r eps, 0 < f / ef -> true_radius A re n e rt epsilon ef f r -> 0 < eps ->
    exists d, 0 < d /\ forall rs, (2 < List.length rs)%nat -> increasing rs -> 0 < at_ rs 0 -> fine d (0 :: rs) -> steps_within q (0 :: rs) ->
      Rmax rt (Rmax r (epsilon * rt)) + eps <= last_of rs ->
    exists K0, forall K X Y t x0 y0 m k kd mk s, K0 <= K -> shows_sersic A (K * re) n e X Y t (K * last_of rs) x0 y0 m ->
      set_to eta epsilon ef d rs kd s -> cubic_spline (mk kd) ->
    exists F Ar o, radial_photometry exact_overlap k m (Fin (X - x0), Fin (Y - y0)) (map Fin (map (Rmult K) rs)) None None (Fin (/ (1 - e))) (Fin t)
        = Ok (map Fin F, map Fin Ar, map (fun _ => NaN) (map (Rmult K) rs)) /\ Petrosian_new (plain (map (Rmult K) rs) Ar F) s = Ok o /\
      forall a, radius_of s f a -> exists b, read mk o a = Ok (VNum (Fin b)) /\ Rabs (b / K - r) < eps.
Proof. exact L_Cubic5.image_spline_fraction. Qed.
Print Assumptions C135_fraction.

Theorem C135_flux : forall A re n e, 0 < A -> 0 < re -> 0 < n -> 0 <= e < 1 -> forall q, 0 < q -> forall rt eta, 0 < rt ->
  petrosian_profile (Fin rt) (Fin re) (Fin n) = Fin eta -> forall epsilon ef, 0 < epsilon ->
  forall f r Ft eps, 0 < f / ef -> true_radius A re n e rt epsilon ef f r ->
    sersic_enclosed (Fin r) (Fin A) (Fin re) (Fin n) (Fin e) = Fin Ft -> 0 < eps ->
    exists d, 0 < d /\ forall rs, (2 < List.length rs)%nat -> increasing rs -> 0 < at_ rs 0 -> fine d (0 :: rs) -> steps_within q (0 :: rs) ->
      Rmax rt (Rmax r (epsilon * rt)) + eps <= last_of rs ->
    exists K0, forall K X Y t x0 y0 m k kd mk s, K0 <= K -> shows_sersic A (K * re) n e X Y t (K * last_of rs) x0 y0 m ->
      set_to eta epsilon ef d rs kd s -> cubic_spline (mk kd) ->
    exists F Ar o, radial_photometry exact_overlap k m (Fin (X - x0), Fin (Y - y0)) (map Fin (map (Rmult K) rs)) None None (Fin (/ (1 - e))) (Fin t)
        = Ok (map Fin F, map Fin Ar, map (fun _ => NaN) (map (Rmult K) rs)) /\ Petrosian_new (plain (map (Rmult K) rs) Ar F) s = Ok o /\
      forall a, flux_of s f a -> exists v, read mk o a = Ok (VNum (Fin v)) /\ Rabs (v / (K * K) - Ft) < eps.
Proof. exact L_Cubic5.image_spline_flux. Qed.
Print Assumptions C135_flux.

Theorem C135_concentration : forall A re n e, 0 < A -> 0 < re -> 0 < n -> 0 <= e < 1 -> forall q, 0 < q -> forall rt eta, 0 < rt ->
  petrosian_profile (Fin rt) (Fin re) (Fin n) = Fin eta -> forall epsilon ef, 0 < epsilon ->
  forall f1 f2 r1 r2 eps, 0 < f1 / ef -> 0 < f2 / ef ->
    true_radius A re n e rt epsilon ef f1 r1 -> true_radius A re n e rt epsilon ef f2 r2 -> 0 < eps ->
    exists d, 0 < d /\ forall rs, (2 < List.length rs)%nat -> increasing rs -> 0 < at_ rs 0 -> fine d (0 :: rs) -> steps_within q (0 :: rs) ->
      Rmax rt (Rmax (Rmax r1 r2) (epsilon * rt)) + eps <= last_of rs ->
    exists K0, forall K X Y t x0 y0 m k kd mk s, K0 <= K -> shows_sersic A (K * re) n e X Y t (K * last_of rs) x0 y0 m ->
      set_to eta epsilon ef d rs kd s -> cubic_spline (mk kd) ->
    exists F Ar o, radial_photometry exact_overlap k m (Fin (X - x0), Fin (Y - y0)) (map Fin (map (Rmult K) rs)) None None (Fin (/ (1 - e))) (Fin t)
        = Ok (map Fin F, map Fin Ar, map (fun _ => NaN) (map (Rmult K) rs)) /\ Petrosian_new (plain (map (Rmult K) rs) Ar F) s = Ok o /\
      (exists a b c, read mk o (A_concentration (Fin f1) (Fin f2)) = Ok (VTriple (Fin a) (Fin b) (Fin c)) /\
         Rabs (a / K - r1) < eps /\ Rabs (b / K - r2) < eps /\ Rabs (c - 5 * (ln (r2 / r1) / ln 10)) < eps) /\
      forall a, concentration_of f1 f2 a -> exists c, read mk o a = Ok (VNum (Fin c)) /\
         Rabs (c - 5 * (ln (r2 / r1) / ln 10)) < eps.
Proof. exact L_Cubic5.image_spline_concentration. Qed.
Print Assumptions C135_concentration.

Example C135_example : forall d, 0 < d -> exists rs num, (2 < List.length rs)%nat /\ increasing rs /\ 0 < at_ rs 0 /\ fine d (0 :: rs) /\ steps_within 1 (0 :: rs) /\
    Rmax 1 (Rmax 2 (2 * 1)) + 1 <= last_of rs /\ set_to (ln 2) 2 (99 / 100) d rs KCubic (E_Cubic.set_cubic num) /\
    radius_of (E_Cubic.set_cubic num) (99 / 100) A_r_total_flux /\ flux_of (E_Cubic.set_cubic num) (99 / 100) A_total_flux /\
    forall K, 1 <= K -> exists M m, shows_sersic 1 (K * 1) (1 / 2) 0 M M 0 (K * last_of rs) 0 0 m.
Proof. exact E_Cubic.C135_ex. Qed.

(** C136: the radii the measurements converge to exist and are unique *)
Theorem C136_limits : forall re n, 0 < re -> 0 < n ->
  (forall w, 0 < w -> exists d, 0 < d /\ forall r, 0 < r < d -> exists v, petrosian_profile (Fin r) (Fin re) (Fin n) = Fin v /\ 1 - w < v) /\
  (forall w, 0 < w -> exists X, forall r, 0 < r -> X <= r -> exists v, petrosian_profile (Fin r) (Fin re) (Fin n) = Fin v /\ v < w).
Proof. exact L_PetroExists.profile_limits. Qed.
Print Assumptions C136_limits.

Theorem C136_petrosian : forall re n eta, 0 < re -> 0 < n ->
  (0 < eta < 1 <-> exists rt, 0 < rt /\ petrosian_profile (Fin rt) (Fin re) (Fin n) = Fin eta) /\
  forall r r', 0 < r -> 0 < r' -> petrosian_profile (Fin r) (Fin re) (Fin n) = Fin eta -> petrosian_profile (Fin r') (Fin re) (Fin n) = Fin eta -> r = r'.
Proof. exact L_PetroExists.petrosian_exists. Qed.
Print Assumptions C136_petrosian.

Theorem C136_share : forall A re n e rt epsilon ef f Fe Ft, 0 < A -> 0 < re -> 0 < n -> e < 1 -> 0 < rt -> 0 < epsilon ->
  sersic_enclosed (Fin (epsilon * rt)) (Fin A) (Fin re) (Fin n) (Fin e) = Fin Fe ->
  sersic_enclosed PInf (Fin A) (Fin re) (Fin n) (Fin e) = Fin Ft ->
  ((exists r, true_radius A re n e rt epsilon ef f r) <-> 0 < f / ef /\ Fe * (f / ef) < Ft) /\
  (forall r r', true_radius A re n e rt epsilon ef f r -> true_radius A re n e rt epsilon ef f r' -> r = r') /\
  (0 < f / ef <= 1 -> exists r, true_radius A re n e rt epsilon ef f r /\ r <= epsilon * rt).
Proof. exact L_PetroExists.share_exists. Qed.
Print Assumptions C136_share.

Example C136_example : petrosian_profile (Fin 1) (Fin 1) (Fin (1 / 2)) = Fin (ln 2) /\ 0 < ln 2 < 1 /\
  exists Fe Ft, sersic_enclosed (Fin (2 * 1)) (Fin 1) (Fin 1) (Fin (1 / 2)) (Fin 0) = Fin Fe /\
    sersic_enclosed PInf (Fin 1) (Fin 1) (Fin (1 / 2)) (Fin 0) = Fin Ft.
Proof. exact E_Cubic.C136_ex. Qed.
