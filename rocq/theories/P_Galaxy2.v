(** Property theorems: radii, fluxes and concentrations of rendered Sersic galaxies (C120-C121). *)
From Coq Require Import String.
From Verif Require Import Base Num Numpy M_Utils M_Photometry S_Photometry M_Petrosian M_Interp M_Sersic Gamma S_Sersic S_Utils S_Petrosian S_Conv S_Robust
  M_PSF S_PSF M_Fitting S_Fitting M_Integrate S_Integrate M_Exact S_Exact S_Galaxy S_Render S_Image.
From Verif Require L_Galaxy4 E_Conv E_Galaxy2.
Local Open Scope list_scope.
Local Open Scope R_scope.

(** C120: on fine enough pixels the measured half-light and total-flux radii are the true ones *)
Theorem C120_fraction : forall A re n e rt eta epsilon ef, 0 < A -> 0 < re -> 0 < n -> 0 <= e < 1 -> 0 < rt ->
  petrosian_profile (Fin rt) (Fin re) (Fin n) = Fin eta -> 0 < epsilon ->
  forall f r eps, 0 < f / ef -> true_radius A re n e rt epsilon ef f r -> 0 < eps ->
  exists d, 0 < d /\ forall rs, (2 < List.length rs)%nat -> increasing rs -> 0 < at_ rs 0 -> fine d (0 :: rs) ->
    Rmax rt (Rmax r (epsilon * rt)) + eps <= last_of rs ->
  exists K0, forall K X Y t x0 y0 m k mk s, K0 <= K -> shows_sersic A (K * re) n e X Y t (K * last_of rs) x0 y0 m ->
    settings mk eta epsilon ef d rs s ->
  exists F Ar o,
    radial_photometry exact_overlap k m (Fin (X - x0), Fin (Y - y0)) (map Fin (map (Rmult K) rs)) None None (Fin (/ (1 - e))) (Fin t)
      = Ok (map Fin F, map Fin Ar, map (fun _ => NaN) (map (Rmult K) rs)) /\
    Petrosian_new (plain (map (Rmult K) rs) Ar F) s = Ok o /\
    forall a, radius_of s f a -> exists b, read mk o a = Ok (VNum (Fin b)) /\ Rabs (b / K - r) < eps.
Proof. exact L_Galaxy4.image_fraction. Qed.
Print Assumptions C120_fraction.

Example C120_example : petrosian_profile (Fin 1) (Fin 1) (Fin (1 / 2)) = Fin (ln 2) /\
  true_radius 1 1 (1 / 2) 0 1 2 (99 / 100) (99 / 100) 2 /\
  (forall d, 0 < d -> exists rs num, (2 < List.length rs)%nat /\ increasing rs /\ 0 < at_ rs 0 /\ fine d (0 :: rs) /\
    Rmax 1 (Rmax 2 (2 * 1)) + 1 <= last_of rs /\ settings mk_linear (ln 2) 2 (99 / 100) d rs (E_Conv.set_ex num) /\
    radius_of (E_Conv.set_ex num) (99 / 100) A_r_total_flux /\ flux_of (E_Conv.set_ex num) (99 / 100) A_total_flux /\
    forall K, 0 < K -> exists M m, shows_sersic 1 (K * 1) (1 / 2) 0 M M 0 (K * last_of rs) 0 0 m).
Proof. exact E_Galaxy2.C120_ex. Qed.

(** C121: and so are the fluxes and concentrations *)
Theorem C121_flux : forall A re n e rt eta epsilon ef, 0 < A -> 0 < re -> 0 < n -> 0 <= e < 1 -> 0 < rt ->
  petrosian_profile (Fin rt) (Fin re) (Fin n) = Fin eta -> 0 < epsilon ->
  forall f r Ft eps, 0 < f / ef -> true_radius A re n e rt epsilon ef f r ->
  sersic_enclosed (Fin r) (Fin A) (Fin re) (Fin n) (Fin e) = Fin Ft -> 0 < eps ->
  exists d, 0 < d /\ forall rs, (2 < List.length rs)%nat -> increasing rs -> 0 < at_ rs 0 -> fine d (0 :: rs) ->
    Rmax rt (Rmax r (epsilon * rt)) + eps <= last_of rs ->
  exists K0, forall K X Y t x0 y0 m k mk s, K0 <= K -> shows_sersic A (K * re) n e X Y t (K * last_of rs) x0 y0 m ->
    settings mk eta epsilon ef d rs s ->
  exists F Ar o,
    radial_photometry exact_overlap k m (Fin (X - x0), Fin (Y - y0)) (map Fin (map (Rmult K) rs)) None None (Fin (/ (1 - e))) (Fin t)
      = Ok (map Fin F, map Fin Ar, map (fun _ => NaN) (map (Rmult K) rs)) /\
    Petrosian_new (plain (map (Rmult K) rs) Ar F) s = Ok o /\
    forall a, flux_of s f a -> exists v, read mk o a = Ok (VNum (Fin v)) /\ Rabs (v / (K * K) - Ft) < eps.
Proof. exact L_Galaxy4.image_flux. Qed.
Print Assumptions C121_flux.

Theorem C121_concentration : forall A re n e rt eta epsilon ef, 0 < A -> 0 < re -> 0 < n -> 0 <= e < 1 -> 0 < rt ->
  petrosian_profile (Fin rt) (Fin re) (Fin n) = Fin eta -> 0 < epsilon ->
  forall f1 f2 r1 r2 eps, 0 < f1 / ef -> 0 < f2 / ef ->
  true_radius A re n e rt epsilon ef f1 r1 -> true_radius A re n e rt epsilon ef f2 r2 -> 0 < eps ->
  exists d, 0 < d /\ forall rs, (2 < List.length rs)%nat -> increasing rs -> 0 < at_ rs 0 -> fine d (0 :: rs) ->
    Rmax rt (Rmax (Rmax r1 r2) (epsilon * rt)) + eps <= last_of rs ->
  exists K0, forall K X Y t x0 y0 m k mk s, K0 <= K -> shows_sersic A (K * re) n e X Y t (K * last_of rs) x0 y0 m ->
    settings mk eta epsilon ef d rs s ->
  exists F Ar o,
    radial_photometry exact_overlap k m (Fin (X - x0), Fin (Y - y0)) (map Fin (map (Rmult K) rs)) None None (Fin (/ (1 - e))) (Fin t)
      = Ok (map Fin F, map Fin Ar, map (fun _ => NaN) (map (Rmult K) rs)) /\
    Petrosian_new (plain (map (Rmult K) rs) Ar F) s = Ok o /\
    (exists a b c, read mk o (A_concentration (Fin f1) (Fin f2)) = Ok (VTriple (Fin a) (Fin b) (Fin c)) /\
       Rabs (a / K - r1) < eps /\ Rabs (b / K - r2) < eps /\ Rabs (c - 5 * (ln (r2 / r1) / ln 10)) < eps) /\
    forall a, concentration_of f1 f2 a -> exists c, read mk o a = Ok (VNum (Fin c)) /\
       Rabs (c - 5 * (ln (r2 / r1) / ln 10)) < eps.
Proof. exact L_Galaxy4.image_concentration. Qed.
Print Assumptions C121_concentration.

Example C121_example : exists r20 r80,
  true_radius 1 1 (1 / 2) 0 1 2 (99 / 100) (1 / 5) r20 /\ true_radius 1 1 (1 / 2) 0 1 2 (99 / 100) (4 / 5) r80 /\
  concentration_of (1 / 5) (4 / 5) A_c2080.
Proof. exact E_Conv.C99_ex. Qed.
