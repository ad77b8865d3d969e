(** Property theorems: measuring an ideal sampled Sersic galaxy (C96-C99). *)
From Verif Require Import Base Num Numpy M_Utils M_Petrosian M_Interp M_Sersic Gamma S_Sersic S_Petrosian S_Conv.
From Verif Require L_Conv L_Conv2 L_Conv3 E_Conv.
Local Open Scope R_scope.

(** C96: the computed Petrosian profile of an ideal galaxy lies above the true one, below 1 and within a
    known factor. *)
Theorem C96_bracket : forall A re n e b rs L, 0 < A -> 0 < re -> 0 < n -> e < 1 -> half_light n b ->
  (2 < length rs)%nat -> increasing rs -> 0 < at_ rs 0 -> sersic_fluxes A re n e rs L ->
  exists P, calculate_petrosian DFloat (map Fin (map (ellipse_area e) rs)) (map Fin L) None None = Ok (P, None) /\
    forall i, (1 <= i < length rs)%nat -> exists v t,
      nth_error P i = Some (Fin v) /\ petrosian_profile (Fin (at_ rs i)) (Fin re) (Fin n) = Fin t /\
      t < v < 1 /\
      v < t * exp (b * (rpow (at_ rs i / re) (1 / n) - rpow (at_ rs (i - 1) / re) (1 / n))).
Proof. exact L_Conv.bracket_spec. Qed.
Print Assumptions C96_bracket.

Example C96_example : half_light (1 / 2) (ln 2) /\
  exists L, sersic_fluxes 1 1 (1 / 2) 0 [1; 2; 3] L /\ increasing [1; 2; 3].
Proof. exact E_Conv.C96_ex. Qed.

(** C97: the measured Petrosian radius converges to the true one. *)
Theorem C97_radius : forall A re n e rt eta eps, 0 < A -> 0 < re -> 0 < n -> e < 1 -> 0 < rt ->
  petrosian_profile (Fin rt) (Fin re) (Fin n) = Fin eta -> 0 < eps ->
  exists d, 0 < d /\ forall mk rs L s, sampled A re n e d (rt + eps) rs L -> s_eta s = Fin eta ->
    (forall k, s_kind s = Some k -> no_overshoot (mk k) /\ last_of rs < d * INR (s_num s - 1)) ->
    exists o a, Petrosian_new (ideal_data e rs L) s = Ok o /\
      read mk o A_r_petrosian = Ok (VNum (Fin a)) /\ Rabs (a - rt) < eps.
Proof. exact L_Conv2.radius_converges. Qed.
Print Assumptions C97_radius.

Example C97_example : petrosian_profile (Fin 1) (Fin 1) (Fin (1 / 2)) = Fin (ln 2) /\
  (forall k, no_overshoot (mk_linear k)) /\
  forall d, 0 < d -> exists rs L num, sampled 1 1 (1 / 2) 0 d (Rmax 1 (Rmax 2 (2 * 1)) + 1) rs L /\
    settings mk_linear (ln 2) 2 (99 / 100) d rs (E_Conv.set_ex num).
Proof. exact E_Conv.C97_ex. Qed.

(** C98: so do the radii enclosing a share of the flux. *)
Theorem C98_fraction : forall A re n e rt eta epsilon ef, 0 < A -> 0 < re -> 0 < n -> e < 1 -> 0 < rt ->
  petrosian_profile (Fin rt) (Fin re) (Fin n) = Fin eta -> 0 < epsilon ->
  forall f r eps, 0 < f / ef -> true_radius A re n e rt epsilon ef f r -> 0 < eps ->
  exists d, 0 < d /\ forall mk rs L s,
    sampled A re n e d (Rmax rt (Rmax r (epsilon * rt)) + eps) rs L -> settings mk eta epsilon ef d rs s ->
    exists o, Petrosian_new (ideal_data e rs L) s = Ok o /\
      forall a, radius_of s f a -> exists b, read mk o a = Ok (VNum (Fin b)) /\ Rabs (b - r) < eps.
Proof. exact L_Conv3.fraction_converges. Qed.
Print Assumptions C98_fraction.

Example C98_example : true_radius 1 1 (1 / 2) 0 1 2 (99 / 100) (99 / 100) 2 /\
  radius_of (E_Conv.set_ex 10) (99 / 100) A_r_total_flux /\ flux_of (E_Conv.set_ex 10) (99 / 100) A_total_flux.
Proof. exact E_Conv.C98_ex. Qed.

(** C99: and the fluxes and concentration indices. *)
Theorem C99_flux : forall A re n e rt eta epsilon ef, 0 < A -> 0 < re -> 0 < n -> e < 1 -> 0 < rt ->
  petrosian_profile (Fin rt) (Fin re) (Fin n) = Fin eta -> 0 < epsilon ->
  forall f r Ft eps, 0 < f / ef -> true_radius A re n e rt epsilon ef f r ->
  sersic_enclosed (Fin r) (Fin A) (Fin re) (Fin n) (Fin e) = Fin Ft -> 0 < eps ->
  exists d, 0 < d /\ forall mk rs L s,
    sampled A re n e d (Rmax rt (Rmax r (epsilon * rt)) + eps) rs L -> settings mk eta epsilon ef d rs s ->
    exists o, Petrosian_new (ideal_data e rs L) s = Ok o /\
      forall a, flux_of s f a -> exists F, read mk o a = Ok (VNum (Fin F)) /\ Rabs (F - Ft) < eps.
Proof. exact L_Conv3.flux_converges. Qed.
Print Assumptions C99_flux.

Theorem C99_concentration : forall A re n e rt eta epsilon ef, 0 < A -> 0 < re -> 0 < n -> e < 1 -> 0 < rt ->
  petrosian_profile (Fin rt) (Fin re) (Fin n) = Fin eta -> 0 < epsilon ->
  forall f1 f2 r1 r2 eps, 0 < f1 / ef -> 0 < f2 / ef ->
  true_radius A re n e rt epsilon ef f1 r1 -> true_radius A re n e rt epsilon ef f2 r2 -> 0 < eps ->
  exists d, 0 < d /\ forall mk rs L s,
    sampled A re n e d (Rmax rt (Rmax (Rmax r1 r2) (epsilon * rt)) + eps) rs L -> settings mk eta epsilon ef d rs s ->
    exists o, Petrosian_new (ideal_data e rs L) s = Ok o /\
      (exists a b c, read mk o (A_concentration (Fin f1) (Fin f2)) = Ok (VTriple (Fin a) (Fin b) (Fin c)) /\
         Rabs (a - r1) < eps /\ Rabs (b - r2) < eps /\ Rabs (c - 5 * (ln (r2 / r1) / ln 10)) < eps) /\
      forall a, concentration_of f1 f2 a -> exists c, read mk o a = Ok (VNum (Fin c)) /\
         Rabs (c - 5 * (ln (r2 / r1) / ln 10)) < eps.
Proof. exact L_Conv3.concentration_converges. Qed.
Print Assumptions C99_concentration.

Example C99_example : exists r20 r80, 
  true_radius 1 1 (1 / 2) 0 1 2 (99 / 100) (1 / 5) r20 /\ true_radius 1 1 (1 / 2) 0 1 2 (99 / 100) (4 / 5) r80 /\
  concentration_of (1 / 5) (4 / 5) A_c2080.
Proof. exact E_Conv.C99_ex. Qed.
