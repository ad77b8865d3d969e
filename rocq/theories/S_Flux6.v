(** Specifications for the fluxes of a Petrosian object in double precision. *)
From Verif Require Import Base Num M_Petrosian S_Petrosian S_Double S_Sums S_Grid.
Local Open Scope R_scope.

Definition radii_of (o : petrosian f64) : list R := map dval (d_r (p_data o)).
Definition fluxes_of (o : petrosian f64) : list R := map dval (d_flux (p_data o)).
Definition samples_of (o : petrosian f64) : nat := Nat.max (s_num (p_set o)) (length (radii_of o)).
(** largest distance of the resampled radii, with their rounding errors *)
Definition spacing_of (o : petrosian f64) : R :=
  (end_of (radii_of o) - at_ (radii_of o) 0) / INR (samples_of o - 1) + 11 * u64 * end_of (radii_of o).

(** an object without flux errors, interpolating along chords, whose curve of growth has fluxes up to [M] and slopes up to [s] *)
Definition measurable (k : kind) (o : petrosian f64) (M s : R) : Prop :=
  let X := radii_of o in let Y := fluxes_of o in
  (chordal k /\ s_kind (p_set o) = Some k /\ d_flux_err (p_data o) = None) /\
  (length Y = length X /\ (2 <= length X)%nat /\ Forall double (d_r (p_data o)) /\ Forall double (d_flux (p_data o)) /\ Forall fair X /\ Forall fair Y /\ Forall (fun y => Rabs y <= M) Y) /\
  (increasing X /\ 0 <= at_ X 0 /\ / 2 ^ 100 <= end_of X - at_ X 0 /\ (Z.of_nat (samples_of o) <= 2 ^ 50)%Z /\ resolved u64 (at_ X 0) (end_of X) (samples_of o)) /\
  (forall i, (S i < length X)%nat -> Rabs (at_ Y (S i) - at_ Y i) <= s * (at_ X (S i) - at_ X i)) /\ / 2 ^ 200 <= M <= 2 ^ 200.

(** moderate settings that ask for a part of the flux within [rp] times epsilon, a radius of the list *)
Definition askable (o : petrosian f64) (rp f : f64) : Prop :=
  let ep := s_epsilon (p_set o) in let fe := s_epsilon_fraction (p_set o) in let P := dval rp * dval ep in
  (double rp /\ double ep /\ double f /\ double fe) /\ (moderate P /\ at_ (radii_of o) 0 <= P <= end_of (radii_of o)) /\
  moderate (dval f) /\ moderate (dval fe) /\ 0 < dval f / dval fe <= 1.
