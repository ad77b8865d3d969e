(** Specifications for the error of the Petrosian radius in double precision. *)
From Coq Require Import SpecFloat.
From Verif Require Import Base Num Numpy S_Petrosian S_Double.
Local Open Scope R_scope.

(** [x] is the sample of [r] at which [curve] comes down to [eta]: NaN when the curve stays above,
    otherwise the sample closest to [eta] among those up to the first one at or below it *)
Definition reported (r : list f64) (curve : list R) (eta : R) (x : f64) : Prop :=
  (forall y, In y curve -> eta < y) /\ x = S754_nan \/
  exists c i, first_past false eta curve c /\ (i <= c)%nat /\ x = nth i r S754_nan /\
    (forall j, (j <= c)%nat -> Rabs (nth i curve 0 - eta) <= (1 + 3 * u64) * Rabs (nth j curve 0 - eta)) /\
    (forall j, (j < i)%nat -> Rabs (nth i curve 0 - eta) < Rabs (nth j curve 0 - eta)).
(** [Y] is the curve [P] shifted by [E], each value rounded once *)
Definition shifted (sgn : R) (P E Y : list R) : Prop :=
  length Y = length P /\ forall i, (i < length P)%nat -> Rabs (at_ Y i - (at_ P i + sgn * at_ E i)) <= u64 * Rabs (at_ P i + sgn * at_ E i).
