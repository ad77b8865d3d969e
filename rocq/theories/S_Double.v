(** Specifications for runs in double precision. *)
From Coq Require Import SpecFloat.
From Verif Require Import Base Num.
Local Open Scope R_scope.

(** the number that a finite double stands for *)
Definition dval (x : f64) : R :=
  match x with
  | S754_finite s m e => (if s then -1 else 1) * IZR (Zpos m) * powerRZ 2 e
  | _ => 0
  end.
(** a finite double: mantissa and exponent in the normal form of binary64 *)
Definition double (x : f64) : Prop :=
  valid_binary 53 1024 x = true /\ match x with S754_zero _ | S754_finite _ _ _ => True | _ => False end.

(** half the distance from 1 to the next double *)
Definition u64 : R := / 2 ^ 53.
(** neither huge nor tiny *)
Definition moderate (x : R) : Prop := / 2 ^ 200 <= Rabs x <= 2 ^ 200.
(** [y] is [x] up to [k] rounding errors *)
Definition within (k : R) (x y : R) : Prop := Rabs (y - x) <= k * u64 * Rabs x.

(** [x] has reached the target [v] *)
Definition past (growing : bool) (v x : R) : Prop := if growing then v <= x else x <= v.
(** the first entry of [q] that has reached [v] *)
Definition first_past (growing : bool) (v : R) (q : list R) (c : nat) : Prop :=
  (c < length q)%nat /\ past growing v (nth c q 0) /\ forall j, (j < c)%nat -> ~ past growing v (nth j q 0).
(** the search for [v] in [q] stops at [c] and picks [i], and would do so for any curve within [m] / 2 of [q] *)
Definition clear_cut (m v : R) (q : list R) (c i : nat) : Prop :=
  (i <= c < length q)%nat /\ nth c q 0 <= v - m /\ (forall j, (j < c)%nat -> v + m <= nth j q 0) /\
  forall j, (j <= c)%nat -> j <> i -> Rabs (nth i q 0 - v) + m <= Rabs (nth j q 0 - v).
