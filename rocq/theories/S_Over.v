(** Specifications for oversampled images in double precision. *)
From Verif Require Import Base Num S_Photometry S_PSF S_Double.
Local Open Scope R_scope.

(** in double precision, the function [f] computes [g] with errors of at most [delta] at coordinates up to [2 * A];
    [g] is at most [B] there and changes by at most [lip] times the distance *)
Definition draws (f : f64 -> f64 -> f64) (g : R -> R -> R) (A B delta lip : R) : Prop :=
  (forall x y, double x -> double y -> Rabs (dval x) <= 2 * A -> Rabs (dval y) <= 2 * A -> double (f x y) /\ Rabs (dval (f x y) - g (dval x) (dval y)) <= delta) /\
  (forall x y, Rabs x <= 2 * A -> Rabs y <= 2 * A -> Rabs (g x y) <= B) /\
  (forall x y x' y', Rabs x <= 2 * A -> Rabs y <= 2 * A -> Rabs x' <= 2 * A -> Rabs y' <= 2 * A -> Rabs (g x y - g x' y') <= lip * (Rabs (x - x') + Rabs (y - y'))).
(** errors of the mean of [n] numbers up to [C] *)
Definition mean_error (n : nat) (C : R) : R := ((1 + u64) ^ (n + 1) - 1) * C + / 2 ^ 900.
