(** Specification of interpolation by cubic splines. *)
From Verif Require Import Base Num M_Petrosian S_Petrosian S_Conv.
Local Open Scope R_scope.

(** [f] is the cubic spline through the samples (xs, ys) with the "not-a-knot" ends of scipy: a cubic polynomial on
    each step with values, slopes and curvatures that continue from step to step, and the same third derivative
    on the first two steps and on the last two *)
Definition not_a_knot (f : R -> R) (xs ys : list R) : Prop :=
  (4 <= length xs)%nat /\ length ys = length xs /\
  exists b c d : nat -> R,
    (forall i, (S i < length xs)%nat ->
      let h := at_ xs (S i) - at_ xs i in
      (forall x, at_ xs i <= x <= at_ xs (S i) ->
         f x = at_ ys i + b i * (x - at_ xs i) + c i * (x - at_ xs i) ^ 2 + d i * (x - at_ xs i) ^ 3) /\
      f (at_ xs (S i)) = at_ ys (S i) /\
      b (S i) = b i + 2 * c i * h + 3 * d i * h ^ 2 /\
      c (S i) = c i + 3 * d i * h) /\
    d 0%nat = d 1%nat /\ d (length xs - 3)%nat = d (length xs - 2)%nat.

(** an interpolation method that gives these splines, as scipy's interp1d with kind="cubic" *)
Definition cubic_spline (interp : list xr -> list xr -> result (xr -> xr)) : Prop :=
  forall xs ys, increasing xs -> length xs = length ys -> (4 <= length xs)%nat ->
  exists F f, interp (map Fin xs) (map Fin ys) = Ok F /\
    (forall x, at_ xs 0 <= x <= last_of xs -> F (Fin x) = Fin (f x)) /\ not_a_knot f xs ys.

(** no step is more than [q] times as long as another *)
Definition steps_within (q : R) (xs : list R) : Prop :=
  forall i j, (S i < length xs)%nat -> (S j < length xs)%nat ->
    at_ xs (S i) - at_ xs i <= q * (at_ xs (S j) - at_ xs j).
(** neighbouring values differ by at most [w] *)
Definition jumps_within (w : R) (ys : list R) : Prop :=
  forall i, (S i < length ys)%nat -> Rabs (at_ ys (S i) - at_ ys i) <= w.
