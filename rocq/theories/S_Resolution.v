(** Specification of a curve that passes a level once, as far as a search on a grid of spacing [h] can see. *)
From Verif Require Import Base Num.
Local Open Scope R_scope.

(** from [lo] on, [g] falls strictly until it reaches [v] at [r], and it is not above [v] for the length of a step after that *)
Definition falls_to (h : R) (g : R -> R) (lo hi v r : R) : Prop :=
  lo <= r <= hi /\ g r = v /\ (forall s t, lo <= s < t -> t <= r -> g t < g s) /\
  forall t, r <= t <= hi -> t < r + h -> g t <= v.
Definition rises_to (h : R) (g : R -> R) (lo hi v r : R) : Prop := falls_to h (fun t => - g t) lo hi (- v) r.

(** the spacing of [n] points from [lo] to [hi] *)
Definition spacing (lo hi : R) (n : nat) : R := (hi - lo) / INR (n - 1).
