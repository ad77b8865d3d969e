(** Specifications for the mode 'integrate'. *)
From Coquelicot Require Import Coquelicot.
From Verif Require Import Base Num.
Local Open Scope R_scope.

(** I is the integral of g over the rectangle [a, b] x [c, d] *)
Definition integral2 (g : R -> R -> R) (a b c d I : R) : Prop :=
  exists h : R -> R, (forall x, a < x < b -> is_RInt (fun y => g x y) c d (h x)) /\ is_RInt h a b I.

(** exact numerical integration: func(inner variable, outer variable) over a <= outer <= b, c <= inner <= d *)
Definition integrates (dblquad : (xr -> xr -> xr) -> xr -> xr -> xr -> xr -> xr) : Prop :=
  forall f g a b c d I, a <= b -> (forall y x, f (Fin y) (Fin x) = Fin (g x y)) ->
    integral2 g a b c d I -> dblquad f (Fin a) (Fin b) (Fin c) (Fin d) = Fin I.

(** g is continuous as a function of two variables *)
Definition continuous2 (g : R -> R -> R) : Prop :=
  forall x y e, 0 < e -> exists d, 0 < d /\ forall x' y', Rabs (x' - x) < d -> Rabs (y' - y) < d -> Rabs (g x' y' - g x y) < e.

(** g changes by at most L per pixel along each axis *)
Definition slope_at_most (L : R) (g : R -> R -> R) : Prop :=
  forall x y x' y', Rabs (g x' y' - g x y) <= L * (Rabs (x' - x) + Rabs (y' - y)).
