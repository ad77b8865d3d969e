(** Small specifications for the 'center' method of the apertures. *)
From Verif Require Import Base Num.
Local Open Scope R_scope.

(** (px, py) lies strictly inside the ellipse with centre (x, y), semi-axes a and b, rotated by t:
    it is the image of a point (s, u) of the open unit disc *)
Definition inside_ellipse (x y a b t px py : R) : Prop :=
  exists s u, s * s + u * u < 1 /\
    px = x + a * s * cos t - b * u * sin t /\ py = y + a * s * sin t + b * u * cos t.

(** pixel (Y, X) is in the square of the given side around (y, x) *)
Definition in_square (x y side : Z) (Y X : nat) : Prop :=
  (y - side / 2 <= Z.of_nat Y < y - side / 2 + side /\ x - side / 2 <= Z.of_nat X < x - side / 2 + side)%Z.
