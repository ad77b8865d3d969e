(** Specifications for moved models and their images. *)
From Verif Require Import Base Num Numpy.
Local Open Scope R_scope.

(** the motion of the plane that turns by [phi], after exchanging up and down
    if [s] = -1, and shifts by ([u], [v]) *)
Definition move_x (s phi u x y : R) : R := u + x * cos phi - s * (y * sin phi).
Definition move_y (s phi v x y : R) : R := v + x * sin phi + s * (y * cos phi).
(** what it does to the angle of a direction *)
Definition move_angle (s phi t : R) : R := phi + s * t.
