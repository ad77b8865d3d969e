(** Specifications for photometry of a galaxy drawn on pixels. *)
From Coquelicot Require Import Coquelicot.
From Verif Require Import Base Num S_Sersic.
Local Open Scope R_scope.

(** elliptical radius of a point: the semi-major axis of the ellipse through it with the given centre,
    elongation and angle *)
Definition ell_radius (x y elong t u w : R) : R :=
  sqrt (along x y t u w ^ 2 + (elong * across x y t u w) ^ 2).

(** a profile that never rises and is never negative *)
Definition falls (s : R -> R) : Prop := (forall p, 0 <= p -> 0 <= s p) /\ forall p q, 0 <= p <= q -> s q <= s p.

(** I is the flux of the profile s within the ellipse of semi-major axis r: the integral over thin elliptical
    rings of area 2 PI p dp / elong *)
Definition flux_within (s : R -> R) (elong r I : R) : Prop := is_RInt (fun p => s p * (2 * PI * p / elong)) 0 r I.

(** pixel values v show the profile s with an error of at most d in radius: the value of a pixel is between
    those of s at radii d farther out and d farther in than any point of the pixel *)
Definition drawn_within (d : R) (s : R -> R) (x y elong t : R) (ny nx : nat) (v : nat -> nat -> R) : Prop :=
  forall j i u w, (j < ny)%nat -> (i < nx)%nat -> Rabs (u - INR i) < 1/2 -> Rabs (w - INR j) < 1/2 ->
    s (ell_radius x y elong t u w + d) <= v j i <= s (Rmax 0 (ell_radius x y elong t u w - d)).
