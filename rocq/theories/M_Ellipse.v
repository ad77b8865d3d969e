(** The part of an ellipse that falls on a pixel.

    photutils geometry.elliptical_overlap_grid with use_exact=1 (method 'exact', the default of
    photometry.py 119 and segmentation.py 498): the weight of a pixel is the area of its intersection with
    the ellipse.  Here: the integral over the pixel's width of the length of the ellipse's vertical chord
    inside the pixel.  dx is measured from the centre of the ellipse; a, b semi-axes, t rotation. *)
From Coq Require Import Reals.
From Coquelicot Require Import Coquelicot.
Local Open Scope R_scope.

(** square of the half-width of the bounding box *)
Definition width2 (a b t : R) : R := a * cos t * (a * cos t) + b * sin t * (b * sin t).
(** middle and half-length of the vertical chord at dx (0 outside: sqrt is 0 on negative numbers) *)
Definition chord_mid (a b t dx : R) : R := (a * a - b * b) * (sin t * cos t) * dx / width2 a b t.
Definition chord_half (a b t dx : R) : R := a * b * sqrt (width2 a b t - dx * dx) / width2 a b t.
(** length of the chord between the heights lo and hi *)
Definition chord_part (a b t dx lo hi : R) : R :=
  Rmax 0 (Rmin (chord_mid a b t dx + chord_half a b t dx) hi - Rmax (chord_mid a b t dx - chord_half a b t dx) lo).
(** area on the pixel in row j, column i; ellipse centred on (x, y) *)
Definition pixel_area (x y a b t : R) (j i : nat) : R :=
  RInt (fun u => chord_part a b t (u - x) (INR j - 1 / 2 - y) (INR j + 1 / 2 - y)) (INR i - 1 / 2) (INR i + 1 / 2).
