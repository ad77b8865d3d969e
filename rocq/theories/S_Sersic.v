(** Small specifications for the analytic profiles. *)
From Verif Require Import Base Num Gamma.
Local Open Scope R_scope.

(** x^y for x >= 0 and y > 0 *)
Definition rpow (x y : R) : R := if Rlt_dec 0 x then Rpower x y else 0.

(** Sersic law with half-light radius re, index n and constant b *)
Definition sersic_law (A re n b r : R) : R := A * exp (- b * (rpow (r / re) (1 / n) - 1)).

(** the constant that makes re the half-light radius: half of Gamma(2n) lies below b *)
Definition half_light (n b : R) : Prop := 0 < b /\ 2 * lower_gamma (2 * n) b = GammaR (2 * n).

Definition tends_to_at_infinity (f : R -> R) (l : R) : Prop :=
  forall e, 0 < e -> exists X, forall r, X <= r -> Rabs (f r - l) < e.
Definition tends_to_at_zero (f : R -> R) (l : R) : Prop :=
  forall e, 0 < e -> exists d, 0 < d /\ forall r, 0 < r < d -> Rabs (f r - l) < e.

(** a real function is computed by the model *)
Definition computes (F : xr -> xr) (f : R -> R) : Prop := forall r, 0 <= r -> F (Fin r) = Fin (f r).

(** coordinates along the axes of an ellipse turned by theta around (x0, y0) *)
Definition along (x0 y0 theta x y : R) : R := (x - x0) * cos theta + (y - y0) * sin theta.
Definition across (x0 y0 theta x y : R) : R := (y - y0) * cos theta - (x - x0) * sin theta.

(** astropy's Sersic2D *)
Definition sersic2d (b A re n x0 y0 e theta x y : R) : R :=
  A * exp (- b * (rpow (sqrt ((along x0 y0 theta x y / re) * (along x0 y0 theta x y / re)
    + (across x0 y0 theta x y / ((1 - e) * re)) * (across x0 y0 theta x y / ((1 - e) * re)))) (1 / n) - 1)).

(** Nuker law *)
Definition nuker_law (Ib rb al be ga r : R) : R :=
  Ib * Rpower 2 ((be - ga) / al) * Rpower (r / rb) (- ga) * Rpower (1 + Rpower (r / rb) al) ((ga - be) / al).

(** core-Sersic law of Graham et al. *)
Definition core_sersic_law (Ib re rb n b al ga r : R) : R :=
  Ib * Rpower 2 (- (ga / al)) * exp (b * Rpower (Rpower 2 (1 / al) * (rb / re)) (1 / n))
  * Rpower (1 + Rpower (rb / r) al) (ga / al)
  * exp (- b * Rpower ((Rpower r al + Rpower rb al) / Rpower re al) (1 / (al * n))).
