(** Specification of images of a Sersic galaxy large enough for photometry. *)
From Coq Require Import String.
From Verif Require Import Base Num Numpy M_Photometry S_Photometry M_Sersic M_PSF S_PSF M_Fitting S_Fitting M_Integrate S_Integrate M_Exact S_Exact S_Render.
Local Open Scope R_scope.

(** m, whose pixel (0, 0) is at (x0, y0), was drawn by model_to_image (any mode, size and centre) from
    GenSersic2D with amplitude A, r_eff re, index n, ellipticity e, angle t and centre (X, Y); the
    galaxy's ellipse of semi-major axis reach lies on it *)
Definition shows_sersic (A re n e X Y t reach x0 y0 : R) (m : img xr) : Prop :=
  exists dblquad size flag factor center nx ny,
    integrates dblquad /\ size_means size flag nx ny /\ origin_is center nx ny x0 y0 /\ (0 <= nx)%Z /\ (0 <= ny)%Z /\ (0 < factor)%Z /\
    rendered dblquad (fun x y => gen_sersic2d x y (Fin A) (Fin re) (Fin n) (Fin X) (Fin Y) (Fin e) (Fin t) (Fin 0)) size flag factor center m /\
    on_image (X - x0) (Y - y0) reach (reach * (1 - e)) t (Z.to_nat ny) (Z.to_nat nx).
