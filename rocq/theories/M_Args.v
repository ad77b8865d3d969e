(** Functions that take an image as an array or inside a CCDData / Cutout2D: get_amplitude_at_r
    with its arguments, and plot_fit.

    Oracles: the constructors EllipseGeometry and Ellipse of photutils, its isophote fit. *)
From Coq Require Import String.
From Verif Require Import Base Num Numpy M_PSF M_Fitting M_Segm M_Utils M_Petrosian M_Sersic M_Sources.
Local Open Scope list_scope.

Section AmplitudeArgs.
  Context {T : Type} {N : Num T}.
  Variables I G E S : Type.    (* arrays, geometries, Ellipse objects, isophotes *)
  Variable EllipseGeometry : T -> T -> T -> T -> T -> result G.   (* x0, y0, sma, eps, pa *)
  Variable Ellipse : I -> G -> result E.
  Variable fit_isophote : E -> T -> result S.
  Variable intens : S -> T.

  (** segmentation.py:143-154, the body of the try block *)
  Definition amplitude_body (image : I) (x0 y0 ellip theta r : T) : result T :=
    do g <- EllipseGeometry x0 y0 n1 ellip theta;
    do ellipse <- Ellipse image g;
    do iso <- fit_isophote ellipse r;
    Ok (intens iso).
  (** segmentation.py:101-167 *)
  Definition get_amplitude_at_r_args (r : pyv T) (image : image_arg I) (x0 y0 ellip theta : T) : result T :=
    get_amplitude_at_r (amplitude_body (data I image) x0 y0 ellip theta) r.
End AmplitudeArgs.

(** fitting.py:418-419 and the rest as in M_Fitting *)
Definition plot_fit_args {T} {N : Num T} (model : smodel) (image : image_arg (img T)) (m : dmode)
    (center : option (pyv T)) : result (img T * img T) :=
  plot_fit model (data (img T) image) m center.
