(** Mode 'integrate' of model_to_image, petrofit/modeling/fitting.py 184-245 (the other modes
    are in M_Fitting). *)
From Coq Require Import String.
From Verif Require Import Base Num Numpy M_Photometry M_PSF M_Fitting.
Local Open Scope list_scope.

Section Integrate.
  Context {T : Type} {N : Num T}.
  Local Open Scope num_scope.

  (** scipy.integrate.dblquad(func, a, b, gfun, hfun)[0] for constant gfun = c, hfun = d; its
      first argument takes the inner variable first *)
  Variable dblquad : (T -> T -> T) -> T -> T -> T -> T -> T.

  (** astropy discretize_integrate_2D: pixel edges arange(start - 0.5, stop + 0.5), one more than
      pixels; np.empty raises for a negative number of pixels *)
  Definition discretize_integrate (f : T -> T -> T) (x0 y0 : T) (nx ny : Z) : result (img T) :=
    if (nx <? 0)%Z || (ny <? 0)%Z then Err ValueError
    else
      let x := arange_at (x0 - half) in
      let y := arange_at (y0 - half) in
      Ok (mkimg (Z.to_nat ny) (Z.to_nat nx) (fun j i =>
            dblquad (fun v u => f u v) (x i) (x (i + 1)%nat) (y j) (y (j + 1)%nat))).

  (** model_to_image(model, size, mode='integrate', factor, center), fitting.py:184-245, for a
      model evaluated element by element *)
  Definition model_to_image_integrate (f : T -> T -> T) (size : pyv T) (bool_ : bool) (center : option (pyv T)) : result (img T) :=
    do s <- validate_image_size size bool_;
    let '(nx, ny) := s in
    do o <- (match center with
             | None => Ok (n0, n0)
             | Some c => model_center_to_image_origin c nx ny
             end);
    let '(x0, y0) := o in
    do mx <- range_len x0 (x0 + nofZ nx);
    do my <- range_len y0 (y0 + nofZ ny);
    discretize_integrate f x0 y0 mx my.
End Integrate.
