(** Model of petrofit/modeling/fitting.py.

    Oracles: the model being sampled (any function from coordinate arrays to an image, possibly
    raising), the fitters, astropy's sigma_clip.  discretize_model is astropy's
    (modes center, linear_interp and oversample; integrate is in M_Integrate.v).  Plotting and
    printing are left out. *)
From Coq Require Import String.
From Verif Require Import Base Num Numpy M_Photometry M_PSF.
Local Open Scope list_scope.

Section Sampling.
  Context {T : Type} {N : Num T}.
  Local Open Scope num_scope.

  (** x % 1 for one size entry, then int(x), fitting.py:160-163: whole numbers only.  bool is an
      int here.  A str, None or other object fails in % or in the assertion. *)
  Definition size_entry (v : pyv T) : result Z :=
    match v with
    | VInt z => Ok z
    | VFloat x => if niswhole x then match ntrunc x with Some z => Ok z | None => Err AssertionError end
                  else Err AssertionError
    | _ => Err TypeError
    end.

  (** _validate_image_size, fitting.py:129-165.  np.array in the type list of line 149 is a
      function, so an ndarray size is not accepted there and is not a number either.
      [bool_] says that the value is a Python bool, which np.issubdtype rejects. *)
  Definition validate_image_size (size : pyv T) (bool_ : bool) : result (Z * Z) :=
    match size with
    | VSeq [a; b] =>
        do x <- size_entry a;
        do y <- size_entry b;
        Ok (x, y)
    | VSeq _ => Err AssertionError
    | VInt _ | VFloat _ =>
        if bool_ then Err ValueError else do x <- size_entry size; Ok (x, x)
    | _ => Err ValueError
    end.

  (** entry of np.array(center); anything that is not a number fails in the subtraction *)
  Definition center_entry (v : pyv T) : result T :=
    match v with VInt z => Ok (nofZ z) | VFloat x => Ok x | _ => Err TypeError end.

  (** model_center_to_image_origin, fitting.py:168-181 *)
  Definition model_center_to_image_origin (center : pyv T) (xs ys : Z) : result (T * T) :=
    match center with
    | VSeq [a; b] =>
        do x <- center_entry a;
        do y <- center_entry b;
        Ok (x - nofZ (xs / 2), y - nofZ (ys / 2))
    | _ => Err AssertionError
    end.

  (** entry k of np.arange(a, a + n): start + k * ((start + 1) - start) *)
  Definition arange_at (a : T) (k : nat) : T := a + nofnat k * ((a + n1) - a).

  (** np.meshgrid of two arrays given by their entries *)
  Definition meshgrid (nx ny : nat) (x y : nat -> T) : img T * img T :=
    (mkimg ny nx (fun _ i => x i), mkimg ny nx (fun j _ => y j)).

  Inductive dmode := Center | LinearInterp | Oversample | OtherMode.

  Definition smodel := img T -> img T -> result (img T).

  (** astropy: difference of the range must be a whole number; its value *)
  Definition range_len (a b : T) : result Z :=
    let d := b - a in
    if niswhole d then match ntrunc d with Some z => Ok z | None => Err ValueError end else Err ValueError.

  (** discretize_center_2D *)
  Definition discretize_center (model : smodel) (x0 y0 : T) (nx ny : Z) : result (img T) :=
    let '(X, Y) := meshgrid (Z.to_nat nx) (Z.to_nat ny) (arange_at x0) (arange_at y0) in
    model X Y.

  (** discretize_bilinear_2D: corners of the pixels *)
  Definition discretize_bilinear (model : smodel) (x0 y0 : T) (nx ny : Z) : result (img T) :=
    let '(X, Y) := meshgrid (Z.to_nat (nx + 1)) (Z.to_nat (ny + 1)) (arange_at (x0 - half)) (arange_at (y0 - half)) in
    do v <- model X Y;
    let v1 := mkimg (iny v - 1) (inx v) (fun j i => half * (px v (j + 1) i + px v j i)) in
    Ok (mkimg (iny v1) (inx v1 - 1) (fun j i => half * (px v1 j (i + 1) + px v1 j i))).

  (** discretize_oversample_2D *)
  Definition oversample_axis (a b : T) (f : Z) (n : nat) : list T :=
    linspace (a - half * (n1 - n1 / nofZ f)) (b - half * (n1 + n1 / nofZ f)) n.
  Definition discretize_oversample (model : smodel) (x0 x1 y0 y1 : T) (nx ny f : Z) : result (img T) :=
    let mx := Z.to_nat (nx * f) in
    let my := Z.to_nat (ny * f) in
    let xs := oversample_axis x0 x1 f mx in
    let ys := oversample_axis y0 y1 f my in
    let '(X, Y) := meshgrid mx my (fun i => nth i xs nnan) (fun j => nth j ys nnan) in
    do v <- model X Y;
    let k := Z.to_nat f in
    Ok (mkimg (iny v / k) (inx v / k) (fun J I =>
          nsum (map (fun a => nsum (map (fun b => px v (J * k + a)%nat (I * k + b)%nat) (seq 0 k)) / nofnat k) (seq 0 k))
          / nofnat k)).

  (** astropy discretize_model for a 2-D model; [f] is the factor, a whole number *)
  Definition discretize_model (model : smodel) (x0 x1 y0 y1 : T) (m : dmode) (f : Z) : result (img T) :=
    do nx <- range_len x0 x1;
    do ny <- range_len y0 y1;
    match m with
    | Center => discretize_center model x0 y0 nx ny
    | LinearInterp => discretize_bilinear model x0 y0 nx ny
    | Oversample =>
        if (f =? 0)%Z then Err ZeroDivisionError
        else if (nx * f <? 0)%Z || (ny * f <? 0)%Z then Err ValueError
        else discretize_oversample model x0 x1 y0 y1 nx ny f
    | OtherMode => Err ValueError
    end.

  (** model_to_image, fitting.py:184-245 *)
  Definition model_to_image (model : smodel) (size : pyv T) (bool_ : bool) (m : dmode) (f : Z) (center : option (pyv T))
    : result (img T) :=
    do s <- validate_image_size size bool_;
    let '(nx, ny) := s in
    do o <- (match center with
             | None => Ok (n0, n0)
             | Some c => model_center_to_image_origin c nx ny
             end);
    let '(x0, y0) := o in
    discretize_model model x0 (x0 + nofZ nx) y0 (y0 + nofZ ny) m f.

  (** model evaluated element by element, as plain astropy models do *)
  Definition pointwise (f : T -> T -> T) : smodel :=
    fun X Y => Ok (mkimg (iny X) (inx X) (fun j i => f (px X j i) (px Y j i))).

  (** image - model_image: equal shapes (or a broadcast axis of length 1, not modelled) *)
  Definition img_sub (a b : img T) : result (img T) :=
    if same_shape a b then Ok (mkimg (iny a) (inx a) (fun j i => px a j i - px b j i)) else Err ValueError.

  (** plot_fit, fitting.py:330-476, without the plotting: model image and residual *)
  Definition plot_fit (model : smodel) (image : img T) (m : dmode) (center : option (pyv T)) : result (img T * img T) :=
    do mi <- model_to_image model (VSeq [VInt (Z.of_nat (inx image)); VInt (Z.of_nat (iny image))]) false m 1 center;
    do r <- img_sub image mi;
    Ok (mi, r).
End Sampling.

Section Fit.
  Context {T : Type} {N : Num T}.
  Local Open Scope num_scope.
  Variable M : Type.    (* models *)
  Variable O : Type.    (* maxiter, epsilon, acc, estimate_jacobian *)

  (** what a fitter is called with: columns, rows, values, mask of the values (for masked arrays)
      and weights *)
  Record fitdata := mkfd {
    fd_x : list nat; fd_y : list nat; fd_z : list T; fd_mask : option (list bool); fd_w : option (list T) }.

  (** a fitter class: whether it is one of the three iterative ones, and what an instance returns.
      [option O] is None when the options are not passed. *)
  Record fitter := mkfitter {
    ft_iterative : bool;
    ft_run : bool -> M -> fitdata -> option O -> result M }.

  (** image, possibly a masked array (mask True = masked) *)
  Definition mimage := (img T * option (img bool))%type.

  (** np.where(~np.isnan(image)): looks at the raw data, row by row; (row, column) pairs *)
  Definition good_pixels (image : img T) : list (nat * nat) :=
    filter (fun p => negb (nisnan (px image (fst p) (snd p)))) (pixels (iny image) (inx image)).

  (** fit_model, fitting.py:31-126 *)
  Definition fit_model (image : mimage) (model : M) (weights : option (img T)) (f : fitter)
      (calc_uncertainties : bool) (opts : O) : result (M * fitter) :=
    let ij := good_pixels (fst image) in
    let at_ {A} (a : img A) := map (fun p => px a (fst p) (snd p)) ij in
    do w <- (match weights with
             | None => Ok None
             | Some ws => assert_ (same_shape ws (fst image)) (Ok (Some (at_ ws)))
             end);
    let d := mkfd (map snd ij) (map fst ij) (at_ (fst image)) (option_map at_ (snd image)) w in
    do m <- ft_run f calc_uncertainties model d (if ft_iterative f then Some opts else None);
    Ok (m, f).

  (** astropy sigma_clip(image, sigma): mask of the clipped pixels *)
  Variable sigma_clip : img T -> T -> img bool.

  (** fit_background, fitting.py:248-292 *)
  Definition fit_background (image : img T) (model : M) (sigma : option T) (f : fitter)
      (calc_uncertainties : bool) (opts : O) : result (M * fitter) :=
    let fit_bg_image := match sigma with None => (image, None) | Some s => (image, Some (sigma_clip image s)) end in
    fit_model fit_bg_image model None f calc_uncertainties opts.
End Fit.
Arguments mkfitter {T M O}.
Arguments ft_iterative {T M O}.
Arguments ft_run {T M O}.

Section Gaussian.
  Context {T : Type} {N : Num T}.
  Local Open Scope num_scope.
  (** parameters of astropy's Gaussian2D *)
  Record gaussian := mkgauss { g_amp : T; g_x : T; g_y : T; g_sx : T; g_sy : T; g_theta : T }.
  Variable O : Type.
  Variable default_fitter : fitter (T:=T) gaussian O.   (* TRFLSQFitter *)
  Variable default_opts : O.
  Variable sigma_to_fwhm : T.     (* astropy.stats.gaussian_sigma_to_fwhm *)

  (** ndarray.max() *)
  Definition img_list (m : img T) : list T := map (fun p => px m (fst p) (snd p)) (pixels (iny m) (inx m)).
  Definition img_max (m : img T) : result T :=
    do x <- pymax (img_list m); Ok (if any_nan (img_list m) then nnan else x).

  (** fit_gaussian2d, fitting.py:295-321 *)
  Definition start_gaussian (image : img T) : result gaussian :=
    do a <- img_max image;
    Ok (mkgauss a (nofnat (inx image / 2)) (nofnat (iny image / 2)) n1 n1 n0).
  Definition fit_gaussian2d (image : img T) : result gaussian :=
    do g <- start_gaussian image;
    do r <- fit_model gaussian O (image, None) g None default_fitter false default_opts;
    Ok (fst r).

  (** measure_fwhm, fitting.py:479-580.  With plot=True, line 540 calls plot_fit(image, model)
      with the arguments swapped, and a model has no attribute shape. *)
  Definition measure_fwhm (image : img T) (plot : bool) : result (T * T) :=
    do g <- fit_gaussian2d image;
    let x_fwhm := g_sx g * sigma_to_fwhm in
    let y_fwhm := g_sy g * sigma_to_fwhm in
    do _ <- round_int ((x_fwhm + y_fwhm) / n2);
    if plot then Err AttributeError else Ok (x_fwhm, y_fwhm).
End Gaussian.
Arguments gaussian : clear implicits.
