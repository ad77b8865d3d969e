(** Property theorems for petrofit/modeling/fitting.py: C48-C50, C66-C70. *)
From Coq Require Import String.
From Verif Require Import Base Num Numpy M_Photometry S_Photometry M_PSF S_PSF M_Fitting S_Fitting.
From Verif Require L_Fitting L_Fitting2 E_Fitting.
Local Open Scope list_scope.

(** C48. *)
Theorem C48_rectangle : forall (model : img xr -> img xr -> result (img xr)) size flag f center nx ny x0 y0,
  size_means size flag nx ny -> origin_is center nx ny x0 y0 ->
  model_to_image model size flag Center f center =
  model (rimg (Z.to_nat ny) (Z.to_nat nx) (fun _ i => x0 + INR i)%R) (rimg (Z.to_nat ny) (Z.to_nat nx) (fun j _ => y0 + INR j)%R).
Proof. exact L_Fitting.center_mode. Qed.
Print Assumptions C48_rectangle.

Theorem C48_pixels : forall f g size flag k center nx ny x0 y0,
  real_function f g -> size_means size flag nx ny -> origin_is center nx ny x0 y0 ->
  exists m, model_to_image (pointwise f) size flag Center k center = Ok m /\
    image_of m (Z.to_nat ny) (Z.to_nat nx) (fun j i => g (x0 + INR i) (y0 + INR j))%R.
Proof. exact L_Fitting.center_pixels. Qed.
Print Assumptions C48_pixels.

Theorem C48_size_rejected : forall (model : img xr -> img xr -> result (img xr)) size flag m f center,
  (forall nx ny, ~ size_means size flag nx ny) ->
  exists e, model_to_image model size flag m f center = Err e /\ (e = AssertionError \/ e = ValueError \/ e = TypeError).
Proof. exact L_Fitting.size_rejected. Qed.
Print Assumptions C48_size_rejected.

(** which exception *)
Theorem C48_size_errors : forall (size : pyv xr) flag, (forall nx ny, ~ size_means size flag nx ny) ->
  validate_image_size size flag =
  Err (match size with
       | VSeq [a; b] => match (match a with VInt _ => b | VFloat x => if niswhole x then b else a | _ => a end) with
                        | VInt _ | VFloat _ => AssertionError | _ => TypeError end
       | VSeq _ => AssertionError
       | VInt _ | VFloat _ => if flag then ValueError else AssertionError
       | _ => ValueError
       end).
Proof. exact L_Fitting.validate_rejects. Qed.
Print Assumptions C48_size_errors.

Theorem C48_center_rejected : forall (model : img xr -> img xr -> result (img xr)) size flag m f c nx ny,
  size_means size flag nx ny -> (forall a b, c <> VSeq [a; b]) ->
  model_to_image model size flag m f (Some c) = Err AssertionError.
Proof. exact L_Fitting.center_rejected. Qed.
Print Assumptions C48_center_rejected.

Example C48_example : exists m,
  model_to_image (pointwise (fun x y : xr => (Fin 10 * x + y)%num)) (VSeq [VInt 2; VFloat (Fin 3)]) false Center 1
    (Some (VSeq [VInt 4; VFloat (Fin (9/2))])) = Ok m /\
  iny m = 3%nat /\ inx m = 2%nat /\ px m 0 0 = Fin (67/2) /\ px m 2 1 = Fin (91/2).
Proof. exact E_Fitting.center_example. Qed.

Example C48_example_rejected : forall nx ny,
  ~ size_means (VFloat (Fin (5/2))) false nx ny /\ ~ size_means (VInt 4) true nx ny /\ ~ size_means (VSeq [VInt 2]) false nx ny.
Proof. exact E_Fitting.rejected_example. Qed.

(** C49. *)
Theorem C49_call : forall M O (image : img xr) (model : M) (weights : option (img xr)) (f : fitter (T:=xr) M O) calc (opts : O),
  fits weights image ->
  exists l, row_major (fun j i => (j < iny image)%nat /\ (i < inx image)%nat /\ px image j i <> NaN) l /\
    let values {A} (a : img A) := map (fun p => px a (fst p) (snd p)) l in
    fit_model M O (image, None) model weights f calc opts =
    (do m <- ft_run f calc model (mkfd (map snd l) (map fst l) (values image) None (option_map values weights))
               (if ft_iterative f then Some opts else None);
     Ok (m, f)).
Proof. exact @L_Fitting2.fit_model_call. Qed.
Print Assumptions C49_call.

(** the order leaves only one such list *)
Theorem C49_unique_order : forall P l m, row_major P l -> row_major P m -> l = m.
Proof. exact L_Fitting2.row_major_unique. Qed.
Print Assumptions C49_unique_order.

Theorem C49_nan_pixels : forall M O (a b : img xr) (model : M) w1 w2 (f : fitter (T:=xr) M O) calc (opts : O),
  same_data a b -> same_where_good a w1 w2 ->
  fit_model M O (a, None) model w1 f calc opts = fit_model M O (b, None) model w2 f calc opts.
Proof. exact @L_Fitting2.fit_model_nan. Qed.
Print Assumptions C49_nan_pixels.

Theorem C49_weights_shape : forall M O (image : mimage) (model : M) (w : img xr) (f : fitter (T:=xr) M O) calc (opts : O),
  ~ fits (Some w) (fst image) -> fit_model M O image model (Some w) f calc opts = Err AssertionError.
Proof. exact @L_Fitting2.fit_model_weights_shape. Qed.
Print Assumptions C49_weights_shape.

Theorem C49_returns_class : forall M O (image : mimage) (model : M) w (f : fitter (T:=xr) M O) calc (opts : O) m f',
  fit_model M O image model w f calc opts = Ok (m, f') -> f' = f.
Proof. exact @L_Fitting2.fit_model_class. Qed.
Print Assumptions C49_returns_class.

Example C49_example :
  fit_model _ _ (E_Fitting.im22, None) ([], [], []) None E_Fitting.recorder false 0%Z =
  Ok (([0; 0; 1]%nat, [0; 1; 1]%nat, [Fin (INR 0); Fin (INR 10); Fin (INR 11)]), E_Fitting.recorder).
Proof. exact E_Fitting.fit_example. Qed.

Example C49_example_order : row_major (fun j i => (j < 2)%nat /\ (i < 1)%nat) [(0, 0); (1, 0)]%nat.
Proof. exact E_Fitting.row_major_example. Qed.

(** C50. *)
Theorem C50_residual : forall f g (image : img xr) center x0 y0,
  real_function f g -> origin_is center (Z.of_nat (inx image)) (Z.of_nat (iny image)) x0 y0 ->
  exists mi r, plot_fit (pointwise f) image Center center = Ok (mi, r) /\
    image_of mi (iny image) (inx image) (fun j i => g (x0 + INR i) (y0 + INR j))%R /\
    iny r = iny image /\ inx r = inx image /\
    forall j i, (j < iny image)%nat -> (i < inx image)%nat ->
      px r j i = (px image j i - Fin (g (x0 + INR i) (y0 + INR j))%R)%num.
Proof. exact L_Fitting2.plot_fit_residual. Qed.
Print Assumptions C50_residual.

Example C50_example : exists mi r,
  plot_fit (pointwise (fun x y : xr => (Fin 10 * x + y)%num)) E_Fitting.im22 Center None = Ok (mi, r) /\
  px r 1 1 = Fin 0 /\ px r 0 1 = NaN /\ px r 1 0 = Fin 9.
Proof. exact E_Fitting.residual_example. Qed.

(** C66. *)
Theorem C66_binary64_refuted : forall (model : img f64 -> img f64 -> result (img f64)) m f,
  model_to_image model (VInt 5) false m f (Some (VSeq [VFloat (nlit 52 10); VFloat (nlit 52 10)])) = Err ValueError.
Proof. exact E_Fitting.fractional_center. Qed.
Print Assumptions C66_binary64_refuted.

Theorem C66_exact : forall f g k size flag nx ny cx cy,
  real_function f g -> size_means size flag nx ny ->
  exists m, model_to_image (pointwise f) size flag Center k (Some (VSeq [VFloat (Fin cx); VFloat (Fin cy)])) = Ok m.
Proof. exact E_Fitting.exact_center. Qed.
Print Assumptions C66_exact.

Example C66_example :
  match model_to_image (T:=f64) (fun X Y => Ok X) (VInt 5) false Center 1 (Some (VSeq [VFloat (nlit 55 10); VFloat (nlit 55 10)])) with
  | Ok m => (iny m, inx m) = (5, 5)%nat
  | Err _ => False
  end.
Proof. exact E_Fitting.fractional_center_fine. Qed.

(** C67. *)
Theorem C67_linear_interp : forall f g size flag k center nx ny x0 y0,
  real_function f g -> size_means size flag nx ny -> origin_is center nx ny x0 y0 ->
  exists m, model_to_image (pointwise f) size flag LinearInterp k center = Ok m /\
    image_of m (Z.to_nat ny) (Z.to_nat nx) (fun j i =>
      let x := x0 + INR i in let y := y0 + INR j in
      (g (x - 1/2) (y - 1/2) + g (x + 1/2) (y - 1/2) + g (x - 1/2) (y + 1/2) + g (x + 1/2) (y + 1/2)) / 4)%R.
Proof. exact L_Fitting.bilinear_pixels. Qed.
Print Assumptions C67_linear_interp.

Theorem C67_oversample : forall f g size flag k center nx ny x0 y0,
  (0 < k)%Z -> (0 <= nx)%Z -> (0 <= ny)%Z ->
  real_function f g -> size_means size flag nx ny -> origin_is center nx ny x0 y0 ->
  exists m, model_to_image (pointwise f) size flag Oversample k center = Ok m /\
    image_of m (Z.to_nat ny) (Z.to_nat nx) (fun j i => mean_samples g (Z.to_nat k) (x0 + INR i) (y0 + INR j))%R.
Proof. exact L_Fitting.oversample_pixels. Qed.
Print Assumptions C67_oversample.

Theorem C67_affine : forall f a b c size flag k center nx ny x0 y0 m,
  (0 < k)%Z -> (0 <= nx)%Z -> (0 <= ny)%Z -> m <> OtherMode ->
  real_function f (fun x y => a + b * x + c * y)%R -> size_means size flag nx ny -> origin_is center nx ny x0 y0 ->
  exists im, model_to_image (pointwise f) size flag m k center = Ok im /\
    image_of im (Z.to_nat ny) (Z.to_nat nx) (fun j i => a + b * (x0 + INR i) + c * (y0 + INR j))%R.
Proof. exact E_Fitting.affine_modes. Qed.
Print Assumptions C67_affine.

Theorem C67_refused : forall (model : smodel (T:=xr)) size flag k center nx ny x0 y0,
  size_means size flag nx ny -> origin_is center nx ny x0 y0 ->
  model_to_image model size flag OtherMode k center = Err ValueError /\
  model_to_image model size flag Oversample 0 center = Err ZeroDivisionError /\
  ((k < 0)%Z -> (0 < nx)%Z \/ (0 < ny)%Z -> model_to_image model size flag Oversample k center = Err ValueError).
Proof. exact L_Fitting.refused_modes. Qed.
Print Assumptions C67_refused.

Example C67_example : let f := pointwise (fun x y : xr => (x * x)%num) in
  exists a b c,
    model_to_image f (VInt 1) false Center 1 None = Ok a /\ px a 0 0 = Fin 0 /\
    model_to_image f (VInt 1) false LinearInterp 1 None = Ok b /\ px b 0 0 = Fin (1/4) /\
    model_to_image f (VInt 1) false Oversample 2 None = Ok c /\ px c 0 0 = Fin (1/16).
Proof. exact E_Fitting.modes_example. Qed.

(** C68. *)
Theorem C68_clipped_pixels_passed : forall M O (sigma_clip : img xr -> xr -> img bool) (image : img xr) (model : M) s
    (f : fitter (T:=xr) M O) calc (opts : O),
  exists l, row_major (fun j i => (j < iny image)%nat /\ (i < inx image)%nat /\ px image j i <> NaN) l /\
    let values {A} (a : img A) := map (fun p => px a (fst p) (snd p)) l in
    fit_background M O sigma_clip image model (Some s) f calc opts =
    (do m <- ft_run f calc model (mkfd (map snd l) (map fst l) (values image) (Some (values (sigma_clip image s))) None)
               (if ft_iterative f then Some opts else None);
     Ok (m, f)).
Proof. exact @L_Fitting2.background_call. Qed.
Print Assumptions C68_clipped_pixels_passed.

Theorem C68_mask_ignored : forall M O (sigma_clip : img xr -> xr -> img bool) (image : img xr) (model : M) s
    (f : fitter (T:=xr) M O) calc (opts : O),
  (forall b m x y z k w o, ft_run f b m (mkfd x y z k w) o = ft_run f b m (mkfd x y z None w) o) ->
  fit_background M O sigma_clip image model s f calc opts = fit_model M O (image, None) model None f calc opts.
Proof. exact @L_Fitting2.background_unmasked. Qed.
Print Assumptions C68_mask_ignored.

Theorem C68_no_sigma : forall M O (sigma_clip : img xr -> xr -> img bool) (image : img xr) (model : M)
    (f : fitter (T:=xr) M O) calc (opts : O),
  fit_background M O sigma_clip image model None f calc opts = fit_model M O (image, None) model None f calc opts.
Proof. exact @L_Fitting2.background_none. Qed.
Print Assumptions C68_no_sigma.

Example C68_example :
  fit_background _ _ (fun im s => mkimg 2 2 (fun j i => Nat.eqb j 1 && Nat.eqb i 1)) E_Fitting.im22 ([], None) (Some (Fin 3))
    E_Fitting.mask_recorder false 0%Z =
  Ok (([Fin (INR 0); Fin (INR 10); Fin (INR 11)], Some [false; false; true]), E_Fitting.mask_recorder).
Proof. exact E_Fitting.background_example. Qed.

(** C69. *)
Theorem C69_start : forall O (fitr : fitter (T:=xr) (gaussian xr) O) opts (image : img xr) v,
  (0 < iny image)%nat -> (0 < inx image)%nat -> finite_img image v ->
  exists a, (forall j i, (j < iny image)%nat -> (i < inx image)%nat -> (v j i <= a)%R) /\
    (exists j i, (j < iny image)%nat /\ (i < inx image)%nat /\ v j i = a) /\
  fit_gaussian2d O fitr opts image =
  (do r <- fit_model (gaussian xr) O (image, None)
             (mkgauss (Fin a) (Fin (INR (inx image / 2))) (Fin (INR (iny image / 2))) (Fin 1) (Fin 1) (Fin 0)) None fitr false opts;
   Ok (fst r)).
Proof. exact E_Fitting.gaussian_finite_start. Qed.
Print Assumptions C69_start.

Theorem C69_nan_start : forall O (fitr : fitter (T:=xr) (gaussian xr) O) opts (image : img xr),
  (exists j i, (j < iny image)%nat /\ (i < inx image)%nat /\ px image j i = NaN) ->
  fit_gaussian2d O fitr opts image =
  (do r <- fit_model (gaussian xr) O (image, None)
             (mkgauss NaN (Fin (INR (inx image / 2))) (Fin (INR (iny image / 2))) (Fin 1) (Fin 1) (Fin 0)) None fitr false opts;
   Ok (fst r)).
Proof. exact E_Fitting.gaussian_nan_start. Qed.
Print Assumptions C69_nan_start.

Theorem C69_empty : forall O (fitr : fitter (T:=xr) (gaussian xr) O) opts (image : img xr),
  (iny image = 0 \/ inx image = 0)%nat -> fit_gaussian2d O fitr opts image = Err ValueError.
Proof. exact E_Fitting.gaussian_empty. Qed.
Print Assumptions C69_empty.

Example C69_example :
  fit_gaussian2d Z E_Fitting.keep_start 0%Z E_Fitting.im22 = Ok (mkgauss NaN (Fin 1) (Fin 1) (Fin 1) (Fin 1) (Fin 0)).
Proof. exact E_Fitting.gaussian_nan_example. Qed.

(** C70. *)
Theorem C70_default_raises : forall O (fitr : fitter (T:=xr) (gaussian xr) O) (opts : O) (image : img xr) c r,
  measure_fwhm O fitr opts c image true <> Ok r.
Proof. exact @L_Fitting2.fwhm_plot. Qed.
Print Assumptions C70_default_raises.

Theorem C70_default_error : forall O (fitr : fitter (T:=xr) (gaussian xr) O) (opts : O) (image : img xr) c r,
  measure_fwhm O fitr opts c image false = Ok r -> measure_fwhm O fitr opts c image true = Err AttributeError.
Proof. exact @L_Fitting2.fwhm_plot_error. Qed.
Print Assumptions C70_default_error.

Theorem C70_width : forall O (fitr : fitter (T:=xr) (gaussian xr) O) opts (image : img xr) fx fy,
  measure_fwhm O fitr opts (Fin fwhm_factor) image false = Ok (Fin fx, Fin fy) -> (0 < fx)%R -> (0 < fy)%R ->
  exists g sx sy, fit_gaussian2d O fitr opts image = Ok g /\ g_sx g = Fin sx /\ g_sy g = Fin sy /\
    (forall A x0 y0 t d e, (d = 1 \/ d = -1) -> (e = 1 \/ e = -1) ->
    gauss2d_astropy A x0 y0 sx sy t (x0 + d * (fx / 2) * cos t) (y0 + d * (fx / 2) * sin t) = A / 2 /\
    gauss2d_astropy A x0 y0 sx sy t (x0 - e * (fy / 2) * sin t) (y0 + e * (fy / 2) * cos t) = A / 2 /\
    gauss2d_astropy A x0 y0 sx sy t x0 y0 = A)%R.
Proof. exact E_Fitting.fwhm_meaning. Qed.
Print Assumptions C70_width.

(** "x direction" is wrong for a turned Gaussian *)
Theorem C70_turned : forall A x0 y0 sx sy, (A <> 0 -> 0 < sx -> 0 < sy -> sx <> sy ->
  gauss2d_astropy A x0 y0 sx sy (PI / 2) (x0 + sx * fwhm_factor / 2) y0 <> A / 2 /\
  gauss2d_astropy A x0 y0 sx sy (PI / 2) (x0 + sy * fwhm_factor / 2) y0 = A / 2)%R.
Proof. exact E_Fitting.fwhm_turned. Qed.
Print Assumptions C70_turned.

Example C70_example :
  measure_fwhm Z E_Fitting.fixed_fit 0%Z (Fin fwhm_factor) E_Fitting.im22 false = Ok (Fin (2 * fwhm_factor), Fin (3 * fwhm_factor)) /\
  measure_fwhm Z E_Fitting.fixed_fit 0%Z (Fin fwhm_factor) E_Fitting.im22 true = Err AttributeError.
Proof. exact E_Fitting.fwhm_example. Qed.
