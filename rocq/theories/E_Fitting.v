(** Concrete cases and combined statements for fitting.py. *)
From Coq Require Import String FunctionalExtensionality.
From Verif Require Import Base Num Numpy L_Numpy M_Photometry S_Photometry L_Photometry M_PSF S_PSF L_PSF L_PSF2 M_Fitting S_Fitting L_Fitting L_Fitting2.
Local Open Scope list_scope.
Local Open Scope R_scope.

Definition plane (x y : xr) : xr := (Fin 10 * x + y)%num.
Lemma plane_real : real_function plane (fun x y => 10 * x + y).
Proof. intros x y. reflexivity. Qed.

Lemma size_example : size_means (VSeq [VInt 2; VFloat (Fin 3)]) false 2 3.
Proof. constructor; [left|right]; reflexivity. Qed.
Lemma origin_example : origin_is (Some (VSeq [VInt 4; VFloat (Fin (9/2))])) 2 3 3 (7/2).
Proof.
  exists 4, (9/2). split; [left; exists 4%Z; auto|]. split; [right; auto|].
  split; exists 1%Z; split; try lia; lra.
Qed.

Lemma center_example : exists m,
  model_to_image (pointwise plane) (VSeq [VInt 2; VFloat (Fin 3)]) false Center 1 (Some (VSeq [VInt 4; VFloat (Fin (9/2))])) = Ok m /\
  iny m = 3%nat /\ inx m = 2%nat /\ px m 0 0 = Fin (67/2) /\ px m 2 1 = Fin (91/2).
Proof.
  destruct (center_pixels _ _ _ _ 1 _ _ _ _ _ plane_real size_example origin_example) as (m & Hm & Hy & Hx & Hp).
  exists m. split; [exact Hm|]. change (Z.to_nat 3) with 3%nat in *. change (Z.to_nat 2) with 2%nat in *.
  repeat split; auto; rewrite Hp by lia; f_equal; cbn; lra.
Qed.

Lemma rejected_example : forall nx ny,
  ~ size_means (VFloat (Fin (5/2))) false nx ny /\ ~ size_means (VInt 4) true nx ny /\ ~ size_means (VSeq [VInt 2]) false nx ny.
Proof.
  intros nx ny. repeat split; intros H; inversion H; subst.
  - destruct H0 as [H0|H0]; [discriminate|]. injection H0 as H0.
    assert (IZR (2 * ny) = 5) by (rewrite mult_IZR; lra).
    apply (eq_IZR _ 5) in H1. lia.
  - destruct H0 as [H0|H0]; discriminate.
Qed.

(** binary64: an image centred on (5.2, 5.2) with 5 pixels cannot be made, whatever the model *)
Lemma fractional_center : forall (model : img f64 -> img f64 -> result (img f64)) m f,
  model_to_image model (VInt 5) false m f (Some (VSeq [VFloat (nlit 52 10); VFloat (nlit 52 10)])) = Err ValueError.
Proof. intros. vm_compute. reflexivity. Qed.
Lemma fractional_center_fine :
  match model_to_image (T:=f64) (fun X Y => Ok X) (VInt 5) false Center 1 (Some (VSeq [VFloat (nlit 55 10); VFloat (nlit 55 10)])) with
  | Ok m => (iny m, inx m) = (5, 5)%nat
  | Err _ => False
  end.
Proof. vm_compute. reflexivity. Qed.

(** exact arithmetic: no centre is rejected *)
Lemma exact_center f g k size flag nx ny cx cy :
  real_function f g -> size_means size flag nx ny ->
  exists m, model_to_image (pointwise f) size flag Center k (Some (VSeq [VFloat (Fin cx); VFloat (Fin cy)])) = Ok m.
Proof.
  intros Hf Hs.
  destruct (center_pixels f g size flag k (Some (VSeq [VFloat (Fin cx); VFloat (Fin cy)])) nx ny (cx - IZR (nx / 2)) (cy - IZR (ny / 2)) Hf Hs)
    as (m & Hm & _); [|eauto].
  exists cx, cy. split; [right; auto|]. split; [right; auto|].
  split; [exists (nx / 2)%Z | exists (ny / 2)%Z]; split; auto; pose proof (Z.div_mod nx 2); pose proof (Z.mod_pos_bound nx 2);
    pose proof (Z.div_mod ny 2); pose proof (Z.mod_pos_bound ny 2); lia.
Qed.

(** affine models come out the same in all three modes *)
Lemma affine_modes f a b c size flag k center nx ny x0 y0 m :
  (0 < k)%Z -> (0 <= nx)%Z -> (0 <= ny)%Z -> m <> OtherMode ->
  real_function f (fun x y => a + b * x + c * y) -> size_means size flag nx ny -> origin_is center nx ny x0 y0 ->
  exists im, model_to_image (pointwise f) size flag m k center = Ok im /\
    image_of im (Z.to_nat ny) (Z.to_nat nx) (fun j i => a + b * (x0 + INR i) + c * (y0 + INR j)).
Proof.
  intros Hk Hnx Hny Hm Hf Hs Ho. destruct m; try congruence.
  - exact (center_pixels _ _ _ _ k _ _ _ _ _ Hf Hs Ho).
  - destruct (bilinear_pixels _ _ _ _ k _ _ _ _ _ Hf Hs Ho) as (im & Him & Hy & Hx & Hp).
    exists im. repeat split; auto. intros j i Hj Hi. rewrite Hp by auto. f_equal. cbv zeta. field.
  - destruct (oversample_pixels _ _ _ _ k _ _ _ _ _ Hk Hnx Hny Hf Hs Ho) as (im & Him & Hy & Hx & Hp).
    exists im. repeat split; auto. intros j i Hj Hi. rewrite Hp by auto. f_equal. apply mean_affine. lia.
Qed.

(** 1 x 1 image of x*x: the three modes differ *)
Lemma modes_example : let f := pointwise (fun x y : xr => (x * x)%num) in
  exists a b c,
    model_to_image f (VInt 1) false Center 1 None = Ok a /\ px a 0 0 = Fin 0 /\
    model_to_image f (VInt 1) false LinearInterp 1 None = Ok b /\ px b 0 0 = Fin (1/4) /\
    model_to_image f (VInt 1) false Oversample 2 None = Ok c /\ px c 0 0 = Fin (1/16).
Proof.
  assert (Hf : real_function (fun x y : xr => (x * x)%num) (fun x y => x * x)) by (intros x y; reflexivity).
  assert (Hs : size_means (VInt 1) false 1 1) by (constructor; left; reflexivity).
  assert (Ho : origin_is None 1 1 0 0) by (split; reflexivity).
  destruct (center_pixels _ _ _ _ 1 _ _ _ _ _ Hf Hs Ho) as (a & Ha & Ya & Xa & Pa).
  destruct (bilinear_pixels _ _ _ _ 1 _ _ _ _ _ Hf Hs Ho) as (b & Hb & Yb & Xb & Pb).
  destruct (oversample_pixels _ _ _ _ 2 _ 1 1 _ _ ltac:(lia) ltac:(lia) ltac:(lia) Hf Hs Ho) as (c & Hc & Yc & Xc & Pc).
  exists a, b, c. cbv zeta.
  repeat split; auto.
  - rewrite Pa by (cbn; lia). f_equal. cbn. lra.
  - rewrite Pb by (cbn; lia). f_equal. cbn. field.
  - rewrite Pc by (cbn; lia). f_equal. unfold mean_samples. change (Z.to_nat 2) with 2%nat. cbn [sum2 sum_to INR]. unfold sum2. cbn [sum_to INR]. field.
Qed.

(** ** fit_model on a 2 x 2 image with one NaN *)
Definition im22 : img xr := mkimg 2 2 (fun j i => match j, i with 0%nat, 1%nat => NaN | _, _ => Fin (INR (10 * j + i)) end).
(* a fitter that returns what it was given *)
Definition recorder : fitter (T:=xr) (list nat * list nat * list xr) Z :=
  mkfitter true (fun _ _ d _ => Ok (fd_x d, fd_y d, fd_z d)).
Lemma fit_example :
  fit_model _ _ (im22, None) ([], [], []) None recorder false 0%Z =
  Ok (([0; 0; 1]%nat, [0; 1; 1]%nat, [Fin (INR 0); Fin (INR 10); Fin (INR 11)]), recorder).
Proof. reflexivity. Qed.

Lemma row_major_example : row_major (fun j i => (j < 2)%nat /\ (i < 1)%nat) [(0, 0); (1, 0)]%nat.
Proof.
  split.
  - intros a b p q Ha Hb. destruct a as [|[|[|a]]], b as [|[|[|b]]]; cbn in *; try discriminate;
      injection Ha as <-; injection Hb as <-; unfold before; cbn; lia.
  - intros j i. cbn. split.
    + intros [[= <- <-]|[[= <- <-]|[]]]; lia.
    + intros [Hj Hi]. destruct j as [|[|j]]; try lia; destruct i; try lia; auto.
Qed.

(** a clipped pixel is still handed over; the mask says so *)
Definition mask_recorder : fitter (T:=xr) (list xr * option (list bool)) Z :=
  mkfitter false (fun _ _ d _ => Ok (fd_z d, fd_mask d)).
Lemma background_example :
  fit_background _ _ (fun im s => mkimg 2 2 (fun j i => Nat.eqb j 1 && Nat.eqb i 1)) im22 ([], None) (Some (Fin 3)) mask_recorder false 0%Z =
  Ok (([Fin (INR 0); Fin (INR 10); Fin (INR 11)], Some [false; false; true]), mask_recorder).
Proof. reflexivity. Qed.

(** ** Gaussians *)
Lemma gaussian_nan_start O (fitr : fitter (T:=xr) (gaussian xr) O) opts (image : img xr) :
  (exists j i, (j < iny image)%nat /\ (i < inx image)%nat /\ px image j i = NaN) ->
  fit_gaussian2d O fitr opts image =
  (do r <- fit_model (gaussian xr) O (image, None)
             (mkgauss NaN (Fin (INR (inx image / 2))) (Fin (INR (iny image / 2))) (Fin 1) (Fin 1) (Fin 0)) None fitr false opts;
   Ok (fst r)).
Proof. intros H. unfold fit_gaussian2d. now rewrite start_nan. Qed.

Lemma gaussian_finite_start O (fitr : fitter (T:=xr) (gaussian xr) O) opts (image : img xr) v :
  (0 < iny image)%nat -> (0 < inx image)%nat -> finite_img image v ->
  exists a, (forall j i, (j < iny image)%nat -> (i < inx image)%nat -> v j i <= a) /\
    (exists j i, (j < iny image)%nat /\ (i < inx image)%nat /\ v j i = a) /\
  fit_gaussian2d O fitr opts image =
  (do r <- fit_model (gaussian xr) O (image, None)
             (mkgauss (Fin a) (Fin (INR (inx image / 2))) (Fin (INR (iny image / 2))) (Fin 1) (Fin 1) (Fin 0)) None fitr false opts;
   Ok (fst r)).
Proof.
  intros Hy Hx Hf. destruct (start_finite image v Hy Hx Hf) as (a & Ha & Hm & Hi). exists a. repeat split; auto.
  unfold fit_gaussian2d. now rewrite Ha.
Qed.

Lemma gaussian_empty O (fitr : fitter (T:=xr) (gaussian xr) O) opts (image : img xr) :
  (iny image = 0 \/ inx image = 0)%nat -> fit_gaussian2d O fitr opts image = Err ValueError.
Proof. intros H. unfold fit_gaussian2d. now rewrite start_empty. Qed.

Definition keep_start : fitter (T:=xr) (gaussian xr) Z := mkfitter true (fun _ g _ _ => Ok g).
Lemma gaussian_nan_example : fit_gaussian2d Z keep_start 0%Z im22 = Ok (mkgauss NaN (Fin 1) (Fin 1) (Fin 1) (Fin 1) (Fin 0)).
Proof.
  rewrite gaussian_nan_start; [|exists 0%nat, 1%nat; cbn; repeat split; lia]. cbn. repeat f_equal; reflexivity.
Qed.

Lemma fwhm_factor_pos : 0 < fwhm_factor.
Proof.
  unfold fwhm_factor. assert (0 < ln 2) by (rewrite <- ln_1; apply ln_increasing; lra).
  assert (0 < sqrt (2 * ln 2)) by (apply sqrt_lt_R0; lra). lra.
Qed.

Lemma fwhm_meaning O (fitr : fitter (T:=xr) (gaussian xr) O) opts (image : img xr) fx fy :
  measure_fwhm O fitr opts (Fin fwhm_factor) image false = Ok (Fin fx, Fin fy) -> 0 < fx -> 0 < fy ->
  exists g sx sy, fit_gaussian2d O fitr opts image = Ok g /\ g_sx g = Fin sx /\ g_sy g = Fin sy /\
    forall A x0 y0 t d e, (d = 1 \/ d = -1) -> (e = 1 \/ e = -1) ->
    gauss2d_astropy A x0 y0 sx sy t (x0 + d * (fx / 2) * cos t) (y0 + d * (fx / 2) * sin t) = A / 2 /\
    gauss2d_astropy A x0 y0 sx sy t (x0 - e * (fy / 2) * sin t) (y0 + e * (fy / 2) * cos t) = A / 2 /\
    gauss2d_astropy A x0 y0 sx sy t x0 y0 = A.
Proof.
  intros H Px Py. pose proof fwhm_factor_pos as PF. destruct (fwhm_result fitr opts image fx fy H) as (g & Hg & Hsx & Hsy).
  exists g, (fx / fwhm_factor), (fy / fwhm_factor). repeat split; auto.
  all: destruct (fwhm_axes A x0 y0 (fx / fwhm_factor) (fy / fwhm_factor) t d e) as (R1 & R2 & R3); auto;
    try (apply Rdiv_lt_0_compat; lra).
  - rewrite <- R1. f_equal; field; lra.
  - rewrite <- R2. f_equal; field; lra.
Qed.

(** turned by 90 degrees, the first number is not the width in x *)
Lemma fwhm_turned A x0 y0 sx sy : A <> 0 -> 0 < sx -> 0 < sy -> sx <> sy ->
  gauss2d_astropy A x0 y0 sx sy (PI / 2) (x0 + sx * fwhm_factor / 2) y0 <> A / 2 /\
  gauss2d_astropy A x0 y0 sx sy (PI / 2) (x0 + sy * fwhm_factor / 2) y0 = A / 2.
Proof.
  intros HA Hx Hy Hn. rewrite !gauss_forms by lra. unfold gauss2d. rewrite cos_PI2, sin_PI2.
  assert (EH := exp_half sy Hy).
  split.
  - match goal with |- A * exp (- ?q) <> _ => replace q with ((sx * fwhm_factor / 2) * (sx * fwhm_factor / 2) / (2 * (sy * sy))) by (field; lra) end.
    intros E. assert (E' : exp (- (sx * fwhm_factor / 2 * (sx * fwhm_factor / 2) / (2 * (sy * sy)))) = 1/2).
    { apply (Rmult_eq_reg_l A); auto. lra. }
    rewrite <- EH in E'. apply exp_inv in E'. pose proof fwhm_factor_pos.
    assert (S2 : (sx * fwhm_factor) * (sx * fwhm_factor) = (sy * fwhm_factor) * (sy * fwhm_factor)).
    { assert (K : sx * fwhm_factor / 2 * (sx * fwhm_factor / 2) / (2 * (sy * sy)) = sy * fwhm_factor / 2 * (sy * fwhm_factor / 2) / (2 * (sy * sy))) by lra.
      apply (f_equal (fun u => u * (8 * (sy * sy)))) in K. field_simplify in K; try lra. }
    assert (P1 : 0 < sx * fwhm_factor) by (apply Rmult_lt_0_compat; lra).
    assert (P2 : 0 < sy * fwhm_factor) by (apply Rmult_lt_0_compat; lra).
    assert (sx * fwhm_factor = sy * fwhm_factor).
    { apply Rsqr_inj; unfold Rsqr; lra. }
    apply Hn. apply (Rmult_eq_reg_r fwhm_factor); lra.
  - match goal with |- A * exp (- ?q) = _ => replace q with ((sy * fwhm_factor / 2) * (sy * fwhm_factor / 2) / (2 * (sy * sy))) by (field; lra) end.
    rewrite EH. lra.
Qed.

Definition fixed_fit : fitter (T:=xr) (gaussian xr) Z :=
  mkfitter true (fun _ g _ _ => Ok (mkgauss (Fin 1) (Fin 0) (Fin 0) (Fin 2) (Fin 3) (Fin 0))).
Lemma fwhm_example :
  measure_fwhm Z fixed_fit 0%Z (Fin fwhm_factor) im22 false = Ok (Fin (2 * fwhm_factor), Fin (3 * fwhm_factor)) /\
  measure_fwhm Z fixed_fit 0%Z (Fin fwhm_factor) im22 true = Err AttributeError.
Proof.
  assert (G : fit_gaussian2d Z fixed_fit 0%Z im22 = Ok (mkgauss (Fin 1) (Fin 0) (Fin 0) (Fin 2) (Fin 3) (Fin 0))).
  { rewrite gaussian_nan_start; [reflexivity|]. exists 0%nat, 1%nat. cbn. repeat split; lia. }
  unfold measure_fwhm. rewrite G. cbn [bind g_sx g_sy].
  unfold n2. cbn [nmul nadd ndiv nofZ XRnum xmul xadd xdiv]. rewrite Reqb_false by lra. split; reflexivity.
Qed.

Lemma residual_example : exists mi r,
  plot_fit (pointwise plane) im22 Center None = Ok (mi, r) /\ px r 1 1 = Fin 0 /\ px r 0 1 = NaN /\ px r 1 0 = Fin 9.
Proof.
  destruct (plot_fit_residual plane _ im22 None 0 0 plane_real (conj eq_refl eq_refl)) as (mi & r & H & _ & _ & _ & Hp).
  exists mi, r. split; [exact H|]. cbn [iny inx im22] in Hp.
  repeat split; rewrite Hp by lia; cbn; try reflexivity; f_equal; lra.
Qed.
