(** Proofs about images of moved models and their photometry (C130). *)
From Coq Require Import String.
From Verif Require Import Base Num Numpy M_Photometry S_Photometry S_Center S_Symm M_PSF S_PSF M_Fitting S_Fitting M_Sersic S_Motion.
From Verif Require L_Fitting L_Photometry L_Sersic2 L_Symm L_Motion.
Local Open Scope R_scope.

(** a pixel of the image in the three modes *)
Definition pixel_value (m : dmode) (k : Z) (g : R -> R -> R) (x y : R) : R :=
  match m with
  | Center => g x y
  | LinearInterp => (g (x - 1/2) (y - 1/2) + g (x + 1/2) (y - 1/2) + g (x - 1/2) (y + 1/2) + g (x + 1/2) (y + 1/2)) / 4
  | _ => mean_samples g (Z.to_nat k) x y
  end.

Lemma modes_pixels f g size flag m k center nx ny x0 y0 :
  m <> OtherMode -> (0 < k)%Z -> (0 <= nx)%Z -> (0 <= ny)%Z ->
  real_function f g -> size_means size flag nx ny -> origin_is center nx ny x0 y0 ->
  exists im, model_to_image (pointwise f) size flag m k center = Ok im /\
    image_of im (Z.to_nat ny) (Z.to_nat nx) (fun j i => pixel_value m k g (x0 + INR i) (y0 + INR j)).
Proof.
  intros Hm Hk Hx Hy Hf Hs Ho. destruct m; [| | |congruence].
  - now apply L_Fitting.center_pixels.
  - now apply L_Fitting.bilinear_pixels.
  - now apply L_Fitting.oversample_pixels.
Qed.

Lemma sum_to_swap n m f : sum_to n (fun i => sum_to m (fun j => f i j)) = sum_to m (fun j => sum_to n (fun i => f i j)).
Proof.
  induction n as [|n IH]; cbn [sum_to].
  - induction m as [|m IHm]; cbn [sum_to]; auto. rewrite <- IHm. ring.
  - rewrite IH. clear IH. induction m as [|m IHm]; cbn [sum_to]; [ring|]. rewrite <- IHm. ring.
Qed.

Lemma sum_to_rev n f : sum_to n f = sum_to n (fun i => f (n - 1 - i)%nat).
Proof.
  assert (S : forall n f, sum_to (S n) f = f 0%nat + sum_to n (fun i => f (S i))).
  { clear. induction n as [|n IH]; intros f; [cbn; ring|]. cbn [sum_to] in *. rewrite IH. ring. }
  revert f; induction n as [|n IH]; intros f; auto.
  rewrite (S n (fun i => f (Datatypes.S n - 1 - i)%nat)). cbn [sum_to]. rewrite IH.
  replace (Datatypes.S n - 1 - 0)%nat with n by lia. rewrite Rplus_comm. f_equal.
  apply L_Photometry.sum_to_ext. intros i Hi. f_equal. lia.
Qed.

Lemma pixel_swap m k g g' x y : (forall x y, g' y x = g x y) -> pixel_value m k g' y x = pixel_value m k g x y.
Proof.
  intros H. destruct m; cbn [pixel_value]; auto.
  - rewrite !H. lra.
  - unfold mean_samples, sum2. f_equal. rewrite sum_to_swap. apply L_Photometry.sum_to_ext. intros i _.
    apply L_Photometry.sum_to_ext. intros j _. apply H.
  - unfold mean_samples, sum2. f_equal. rewrite sum_to_swap. apply L_Photometry.sum_to_ext. intros i _.
    apply L_Photometry.sum_to_ext. intros j _. apply H.
Qed.

Lemma mean_mirror k g g' a x y : (0 < k)%nat -> (forall x y, g' (a - x) y = g x y) ->
  mean_samples g' k (a - x) y = mean_samples g k x y.
Proof.
  intros Hk H. unfold mean_samples, sum2. f_equal. apply L_Photometry.sum_to_ext. intros j _.
  rewrite sum_to_rev. apply L_Photometry.sum_to_ext. intros i Hi. rewrite <- H. f_equal.
  rewrite !minus_INR by lia. cbn [INR].
  assert (0 < INR k) by (apply lt_0_INR; lia). field. lra.
Qed.

Lemma pixel_mirror m k g g' a x y : (0 < k)%Z -> (forall x y, g' (a - x) y = g x y) ->
  pixel_value m k g' (a - x) y = pixel_value m k g x y.
Proof.
  intros Hk H. destruct m; cbn [pixel_value]; auto; try (apply mean_mirror; auto; lia).
  replace (a - x - 1/2) with (a - (x + 1/2)) by lra. replace (a - x + 1/2) with (a - (x - 1/2)) by lra.
  rewrite !H. lra.
Qed.

Lemma pixel_upend m k g g' a x y : (0 < k)%Z -> (forall x y, g' x (a - y) = g x y) ->
  pixel_value m k g' x (a - y) = pixel_value m k g x y.
Proof.
  intros Hk H.
  rewrite <- (pixel_swap m k g' (fun y x => g' x y)) by auto.
  rewrite <- (pixel_swap m k g (fun y x => g x y)) by auto.
  apply pixel_mirror; auto.
Qed.

Lemma pixel_shift m k g g' u v x y : (forall x y, g' (x + u) (y + v) = g x y) ->
  pixel_value m k g' (x + u) (y + v) = pixel_value m k g x y.
Proof.
  intros H. destruct m; cbn [pixel_value]; auto.
  - replace (x + u - 1/2) with (x - 1/2 + u) by lra. replace (x + u + 1/2) with (x + 1/2 + u) by lra.
    replace (y + v - 1/2) with (y - 1/2 + v) by lra. replace (y + v + 1/2) with (y + 1/2 + v) by lra. now rewrite !H.
  - unfold mean_samples, sum2. f_equal. apply L_Photometry.sum_to_ext. intros i _.
    apply L_Photometry.sum_to_ext. intros j _. rewrite <- H. f_equal; ring.
  - unfold mean_samples, sum2. f_equal. apply L_Photometry.sum_to_ext. intros i _.
    apply L_Photometry.sum_to_ext. intros j _. rewrite <- H. f_equal; ring.
Qed.

Lemma sum_to_mult n c f : sum_to n (fun i => c * f i) = c * sum_to n f.
Proof. induction n as [|n IH]; cbn [sum_to]; [ring|]. rewrite IH. ring. Qed.

Lemma pixel_scale m k g g' c x y : (forall x y, g' x y = c * g x y) ->
  pixel_value m k g' x y = c * pixel_value m k g x y.
Proof.
  assert (M : forall n, (forall x y, g' x y = c * g x y) -> mean_samples g' n x y = c * mean_samples g n x y).
  { intros n H. unfold mean_samples, sum2.
    rewrite (L_Photometry.sum_to_ext n (fun j => sum_to n (fun i => g' _ _)) (fun j => c * sum_to n (fun i => g (x - 1/2 + (INR i + 1/2) / INR n) (y - 1/2 + (INR j + 1/2) / INR n)))).
    - rewrite sum_to_mult. unfold Rdiv. ring.
    - intros j _. rewrite <- sum_to_mult. apply L_Photometry.sum_to_ext. intros i _. apply H. }
  intros H. destruct m; cbn [pixel_value]; auto. rewrite !H. lra.
Qed.

(** the images; [drawn] abbreviates the common hypotheses in the proofs only *)
Section Images.
  Variables (f f' : xr -> xr -> xr) (g g' : R -> R -> R) (m : dmode) (k : Z).
  Variables (size size' : pyv xr) (flag flag' : bool) (center center' : option (pyv xr)) (nx ny : Z) (x0 y0 : R).
  Hypotheses (Hm : m <> OtherMode) (Hk : (0 < k)%Z) (Hx : (0 <= nx)%Z) (Hy : (0 <= ny)%Z)
    (Hf : real_function f g) (Hf' : real_function f' g')
    (Hs : size_means size flag nx ny) (Ho : origin_is center nx ny x0 y0).

  Lemma image_transposed : size_means size' flag' ny nx -> origin_is center' ny nx y0 x0 ->
    (forall x y, g' y x = g x y) ->
    exists im im', model_to_image (pointwise f) size flag m k center = Ok im /\
      model_to_image (pointwise f') size' flag' m k center' = Ok im' /\ same_data im' (transposed im).
  Proof.
    intros Hs' Ho' H.
    destruct (modes_pixels f g size flag m k center nx ny x0 y0) as (im & E & A1 & A2 & A3); auto.
    destruct (modes_pixels f' g' size' flag' m k center' ny nx y0 x0) as (im' & E' & B1 & B2 & B3); auto.
    exists im, im'. split; [auto|]. split; [auto|]. unfold same_data, transposed; cbn [iny inx px]. split; [congruence|]. split; [congruence|].
    intros j i Hj Hi. rewrite B3, A3 by (congruence || lia). f_equal. now apply pixel_swap.
  Qed.

  Lemma image_mirrored : size_means size' flag' nx ny -> origin_is center' nx ny x0 y0 ->
    (forall x y, g' (2 * x0 + IZR nx - 1 - x) y = g x y) ->
    exists im im', model_to_image (pointwise f) size flag m k center = Ok im /\
      model_to_image (pointwise f') size' flag' m k center' = Ok im' /\ same_data im' (mirrored im).
  Proof.
    intros Hs' Ho' H.
    destruct (modes_pixels f g size flag m k center nx ny x0 y0) as (im & E & A1 & A2 & A3); auto.
    destruct (modes_pixels f' g' size' flag' m k center' nx ny x0 y0) as (im' & E' & B1 & B2 & B3); auto.
    exists im, im'. split; [auto|]. split; [auto|]. unfold same_data, mirrored; cbn [iny inx px]. split; [congruence|]. split; [congruence|].
    intros j i Hj Hi. rewrite B3 by (congruence || lia). rewrite A3 by (congruence || lia). f_equal.
    rewrite <- (pixel_mirror m k g g' (2 * x0 + IZR nx - 1)) by auto. f_equal.
    rewrite A2, !minus_INR by lia. rewrite INR_IZR_INZ with (n := Z.to_nat nx). rewrite Z2Nat.id by lia. cbn [INR]. ring.
  Qed.

  Lemma image_upended : size_means size' flag' nx ny -> origin_is center' nx ny x0 y0 ->
    (forall x y, g' x (2 * y0 + IZR ny - 1 - y) = g x y) ->
    exists im im', model_to_image (pointwise f) size flag m k center = Ok im /\
      model_to_image (pointwise f') size' flag' m k center' = Ok im' /\ same_data im' (upended im).
  Proof.
    intros Hs' Ho' H.
    destruct (modes_pixels f g size flag m k center nx ny x0 y0) as (im & E & A1 & A2 & A3); auto.
    destruct (modes_pixels f' g' size' flag' m k center' nx ny x0 y0) as (im' & E' & B1 & B2 & B3); auto.
    exists im, im'. split; [auto|]. split; [auto|]. unfold same_data, upended; cbn [iny inx px]. split; [congruence|]. split; [congruence|].
    intros j i Hj Hi. rewrite B3 by (congruence || lia). rewrite A3 by (congruence || lia). f_equal.
    rewrite <- (pixel_upend m k g g' (2 * y0 + IZR ny - 1)) by auto. f_equal.
    rewrite A1, !minus_INR by lia. rewrite INR_IZR_INZ with (n := Z.to_nat ny). rewrite Z2Nat.id by lia. cbn [INR]. ring.
  Qed.

  Lemma image_shifted u v : size_means size' flag' nx ny -> origin_is center' nx ny (x0 + u) (y0 + v) ->
    (forall x y, g' (x + u) (y + v) = g x y) ->
    exists im im', model_to_image (pointwise f) size flag m k center = Ok im /\
      model_to_image (pointwise f') size' flag' m k center' = Ok im' /\ same_data im' im.
  Proof.
    intros Hs' Ho' H.
    destruct (modes_pixels f g size flag m k center nx ny x0 y0) as (im & E & A1 & A2 & A3); auto.
    destruct (modes_pixels f' g' size' flag' m k center' nx ny (x0 + u) (y0 + v)) as (im' & E' & B1 & B2 & B3); auto.
    exists im, im'. repeat (split; auto); try congruence.
    intros j i Hj Hi. rewrite B3, A3 by (congruence || lia). f_equal.
    rewrite <- (pixel_shift m k g g' u v) by auto. f_equal; ring.
  Qed.

  Lemma image_scaled c : size_means size' flag' nx ny -> origin_is center' nx ny x0 y0 ->
    (forall x y, g' x y = c * g x y) ->
    exists im im', model_to_image (pointwise f) size flag m k center = Ok im /\
      model_to_image (pointwise f') size' flag' m k center' = Ok im' /\
      iny im' = iny im /\ inx im' = inx im /\
      forall j i, (j < iny im)%nat -> (i < inx im)%nat -> px im' j i = nmul (Fin c) (px im j i).
  Proof.
    intros Hs' Ho' H.
    destruct (modes_pixels f g size flag m k center nx ny x0 y0) as (im & E & A1 & A2 & A3); auto.
    destruct (modes_pixels f' g' size' flag' m k center' nx ny x0 y0) as (im' & E' & B1 & B2 & B3); auto.
    exists im, im'. repeat (split; auto); try congruence.
    intros j i Hj Hi. rewrite B3, A3 by (congruence || lia). cbn. f_equal. now apply pixel_scale.
  Qed.
End Images.

(** photometry sees only the pixels of the image *)
Lemma phot_same (ov : aperture xr -> nat -> nat -> option (nat -> nat -> xr)) ap a b : same_data a b ->
  do_photometry ov ap a None None = do_photometry ov ap b None None.
Proof.
  intros (Hy & Hx & Hp). unfold do_photometry, same_shape. rewrite <- Hy, <- Hx.
  cbn [andb]. destruct (ov ap (iny a) (inx a)) as [w|]; auto.
  f_equal. f_equal. f_equal. apply map_ext_in. intros [j i] Hin. apply filter_In in Hin. destruct Hin as [H1 _].
  apply L_Photometry.in_pixels in H1. cbn [fst snd]. now rewrite Hp.
Qed.

Lemma radial_same_data (ov : aperture xr -> nat -> nat -> option (nat -> nat -> xr)) k a b pos rs elong theta : same_data a b ->
  radial_photometry ov k a pos rs None None elong theta = radial_photometry ov k b pos rs None None elong theta.
Proof.
  intros H. unfold radial_photometry. f_equal.
  induction rs as [|r rs IH]; cbn [mapM]; auto. rewrite IH. f_equal.
  unfold one_radius. cbn [option_map].
  destruct (radial_elliptical_aperture _ _ _ _ _) as [ap|]; cbn [bind]; auto.
  rewrite (phot_same ov ap a b H).
  rewrite (phot_same ov ap (ones_like a) (ones_like b)); auto.
  destruct H as (H1 & H2 & _). repeat split; cbn; auto.
Qed.
