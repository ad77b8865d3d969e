(** Proofs about the image of a moved GenSersic2D galaxy and its photometry (C130). *)
From Coq Require Import String.
From Verif Require Import Base Num Numpy M_Photometry S_Photometry S_Center S_Symm M_PSF S_PSF M_Fitting S_Fitting M_Sersic S_Motion.
From Verif Require L_Sersic2 L_Symm L_Motion L_Motion2.
Local Open Scope R_scope.

Section Galaxy.
  Variables (A re n e c : R) (m : dmode) (f nx ny : Z).
  Hypotheses (Hre : 0 < re) (Hn : 0 < n) (He : e < 1) (Hc : -2 < c)
    (Hm : m <> OtherMode) (Hf : (0 < f)%Z) (Hx : (0 <= nx)%Z) (Hy : (0 <= ny)%Z).

  Let gal x0 y0 t : smodel := pointwise (fun x y =>
    gen_sersic2d x y (Fin A) (Fin re) (Fin n) (Fin x0) (Fin y0) (Fin e) (Fin t) (Fin c)).

  Lemma real_gal x0 y0 t : real_function (fun x y =>
    gen_sersic2d x y (Fin A) (Fin re) (Fin n) (Fin x0) (Fin y0) (Fin e) (Fin t) (Fin c))
    (L_Sersic2.genR A re n x0 y0 e t c).
  Proof. intros x y. apply L_Sersic2.gen_fin; auto; lra. Qed.

  Lemma gen_real x0 y0 t x y x0' y0' t' x' y' :
    gen_sersic2d (Fin x') (Fin y') (Fin A) (Fin re) (Fin n) (Fin x0') (Fin y0') (Fin e) (Fin t') (Fin c) =
    gen_sersic2d (Fin x) (Fin y) (Fin A) (Fin re) (Fin n) (Fin x0) (Fin y0) (Fin e) (Fin t) (Fin c) ->
    L_Sersic2.genR A re n x0' y0' e t' c x' y' = L_Sersic2.genR A re n x0 y0 e t c x y.
  Proof. intros H. pose proof (real_gal x0 y0 t x y) as E. pose proof (real_gal x0' y0' t' x' y') as E'. cbn beta in E, E'. congruence. Qed.

  Lemma gen_swap x0 y0 t x y :
    L_Sersic2.genR A re n y0 x0 e (PI / 2 - t) c y x = L_Sersic2.genR A re n x0 y0 e t c x y.
  Proof.
    apply gen_real. rewrite <- (L_Motion.gen_moved (-1) (PI / 2) 0 0 x y (Fin A) (Fin re) (Fin n) x0 y0 (Fin e) t (Fin c)) by auto.
    unfold move_x, move_y, move_angle. rewrite cos_PI2, sin_PI2. f_equal; f_equal; ring.
  Qed.

  Lemma gen_flip_x a x0 y0 t x y :
    L_Sersic2.genR A re n (a - x0) y0 e (- t) c (a - x) y = L_Sersic2.genR A re n x0 y0 e t c x y.
  Proof.
    rewrite <- L_Sersic2.gen_turn.
    apply gen_real. rewrite <- (L_Motion.gen_moved (-1) PI a 0 x y (Fin A) (Fin re) (Fin n) x0 y0 (Fin e) t (Fin c)) by auto.
    unfold move_x, move_y, move_angle. rewrite cos_PI, sin_PI. f_equal; f_equal; ring.
  Qed.

  Lemma gen_flip_y a x0 y0 t x y :
    L_Sersic2.genR A re n x0 (a - y0) e (- t) c x (a - y) = L_Sersic2.genR A re n x0 y0 e t c x y.
  Proof.
    apply gen_real. rewrite <- (L_Motion.gen_moved (-1) 0 0 a x y (Fin A) (Fin re) (Fin n) x0 y0 (Fin e) t (Fin c)) by auto.
    unfold move_x, move_y, move_angle. rewrite cos_0, sin_0. f_equal; f_equal; ring.
  Qed.

  Definition dims (a b : Z) : pyv xr := VSeq [VInt a; VInt b].
  Lemma dims_means a b : size_means (dims a b) false a b.
  Proof. constructor; left; reflexivity. Qed.

  Lemma galaxy_transposed ov k x0 y0 t rs elong : transposes ov ->
    exists im im', model_to_image (gal x0 y0 t) (VSeq [VInt nx; VInt ny]) false m f None = Ok im /\
      model_to_image (gal y0 x0 (PI / 2 - t)) (VSeq [VInt ny; VInt nx]) false m f None = Ok im' /\
      same_data im' (transposed im) /\
      radial_photometry ov k im' (Fin y0, Fin x0) rs None None elong (Fin (PI / 2 - t)) =
      radial_photometry ov k im (Fin x0, Fin y0) rs None None elong (Fin t).
  Proof.
    intros T.
    destruct (L_Motion2.image_transposed _ _ _ _ m f _ (dims ny nx) _ false None None nx ny 0 0 Hm Hf Hx Hy
      (real_gal x0 y0 t) (real_gal y0 x0 (PI / 2 - t)) (dims_means nx ny) (conj eq_refl eq_refl)
      (dims_means ny nx) (conj eq_refl eq_refl) (gen_swap x0 y0 t)) as (im & im' & E & E' & S).
    exists im, im'. repeat (split; [assumption|]).
    rewrite (L_Motion2.radial_same_data ov k im' (transposed im)) by auto.
    exact (L_Symm.radial_transposed ov k im None None (Fin x0) (Fin y0) elong (Fin t) rs T).
  Qed.

  Lemma galaxy_mirrored ov k x0 y0 t rs elong : mirrors ov ->
    exists im im', model_to_image (gal x0 y0 t) (VSeq [VInt nx; VInt ny]) false m f None = Ok im /\
      model_to_image (gal (IZR nx - 1 - x0) y0 (- t)) (VSeq [VInt nx; VInt ny]) false m f None = Ok im' /\
      same_data im' (mirrored im) /\
      radial_photometry ov k im' (Fin (IZR nx - 1 - x0), Fin y0) rs None None elong (Fin (- t)) =
      radial_photometry ov k im (Fin x0, Fin y0) rs None None elong (Fin t).
  Proof.
    intros T.
    assert (G : forall x y, L_Sersic2.genR A re n (IZR nx - 1 - x0) y0 e (- t) c (2 * 0 + IZR nx - 1 - x) y
      = L_Sersic2.genR A re n x0 y0 e t c x y).
    { intros x y. replace (2 * 0 + IZR nx - 1 - x) with (IZR nx - 1 - x) by ring. apply gen_flip_x. }
    destruct (L_Motion2.image_mirrored _ _ _ _ m f _ (dims nx ny) _ false None None nx ny 0 0 Hm Hf Hx Hy
      (real_gal x0 y0 t) (real_gal (IZR nx - 1 - x0) y0 (- t)) (dims_means nx ny) (conj eq_refl eq_refl)
      (dims_means nx ny) (conj eq_refl eq_refl) G) as (im & im' & E & E' & S).
    exists im, im'. repeat (split; [assumption|]).
    rewrite (L_Motion2.radial_same_data ov k im' (mirrored im)) by auto.
    destruct (L_Motion2.modes_pixels _ _ (dims nx ny) false m f None nx ny 0 0 Hm Hf Hx Hy
      (real_gal x0 y0 t) (dims_means nx ny) (conj eq_refl eq_refl)) as (im1 & E1 & _ & W & _).
    assert (im1 = im) by (unfold gal, dims in *; congruence). subst im1.
    pose proof (L_Symm.radial_mirrored ov k im None None (Fin x0) (Fin y0) elong (Fin t) rs T) as Q.
    rewrite W, INR_IZR_INZ, Z2Nat.id in Q by auto. cbn in Q. rewrite Rplus_0_l in Q. exact Q.
  Qed.

  Lemma galaxy_upended ov k x0 y0 t rs elong : upends ov ->
    exists im im', model_to_image (gal x0 y0 t) (VSeq [VInt nx; VInt ny]) false m f None = Ok im /\
      model_to_image (gal x0 (IZR ny - 1 - y0) (- t)) (VSeq [VInt nx; VInt ny]) false m f None = Ok im' /\
      same_data im' (upended im) /\
      radial_photometry ov k im' (Fin x0, Fin (IZR ny - 1 - y0)) rs None None elong (Fin (- t)) =
      radial_photometry ov k im (Fin x0, Fin y0) rs None None elong (Fin t).
  Proof.
    intros T.
    assert (G : forall x y, L_Sersic2.genR A re n x0 (IZR ny - 1 - y0) e (- t) c x (2 * 0 + IZR ny - 1 - y)
      = L_Sersic2.genR A re n x0 y0 e t c x y).
    { intros x y. replace (2 * 0 + IZR ny - 1 - y) with (IZR ny - 1 - y) by ring. apply gen_flip_y. }
    destruct (L_Motion2.image_upended _ _ _ _ m f _ (dims nx ny) _ false None None nx ny 0 0 Hm Hf Hx Hy
      (real_gal x0 y0 t) (real_gal x0 (IZR ny - 1 - y0) (- t)) (dims_means nx ny) (conj eq_refl eq_refl)
      (dims_means nx ny) (conj eq_refl eq_refl) G) as (im & im' & E & E' & S).
    exists im, im'. repeat (split; [assumption|]).
    rewrite (L_Motion2.radial_same_data ov k im' (upended im)) by auto.
    destruct (L_Motion2.modes_pixels _ _ (dims nx ny) false m f None nx ny 0 0 Hm Hf Hx Hy
      (real_gal x0 y0 t) (dims_means nx ny) (conj eq_refl eq_refl)) as (im1 & E1 & W & _ & _).
    assert (im1 = im) by (unfold gal, dims in *; congruence). subst im1.
    pose proof (L_Symm.radial_upended ov k im None None (Fin x0) (Fin y0) elong (Fin t) rs T) as Q.
    rewrite W, INR_IZR_INZ, Z2Nat.id in Q by auto. cbn in Q. rewrite Rplus_0_l in Q. exact Q.
  Qed.
End Galaxy.

(** shift by (u, v): with [center] moved along, the same image *)
Lemma galaxy_shifted A re n e c m f nx ny center center' x0 y0 t ox oy u v :
  0 < re -> 0 < n -> e < 1 -> -2 < c -> m <> OtherMode -> (0 < f)%Z -> (0 <= nx)%Z -> (0 <= ny)%Z ->
  origin_is center nx ny ox oy -> origin_is center' nx ny (ox + u) (oy + v) ->
  exists im im',
    model_to_image (pointwise (fun x y => gen_sersic2d x y (Fin A) (Fin re) (Fin n) (Fin x0) (Fin y0) (Fin e) (Fin t) (Fin c)))
      (VSeq [VInt nx; VInt ny]) false m f center = Ok im /\
    model_to_image (pointwise (fun x y => gen_sersic2d x y (Fin A) (Fin re) (Fin n) (Fin (x0 + u)) (Fin (y0 + v)) (Fin e) (Fin t) (Fin c)))
      (VSeq [VInt nx; VInt ny]) false m f center' = Ok im' /\ same_data im' im.
Proof.
  intros Hre Hn He Hc Hm Hf Hx Hy Ho Ho'.
  assert (G : forall x y, L_Sersic2.genR A re n (x0 + u) (y0 + v) e t c (x + u) (y + v) = L_Sersic2.genR A re n x0 y0 e t c x y).
  { intros x y. apply gen_real; auto.
    rewrite <- (L_Motion.gen_moved 1 0 u v x y (Fin A) (Fin re) (Fin n) x0 y0 (Fin e) t (Fin c)) by auto.
    unfold move_x, move_y, move_angle. rewrite cos_0, sin_0. f_equal; f_equal; ring. }
  exact (L_Motion2.image_shifted _ _ _ _ m f _ (dims nx ny) _ false center center' nx ny ox oy Hm Hf Hx Hy
    (real_gal A re n e c Hre Hn He Hc x0 y0 t) (real_gal A re n e c Hre Hn He Hc (x0 + u) (y0 + v) t)
    (dims_means nx ny) Ho u v (dims_means nx ny) Ho' G).
Qed.
