(** A galaxy and its transposed image (C130). *)
From Coq Require Import String.
From Verif Require Import Base Num Numpy M_Utils M_Photometry S_Photometry S_Center S_Symm M_PSF S_PSF M_Fitting S_Fitting M_Sersic S_Sersic S_Motion.
From Verif Require L_Sersic L_Sersic2 E_Sersic L_Symm L_Fitting L_Motion2 L_Motion3.
Local Open Scope R_scope.

Definition gal (t : R) : smodel := pointwise (fun x y =>
  gen_sersic2d x y (Fin 3) (Fin 2) (Fin (1/2)) (Fin 5) (Fin 5) (Fin (1/4)) (Fin t) (Fin 1)).

Lemma off_axis : exists v, v < 3 /\
  gen_sersic2d (Fin 7) (Fin 5) (Fin 3) (Fin 2) (Fin (1/2)) (Fin 5) (Fin 5) (Fin (1/4)) (Fin (PI / 2)) (Fin 1) = Fin v.
Proof.
  eexists. split; [|apply L_Sersic2.gen_fin; lra].
  unfold L_Sersic2.genR, L_Sersic2.zR, along, across. rewrite cos_PI2, sin_PI2.
  replace ((7 - 5) * 0 + (5 - 5) * 1) with 0 by ring. replace ((5 - 5) * 0 - (7 - 5) * 1) with (- 2) by ring.
  replace (0 / 2) with 0 by field. replace (- 2 / ((1 - 1 / 4) * 2)) with (- (4 / 3)) by field.
  rewrite Rabs_R0, L_Sersic.rpow_0, Rplus_0_l, Rabs_Ropp, Rabs_right by lra.
  rewrite L_Sersic.rpow_inv_r by lra. replace (1 / (1 / 2)) with 2 by field. rewrite L_Sersic2.rpow_2 by lra.
  rewrite E_Sersic.bn_half. replace (- ln 2 * (4 / 3 * (4 / 3) - 1)) with (- (ln 2 * (7 / 9))) by field.
  assert (L : 0 < ln 2) by (rewrite <- ln_1; apply ln_increasing; lra).
  assert (exp (- (ln 2 * (7 / 9))) < exp 0) by (apply exp_increasing; lra). rewrite exp_0 in H. lra.
Qed.

Lemma motion_example : exists im im' v,
  model_to_image (gal (PI / 2)) (VSeq [VInt 9; VInt 8]) false Center 1 None = Ok im /\
  model_to_image (gal (PI / 2 - PI / 2)) (VSeq [VInt 8; VInt 9]) false Center 1 None = Ok im' /\
  px im 7 5 = Fin 3 /\ px im' 5 7 = Fin 3 /\ v < 3 /\ px im 5 7 = Fin v /\ px im' 7 5 = Fin v /\
  (forall k rs elong, radial_photometry center_overlap k im' (Fin 5, Fin 5) rs None None elong (Fin (PI / 2 - PI / 2)) =
     radial_photometry center_overlap k im (Fin 5, Fin 5) rs None None elong (Fin (PI / 2))).
Proof.
  destruct off_axis as (v & V & Hv).
  assert (D : forall k rs elong, exists im im', model_to_image (gal (PI / 2)) (VSeq [VInt 9; VInt 8]) false Center 1 None = Ok im /\
    model_to_image (gal (PI / 2 - PI / 2)) (VSeq [VInt 8; VInt 9]) false Center 1 None = Ok im' /\
    same_data im' (transposed im) /\
    radial_photometry center_overlap k im' (Fin 5, Fin 5) rs None None elong (Fin (PI / 2 - PI / 2)) =
    radial_photometry center_overlap k im (Fin 5, Fin 5) rs None None elong (Fin (PI / 2))).
  { intros k rs elong. apply (L_Motion3.galaxy_transposed 3 2 (1/2) (1/4) 1 Center 1 9 8); try lra; try lia; try discriminate.
    apply L_Symm.center_transposes. }
  destruct (D PyFloat [] (Fin 1)) as (im & im' & E & E' & (S1 & S2 & S3) & _). exists im, im', v.
  destruct (L_Fitting.center_pixels _ _ (VSeq [VInt 9; VInt 8]) false 1%Z None 9%Z 8%Z 0 0
    (L_Motion3.real_gal 3 2 (1/2) (1/4) 1 ltac:(lra) ltac:(lra) ltac:(lra) ltac:(lra) 5 5 (PI / 2))
    ltac:(constructor; left; reflexivity) (conj eq_refl eq_refl)) as (im1 & E1 & W1 & W2 & W3).
  assert (im1 = im) by (unfold gal in E; congruence). subst im1.
  change (Z.to_nat 8) with 8%nat in *. change (Z.to_nat 9) with 9%nat in *.
  assert (A : px im 7 5 = Fin 3).
  { rewrite W3 by lia. replace (0 + INR 5) with 5 by (cbn; ring). replace (0 + INR 7) with 7 by (cbn; ring).
    rewrite <- L_Sersic2.gen_fin by lra. apply E_Sersic.C37_ex. }
  assert (B : px im 5 7 = Fin v).
  { rewrite W3 by lia. replace (0 + INR 5) with 5 by (cbn; ring). replace (0 + INR 7) with 7 by (cbn; ring).
    rewrite <- L_Sersic2.gen_fin by lra. exact Hv. }
  cbn [transposed iny inx px] in *.
  split; [exact E|]. split; [exact E'|]. split; [exact A|]. split; [rewrite S3 by lia; exact A|]. split; [exact V|].
  split; [exact B|]. split; [rewrite S3 by lia; exact B|].
  intros k rs elong. destruct (D k rs elong) as (i1 & i2 & F1 & F2 & _ & Q). congruence.
Qed.
