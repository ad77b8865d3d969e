(** Concrete simulated galaxies: index 1/2. *)
From Coq Require Import String.
From Verif Require Import Base Num Numpy M_Utils S_Photometry M_PSF S_PSF S_Fitting Gamma M_Sersic S_Sersic M_Correction M_Worker S_Worker
  L_PSF2 L_Sersic L_Sersic2 L_Worker L_Worker3 E_Sersic.
Local Open Scope list_scope.
Local Open Scope R_scope.

Lemma law_1 r2 : 0 <= r2 -> 100 / exp (ln 2) * exp (- ln 2 * (rpow (sqrt r2) (1 / (1 / 2)) - 1)) = 100 * exp (- ln 2 * r2).
Proof.
  intros H. replace (1 / (1 / 2)) with 2 by field. rewrite rpow_2 by apply sqrt_pos. rewrite sqrt_sqrt by auto.
  replace (- ln 2 * (r2 - 1)) with (- ln 2 * r2 + ln 2) by ring. rewrite exp_plus. field. apply Rgt_not_eq, exp_pos.
Qed.

(** centre, neighbour and corner of a galaxy with half-light radius 1 drawn on 2 x 2 pixels *)
Lemma C122_ex rotate : exists m, worker_image rotate None VNone VNone (Fin 1) (Fin (1/2)) 2 1 = Ok m /\ iny m = 2%nat /\ inx m = 2%nat /\
  px m 1 1 = Fin 100 /\ px m 1 0 = Fin 50 /\ px m 0 0 = Fin 25.
Proof.
  destruct (image_pixels rotate 1 1 (1/2) ltac:(lia) ltac:(lra) ltac:(lra) VNone _ (no_oversampling 1)) as (m & E & E1 & E2 & H).
  exists m. split; [exact E|]. split; [exact E1|]. split; [exact E2|]. pose proof ln2_pos.
  assert (P : forall j i, (j < 2)%nat -> (i < 2)%nat -> px m j i = Fin (100 * exp (- ln 2 * ((INR i - 1) * (INR i - 1) + (INR j - 1) * (INR j - 1))))).
  { intros j i Hj Hi. rewrite (H j i Hj Hi). rewrite mean_one. f_equal. rewrite bn_half. unfold sersic2d, along, across. rewrite cos_0, sin_0.
    rewrite law_1; [do 2 f_equal; field|apply sumsq]. }
  rewrite !P by lia. cbn [INR]. split; [|split]; f_equal.
  - replace (- ln 2 * ((1 - 1) * (1 - 1) + (1 - 1) * (1 - 1))) with 0 by ring. rewrite exp_0. ring.
  - replace (- ln 2 * ((0 - 1) * (0 - 1) + (1 - 1) * (1 - 1))) with (- ln 2) by ring. rewrite exp_Ropp, exp_ln by lra. lra.
  - replace (- ln 2 * ((0 - 1) * (0 - 1) + (0 - 1) * (0 - 1))) with (- ln 2 + - ln 2) by ring. rewrite exp_plus, exp_Ropp, exp_ln by lra. lra.
Qed.

Lemma C122_window_ex : (exists k, sampled 5 default_oversample k /\ k 5%nat 5%nat = 50%nat /\ k 0%nat 9%nat = 50%nat) /\
  (exists k, sampled 7 default_oversample k /\ k 7%nat 7%nat = 50%nat /\ k 1%nat 7%nat = 1%nat /\ k 2%nat 11%nat = 50%nat) /\
  forall rotate, worker_image rotate None default_oversample VNone (Fin 1) (Fin (1/2)) 8 4 = Err ValueError.
Proof.
  split; [|split].
  - eexists. split; [apply centre_window; [lia|lia|cbv; discriminate|cbv; discriminate]|]. split; reflexivity.
  - eexists. split; [apply centre_window; [lia|lia|cbv; discriminate|cbv; discriminate]|]. split; [|split]; reflexivity.
  - intros rotate. apply (image_window rotate 4 1 (1/2)); try lia; try lra.
Qed.

Lemma C123_ex : half_light (1/2) (ln 2) /\ int_of (Fin 5) = Ok 5%Z /\
  sim_geometry (nleb (nofZ 200) (Fin 5)) 5 = Ok ([1; 3; 5]%Z, 10%Z, 5%Z) /\ exists k, sampled 5 default_oversample k.
Proof.
  split; [apply half_light_half|]. split; [cbn; f_equal; apply Rtrunc_IZR|]. split.
  - cbn [nleb XRnum xleb nofZ]. rewrite Rleb_false by lra. reflexivity.
  - destruct C122_window_ex as ((k & Hk & _) & _). eauto.
Qed.

(** half-light radius 1/100 *)
Lemma C124_ex : exists L r99, half_light (1/2) (ln 2) /\
  sersic_enclosed PInf (Fin (100 / exp (ln 2))) (Fin (1/100)) (Fin (1/2)) (Fin 0) = Fin L /\ 0 <= r99 /\
  sersic_enclosed (Fin r99) (Fin (100 / exp (ln 2))) (Fin (1/100)) (Fin (1/2)) (Fin 0) = Fin (99/100 * L) /\
  largest_radius (1/100) (1/2) r99 < 4.
Proof.
  destruct (input_radii (1/100) (1/2) (ln 2) ltac:(lra) ltac:(lra) half_light_half) as (L & _ & HL & EL & H).
  destruct (H (99/100) ltac:(lra)) as (r & Hr & _ & E). exists L, r. split; [apply half_light_half|]. split; auto. split; auto. split; auto.
  unfold largest_radius. destruct (Rlt_dec (1/2) 1); [|lra]. destruct (Rlt_dec (1/100) 7); [|lra].
  enough (r < 3/100) by lra. apply Rnot_le_lt. intros K. pose proof ln2_pos.
  assert (HA : 0 < 100 / exp (ln 2)) by (apply Rdiv_lt_0_compat; [lra|apply exp_pos]).
  rewrite enclosed_fin in E by lra. injection E as E. rewrite enclosed_inf in EL by lra. injection EL as EL.
  assert (M : enclR (100 / exp (ln 2)) (1/100) (1/2) 0 (3/100) <= enclR (100 / exp (ln 2)) (1/100) (1/2) 0 r).
  { destruct K as [K| <-]; [|lra]. left. apply encl_inc; auto; lra. }
  rewrite E, <- EL in M. unfold enclR, totalR in M. assert (S := scale_pos (100 / exp (ln 2)) (1/100) (1/2) 0 HA ltac:(lra) ltac:(lra) ltac:(lra)).
  set (c := scaleR (100 / exp (ln 2)) (1/100) (1/2) 0) in *. unfold argR in M. rewrite bn_half in M.
  replace (2 * (1/2)) with 1 in M by field. rewrite Gamma_1 in M. replace (1 / (1/2)) with 2 in M by field. replace (3 / 100 / (1 / 100)) with 3 in M by field.
  rewrite rpow_2 in M by lra. rewrite lower_gamma_1 in M by lra.
  assert (X : exp (- (ln 2 * (3 * 3))) = / 512).
  { rewrite exp_Ropp. f_equal. replace (ln 2 * (3 * 3)) with (ln (2 ^ 9)); [rewrite exp_ln; lra|]. rewrite ln_pow by lra. cbn [INR]. ring. }
  rewrite X in M. nra.
Qed.
