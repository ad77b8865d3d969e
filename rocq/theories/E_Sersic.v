(** Concrete cases for the analytic profiles: index 1/2, where the constant is ln 2. *)
From Verif Require Import Base Num Gamma M_Sersic S_Sersic L_Sersic L_Sersic2.
Local Open Scope R_scope.

Lemma ln2_pos : 0 < ln 2.
Proof. rewrite <- ln_1. apply ln_increasing; lra. Qed.

Lemma half_light_half : half_light (1 / 2) (ln 2).
Proof.
  split; [apply ln2_pos|]. replace (2 * (1 / 2)) with 1 by field. pose proof ln2_pos.
  rewrite Gamma_1, lower_gamma_1 by lra. rewrite exp_Ropp, exp_ln by lra. field.
Qed.
Lemma bn_half : bnR (1 / 2) = ln 2.
Proof. symmetry. apply half_light_unique; [lra|apply half_light_half]. Qed.

Lemma total_half : totalR 1 1 (1 / 2) 0 = 2 * PI / ln 2.
Proof.
  pose proof ln2_pos. unfold totalR, scaleR. rewrite bn_half. replace (2 * (1 / 2)) with 1 by field.
  rewrite Rpower_1, exp_ln, Gamma_1 by lra. field. lra.
Qed.

Lemma C33_ex :
  sersic_enclosed (Fin 1) (Fin 1) (Fin 1) (Fin (1 / 2)) (Fin 0) = Fin (PI / ln 2) /\
  sersic_enclosed PInf (Fin 1) (Fin 1) (Fin (1 / 2)) (Fin 0) = Fin (2 * PI / ln 2).
Proof.
  split.
  - rewrite enclosed_fin by lra. f_equal. pose proof (encl_half 1 1 (1 / 2) 0 ltac:(lra) ltac:(lra)) as E.
    rewrite total_half in E. lra.
  - rewrite enclosed_inf by lra. f_equal. apply total_half.
Qed.

Lemma C34_ex : sersic_enclosed_inv (Fin (PI / ln 2)) (Fin 1) (Fin 1) (Fin (1 / 2)) (Fin 0) = Fin 1.
Proof.
  destruct (inverse_spec 1 1 (1 / 2) 0 ltac:(lra) ltac:(lra) ltac:(lra) ltac:(lra)) as (tot & _ & _ & H & _).
  destruct (H 1 ltac:(lra)) as (f & _ & E & I). rewrite (proj1 C33_ex) in E. now rewrite E.
Qed.

Lemma C35_ex : petrosian_profile (Fin 1) (Fin 1) (Fin (1 / 2)) = Fin (ln 2).
Proof.
  rewrite petro_fin by lra. f_equal. rewrite arg_re by lra. rewrite bn_half. unfold petroR.
  pose proof ln2_pos. replace (2 * (1 / 2)) with 1 by field.
  rewrite lower_gamma_1, Rpower_1, exp_Ropp, exp_ln by lra. field.
Qed.

Lemma C36_ex : Ie_to_I0 (Fin 3) (Fin (1 / 2)) = Fin 6.
Proof.
  destruct (intensity_spec 3 (1 / 2) ltac:(lra)) as (_ & _ & H).
  rewrite (H 1 (ln 2)) by (try lra; apply half_light_half). f_equal. unfold sersic_law.
  replace (0 / 1) with 0 by field. rewrite rpow_0. replace (- ln 2 * (0 - 1)) with (ln 2) by ring.
  rewrite exp_ln; lra.
Qed.

(** a boxy, flattened, rotated profile: amplitude at the end of its major axis, more at the centre *)
Lemma C37_ex :
  gen_sersic2d (Fin 5) (Fin 7) (Fin 3) (Fin 2) (Fin (1 / 2)) (Fin 5) (Fin 5) (Fin (1 / 4)) (Fin (PI / 2)) (Fin 1) = Fin 3 /\
  gen_sersic2d (Fin 5) (Fin 5) (Fin 3) (Fin 2) (Fin (1 / 2)) (Fin 5) (Fin 5) (Fin (1 / 4)) (Fin (PI / 2)) (Fin 1) = Fin 6.
Proof.
  rewrite !gen_fin by lra. split; f_equal.
  - pose proof (gen_major 3 2 (1 / 2) 5 5 (1 / 4) (PI / 2) 1 1 ltac:(lra) ltac:(lra) ltac:(auto)) as E.
    rewrite cos_PI2, sin_PI2 in E. replace (5 + 1 * 2 * 0) with 5 in E by ring.
    replace (5 + 1 * 2 * 1) with 7 in E by ring. exact E.
  - unfold genR, zR. rewrite bn_half. unfold along, across.
    replace ((5 - 5) * cos (PI / 2) + (5 - 5) * sin (PI / 2)) with 0 by ring.
    replace ((5 - 5) * cos (PI / 2) - (5 - 5) * sin (PI / 2)) with 0 by ring.
    replace (0 / 2) with 0 by field. replace (0 / ((1 - 1 / 4) * 2)) with 0 by field.
    rewrite Rabs_R0, !rpow_0. replace (0 + 0) with 0 by ring. rewrite !rpow_0.
    replace (- ln 2 * (0 - 1)) with (ln 2) by ring. rewrite exp_ln; lra.
Qed.

Lemma C38_ex :
  nuker2d (Fin 1) (Fin 0) (Fin 3) (Fin (sqrt 2)) (Fin 0) (Fin 0) (Fin 2) (Fin 4) (Fin 1) = Fin 3 /\
  nuker2d (Fin 0) (Fin 0) (Fin 3) (Fin (sqrt 2)) (Fin 0) (Fin 0) (Fin 2) (Fin 4) (Fin 1) = NaN.
Proof.
  assert (0 < sqrt 2) by (apply sqrt_lt_R0; lra).
  destruct (nuker_spec 3 (sqrt 2) 0 0 2 4 1 ltac:(lra) ltac:(lra)) as (_ & A & B). split.
  - apply A. rewrite sqrt_sqrt by lra. ring.
  - apply B. lra.
Qed.

(** amplitude is reached at r_break * r_eff = 6 pixels, not at r_break = 3 *)
Lemma C64_ex :
  core_sersic2d (Fin 6) (Fin 0) (Fin 5) (Fin 2) (Fin 3) (Fin 1) (Fin 0) (Fin 0) (Fin 10) (Fin (1 / 10)) (Fin 0) (Fin 0) = Fin 5.
Proof.
  destruct (core_sersic_spec 5 2 3 1 0 0 10 (1 / 10) 0 0 (bnR 1)) as (_ & _ & H & _); try lra.
  - apply bnR_half. lra.
  - apply H. unfold along, across. rewrite cos_0, sin_0. field.
Qed.

Lemma C65_ex : exists c k, u2080_to_c2080 (Fin 3) = Fin c /\ c2080_to_n (Fin c) = Fin k /\ 1 < k < 3 / 2.
Proof.
  exists (u2080R 3), (c2080R (u2080R 3)). rewrite u2080_fin, c2080_fin. repeat split.
  - apply Rlt_trans with (c2080R (28 / 10)); [unfold c2080R; cbn; lra|]. apply c2080_inc. unfold u2080R. cbn. lra.
  - apply Rlt_trans with (c2080R (31 / 10)); [|unfold c2080R; cbn; lra]. apply c2080_inc. unfold u2080R. cbn. lra.
Qed.

(** what the constructed special functions are *)
Lemma gamma_functions s : 0 < s ->
  lower_gamma s 0 = 0 /\ tends_to_at_zero (lower_gamma s) 0 /\
  (forall x, 0 < x -> derivable_pt_lim (lower_gamma s) x (Rpower x (s - 1) * exp (- x))) /\
  tends_to_at_infinity (lower_gamma s) (GammaR s) /\
  (forall p, 0 <= p < 1 -> 0 <= gammaincinvR s p /\ lower_gamma s (gammaincinvR s p) = p * GammaR s).
Proof.
  intros Hs. repeat split.
  - apply lg_zero. lra.
  - intros e He. destruct (lg_limit0 s Hs e He) as (d & Hd & H). exists d. split; auto.
    intros r Hr. rewrite Rminus_0_r. auto.
  - intros. now apply lg_derivable.
  - intros e He. destruct (lg_limit_inf s Hs e He) as (X & HX & H). exists X. intros r Hr.
    specialize (H r Hr). pose proof (lg_lt_Gamma s Hs r). rewrite Rabs_left; lra.
  - apply (gammaincinv_spec s Hs p H).
  - destruct (gammaincinv_spec s Hs p H) as [_ E]. unfold gammaincR in E. pose proof (Gamma_pos s Hs).
    apply (Rmult_eq_compat_r (GammaR s)) in E. unfold Rdiv in E.
    rewrite Rmult_assoc, Rinv_l, Rmult_1_r in E by lra. exact E.
Qed.
