(** Operations of double precision. *)
From Coq Require Import SpecFloat ZArith Reals Lra Lia.
From Flocq Require Import Core BinarySingleNaN Relative Plus_error.
From Verif Require Import Base Num S_Double.
Local Open Scope R_scope.

Global Instance Hprec : Prec_gt_0 53 := eq_refl _.
Global Instance Hmax : Prec_lt_emax 53 1024 := eq_refl _.
Notation B64 := (binary_float 53 1024).
Notation fexp64 := (SpecFloat.fexp 53 1024).
Notation rnd := (round radix2 fexp64 ZnearestE).

(** ** the operations of SpecFloat are those of Flocq *)
Lemma rne_equiv s m l : round_nearest_even m l = choice_mode mode_NE s m l.
Proof. case l; [reflexivity|intro c]. case c; [|reflexivity..]. now simpl; unfold Round.cond_incr; case Z.even. Qed.
Lemma round_aux_equiv sx mx ex lx :
  SpecFloat.binary_round_aux 53 1024 sx mx ex lx = BinarySingleNaN.binary_round_aux 53 1024 mode_NE sx mx ex lx.
Proof.
  unfold SpecFloat.binary_round_aux, BinarySingleNaN.binary_round_aux. set (mrse' := shr_fexp _ _ _). case mrse'; intros mrs' e'; simpl.
  now rewrite (rne_equiv sx).
Qed.
Lemma round_equiv s m e : SpecFloat.binary_round 53 1024 s m e = BinarySingleNaN.binary_round 53 1024 mode_NE s m e.
Proof.
  unfold SpecFloat.binary_round, BinarySingleNaN.binary_round, shl_align_fexp. set (mez := shl_align _ _ _). case mez as [mz ez].
  apply round_aux_equiv.
Qed.
Lemma normalize_equiv m e sz : SpecFloat.binary_normalize 53 1024 m e sz = B2SF (BinarySingleNaN.binary_normalize 53 1024 Hprec Hmax mode_NE m e sz).
Proof. case m as [|p|p]; [now simpl| |]; simpl; rewrite B2SF_SF2B; apply round_equiv. Qed.

Lemma add_equiv (x y : B64) : SFadd 53 1024 (B2SF x) (B2SF y) = B2SF (Bplus mode_NE x y).
Proof. case x as [sx|sx| |sx mx ex Bx]; case y as [sy|sy| |sy my ey By]; [now (trivial || simpl; case Bool.eqb)..|]. apply normalize_equiv. Qed.
Lemma sub_equiv (x y : B64) : SFsub 53 1024 (B2SF x) (B2SF y) = B2SF (Bminus mode_NE x y).
Proof.
  case x as [sx|sx| |sx mx ex Bx]; case y as [sy|sy| |sy my ey By]; [now (trivial || simpl; case Bool.eqb)..|]. simpl.
  unfold Zminus. rewrite <- cond_Zopp_negb. apply normalize_equiv.
Qed.
Lemma mul_equiv (x y : B64) : SFmul 53 1024 (B2SF x) (B2SF y) = B2SF (Bmult mode_NE x y).
Proof. case x as [sx|sx| |sx mx ex Bx]; case y as [sy|sy| |sy my ey By]; [now trivial..|]. simpl. rewrite B2SF_SF2B. apply round_aux_equiv. Qed.
Lemma div_equiv (x y : B64) : SFdiv 53 1024 (B2SF x) (B2SF y) = B2SF (Bdiv mode_NE x y).
Proof.
  case x as [sx|sx| |sx mx ex Bx]; case y as [sy|sy| |sy my ey By]; [now (trivial || simpl; case Bool.eqb)..|]. simpl. rewrite B2SF_SF2B.
  set (melz := SFdiv_core_binary _ _ _ _ _ _). case melz as [[mz ez] lz]. apply round_aux_equiv.
Qed.
Lemma sqrt_equiv (x : B64) : SFsqrt 53 1024 (B2SF x) = B2SF (Bsqrt mode_NE x).
Proof.
  case x as [sx|sx| |sx mx ex Bx]; [now (trivial || case sx)..|]. case sx; [reflexivity|]. simpl. rewrite B2SF_SF2B.
  set (melz := SFsqrt_core_binary _ _ _ _). case melz as [[mz ez] lz]. apply round_aux_equiv.
Qed.

(** ** doubles *)
Lemma dval_B2R (x : B64) : is_finite x = true -> dval (B2SF x) = B2R x.
Proof.
  destruct x as [s|s| |s m e H]; try discriminate; intros _; simpl; [reflexivity|].
  unfold F2R. simpl. replace (powerRZ 2 e) with (bpow radix2 e) by (rewrite bpow_powerRZ; reflexivity).
  destruct s; simpl; [change (Z.neg m) with (- Z.pos m)%Z; rewrite opp_IZR; ring|ring].
Qed.
Lemma double_of x : double x -> exists b : B64, B2SF b = x /\ is_finite b = true /\ B2R b = dval x.
Proof.
  intros [V F]. exists (SF2B x V). rewrite B2SF_SF2B. split; auto.
  assert (Fi : is_finite (SF2B x V) = true) by (destruct x; try contradiction; reflexivity).
  split; auto. rewrite <- dval_B2R by auto. now rewrite B2SF_SF2B.
Qed.
Lemma double_B (b : B64) : is_finite b = true -> double (B2SF b).
Proof. intros H. split; [apply valid_binary_B2SF|]. destruct b; try discriminate; exact I. Qed.
Lemma double_format x : double x -> generic_format radix2 fexp64 (dval x).
Proof. intros H. destruct (double_of x H) as (b & _ & _ & <-). apply generic_format_B2R. Qed.

Lemma big_bool x : Rabs x < bpow radix2 1024 -> Rlt_bool (Rabs x) (bpow radix2 1024) = true.
Proof. apply Rlt_bool_true. Qed.

Lemma d_add x y : double x -> double y -> Rabs (rnd (dval x + dval y)) < bpow radix2 1024 ->
  double (nadd x y) /\ dval (nadd x y) = rnd (dval x + dval y).
Proof.
  intros Hx Hy Hb. destruct (double_of x Hx) as (a & <- & Fa & Va). destruct (double_of y Hy) as (b & <- & Fb & Vb).
  cbn [nadd F64num]. rewrite add_equiv. pose proof (Bplus_correct 53 1024 Hprec Hmax mode_NE a b Fa Fb) as C.
  change (round_mode mode_NE) with ZnearestE in C. rewrite Va, Vb in C. rewrite big_bool in C by exact Hb. destruct C as (C1 & C2 & _).
  split; [now apply double_B|]. rewrite dval_B2R by auto. exact C1.
Qed.
Lemma d_sub x y : double x -> double y -> Rabs (rnd (dval x - dval y)) < bpow radix2 1024 ->
  double (nsub x y) /\ dval (nsub x y) = rnd (dval x - dval y).
Proof.
  intros Hx Hy Hb. destruct (double_of x Hx) as (a & <- & Fa & Va). destruct (double_of y Hy) as (b & <- & Fb & Vb).
  cbn [nsub F64num]. rewrite sub_equiv. pose proof (Bminus_correct 53 1024 Hprec Hmax mode_NE a b Fa Fb) as C.
  change (round_mode mode_NE) with ZnearestE in C. rewrite Va, Vb in C. rewrite big_bool in C by exact Hb. destruct C as (C1 & C2 & _).
  split; [now apply double_B|]. rewrite dval_B2R by auto. exact C1.
Qed.
Lemma d_mul x y : double x -> double y -> Rabs (rnd (dval x * dval y)) < bpow radix2 1024 ->
  double (nmul x y) /\ dval (nmul x y) = rnd (dval x * dval y).
Proof.
  intros Hx Hy Hb. destruct (double_of x Hx) as (a & <- & Fa & Va). destruct (double_of y Hy) as (b & <- & Fb & Vb).
  cbn [nmul F64num]. rewrite mul_equiv. pose proof (Bmult_correct 53 1024 Hprec Hmax mode_NE a b) as C.
  change (round_mode mode_NE) with ZnearestE in C. rewrite Va, Vb in C. rewrite big_bool in C by exact Hb. destruct C as (C1 & C2 & _).
  rewrite Fa, Fb in C2. split; [now apply double_B|]. rewrite dval_B2R by auto. exact C1.
Qed.
Lemma d_div x y : double x -> double y -> dval y <> 0 -> Rabs (rnd (dval x / dval y)) < bpow radix2 1024 ->
  double (ndiv x y) /\ dval (ndiv x y) = rnd (dval x / dval y).
Proof.
  intros Hx Hy H0 Hb. destruct (double_of x Hx) as (a & <- & Fa & Va). destruct (double_of y Hy) as (b & <- & Fb & Vb).
  cbn [ndiv F64num]. rewrite div_equiv. rewrite <- Vb in H0. pose proof (Bdiv_correct 53 1024 Hprec Hmax mode_NE a b H0) as C.
  change (round_mode mode_NE) with ZnearestE in C. rewrite Va, Vb in C. rewrite big_bool in C by exact Hb. destruct C as (C1 & C2 & _).
  rewrite Fa in C2. split; [now apply double_B|]. rewrite dval_B2R by auto. exact C1.
Qed.
Lemma d_sqrt x : double x -> 0 <= dval x -> double (nsqrt x) /\ dval (nsqrt x) = rnd (sqrt (dval x)).
Proof.
  intros Hx H0. destruct (double_of x Hx) as (a & <- & Fa & Va).
  cbn [nsqrt F64num]. rewrite sqrt_equiv. destruct (Bsqrt_correct 53 1024 Hprec Hmax mode_NE a) as (C1 & C2 & _).
  change (round_mode mode_NE) with ZnearestE in C1. rewrite Va in C1.
  assert (F : is_finite (Bsqrt mode_NE a) = true).
  { rewrite C2. destruct a as [s|s| |s m e H]; try discriminate; auto. destruct s; auto. exfalso.
    rewrite <- Va in H0. simpl in H0. revert H0. apply Rlt_not_le. now apply F2R_lt_0. }
  split; [now apply double_B|]. rewrite dval_B2R by auto. exact C1.
Qed.
Lemma d_abs x : double x -> double (nabs x) /\ dval (nabs x) = Rabs (dval x).
Proof.
  intros Hx. destruct (double_of x Hx) as (a & <- & Fa & Va).
  cbn [nabs F64num]. assert (E : SFabs (B2SF a) = B2SF (Babs a)) by now destruct a.
  rewrite E. assert (F : is_finite (Babs a) = true) by (rewrite is_finite_Babs; auto). split; [now apply double_B|].
  rewrite dval_B2R by auto. rewrite B2R_Babs. now rewrite Va.
Qed.
Lemma d_cmp x y : double x -> double y -> SFcompare x y = Some (Rcompare (dval x) (dval y)).
Proof.
  intros Hx Hy. destruct (double_of x Hx) as (a & <- & Fa & Va). destruct (double_of y Hy) as (b & <- & Fb & Vb).
  rewrite <- Va, <- Vb. rewrite <- Bcompare_correct by auto. destruct a; destruct b; reflexivity.
Qed.
Lemma d_leb x y : double x -> double y -> nleb x y = Rleb (dval x) (dval y).
Proof.
  intros Hx Hy. cbn [nleb F64num]. unfold SFleb. rewrite d_cmp by auto. destruct (Rle_lt_dec (dval x) (dval y)) as [H|H].
  - rewrite Rleb_true by auto. destruct (Rcompare_spec (dval x) (dval y)); auto; lra.
  - rewrite Rleb_false by auto. rewrite Rcompare_Gt; auto.
Qed.
Lemma d_ltb x y : double x -> double y -> nltb x y = Rltb (dval x) (dval y).
Proof.
  intros Hx Hy. cbn [nltb F64num]. unfold SFltb. rewrite d_cmp by auto. destruct (Rlt_le_dec (dval x) (dval y)) as [H|H].
  - rewrite Rltb_true by auto. rewrite Rcompare_Lt; auto.
  - rewrite Rltb_false by auto. destruct (Rcompare_spec (dval x) (dval y)); auto; lra.
Qed.
Lemma d_eqb x y : double x -> double y -> neqb x y = Reqb (dval x) (dval y).
Proof.
  intros Hx Hy. cbn [neqb F64num]. unfold SFeqb. rewrite d_cmp by auto. destruct (Req_dec (dval x) (dval y)) as [H|H].
  - rewrite Reqb_true by auto. rewrite Rcompare_Eq; auto.
  - rewrite Reqb_false by auto. destruct (Rcompare_spec (dval x) (dval y)); auto; contradiction.
Qed.
Lemma d_nan x : double x -> nisnan x = false.
Proof. intros [_ H]. destruct x; auto; contradiction. Qed.

(** ** rounding errors *)
Lemma u64_bpow : u64 = bpow radix2 (-53).
Proof. unfold u64. rewrite bpow_powerRZ. simpl. reflexivity. Qed.
Lemma u64_val : 0 < u64 <= / 9007199254740992.
Proof. unfold u64. split; [apply Rinv_0_lt_compat, pow_lt; lra|]. apply Req_le. f_equal. lra. Qed.
Lemma u64_half : / 2 * bpow radix2 (- (53) + 1) = u64.
Proof.
  rewrite u64_bpow. replace (/ 2) with (bpow radix2 (-1)) by reflexivity. rewrite <- bpow_plus. reflexivity.
Qed.
Lemma rnd_rel x : bpow radix2 (-1022) <= Rabs x -> exists d, Rabs d <= u64 /\ rnd x = x * (1 + d).
Proof.
  intros H. destruct (relative_error_N_FLT_ex radix2 (-1074) 53 eq_refl (fun z => negb (Z.even z)) x) as (d & Hd & E).
  { exact H. }
  exists d. split.
  - rewrite <- u64_half. exact Hd.
  - exact E.
Qed.
Lemma rnd_0 : rnd 0 = 0.
Proof. apply round_0. apply valid_rnd_N. Qed.
Lemma rnd_sum_rel x y : generic_format radix2 fexp64 x -> generic_format radix2 fexp64 y -> exists d, Rabs d <= u64 /\ rnd (x + y) = (x + y) * (1 + d).
Proof.
  intros Fx Fy. destruct (FLT_plus_error_N_ex radix2 (-1074) 53 (fun z => negb (Z.even z)) x y Fx Fy) as (d & Hd & E).
  exists d. split; [|exact E]. eapply Rle_trans; [exact Hd|]. unfold u_ro. rewrite u64_half. destruct u64_val as [H _]. set (w := u64) in *.
  apply Rmult_le_reg_r with (1 + w); [lra|]. unfold Rdiv. rewrite Rmult_assoc, Rinv_l by lra. nra.
Qed.
Lemma rnd_mono x y : x <= y -> rnd x <= rnd y.
Proof. apply round_le; [apply fexp_correct; reflexivity|apply valid_rnd_N]. Qed.
Lemma rnd_id x : generic_format radix2 fexp64 x -> rnd x = x.
Proof. apply round_generic. apply valid_rnd_N. Qed.
Lemma rnd_abs x : Rabs (rnd x) = rnd (Rabs x).
Proof. symmetry. apply round_NE_abs. apply fexp_correct. reflexivity. Qed.
Lemma rnd_small x : Rabs x <= bpow radix2 1023 -> Rabs (rnd x) < bpow radix2 1024.
Proof.
  intros H. rewrite rnd_abs. apply Rle_lt_trans with (bpow radix2 1023); [|apply bpow_lt; lia].
  rewrite <- (rnd_id (bpow radix2 1023)); [now apply rnd_mono|]. apply generic_format_bpow. reflexivity || (vm_compute; discriminate).
Qed.
