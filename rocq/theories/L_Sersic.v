(** Proofs about the Sersic curve of growth and the Petrosian profile. *)
From Verif Require Import Base Num Gamma M_Sersic S_Sersic.
Local Open Scope R_scope.

Lemma half_lit : nlit 1 2 = Fin (1 / 2).
Proof. unfold nlit. cbn. unfold xdiv. rewrite Reqb_false by lra. reflexivity. Qed.

Lemma xpow_pos a b : 0 < a -> xpow (Fin a) (Fin b) = Fin (Rpower a b).
Proof.
  intros H. unfold xpow. destruct (Reqb_spec b 0) as [->|].
  - f_equal. symmetry. now apply Rpower_O.
  - now rewrite Rltb_true.
Qed.

Lemma xpow_nonneg a b : 0 <= a -> 0 < b -> xpow (Fin a) (Fin b) = Fin (rpow a b).
Proof.
  intros H Hb. unfold rpow. destruct (Rlt_dec 0 a) as [|N]; [now apply xpow_pos|].
  assert (a = 0) as -> by lra. unfold xpow. rewrite Reqb_false by lra.
  rewrite Rltb_false by lra. rewrite Reqb_true by auto. now rewrite Rltb_true.
Qed.

Lemma xpow_sq a : xpow (Fin a) (Fin 2) = Fin (a * a).
Proof.
  unfold xpow. rewrite Reqb_false by lra.
  destruct (Rltb_spec 0 a).
  - f_equal. replace 2 with (1 + 1) by ring. rewrite Rpower_plus, !Rpower_1 by auto. reflexivity.
  - destruct (Reqb_spec a 0) as [->|].
    + rewrite Rltb_true by lra. f_equal. ring.
    + replace 2 with (IZR 2) by reflexivity.
      assert (I : Int_part (IZR 2) = 2%Z).
      { destruct (base_Int_part (IZR 2)) as [B1 B2]. apply le_IZR in B1.
        assert (IZR 1 < IZR (Int_part (IZR 2))) by (replace (IZR 1) with (IZR 2 - 1) by ring; lra).
        apply lt_IZR in H. lia. }
      unfold Rwhole. rewrite I, Reqb_true by auto. f_equal. change (powerRZ a 2) with (a * (a * 1)). ring.
Qed.

Lemma rpow_pos a b : 0 < a -> rpow a b = Rpower a b.
Proof. intros. unfold rpow. destruct (Rlt_dec 0 a); [auto|lra]. Qed.
Lemma rpow_0 b : rpow 0 b = 0.
Proof. unfold rpow. destruct (Rlt_dec 0 0); [lra|auto]. Qed.
Lemma rpow_nonneg a b : 0 <= rpow a b.
Proof. unfold rpow. destruct (Rlt_dec 0 a); [left; apply exp_pos|lra]. Qed.
Lemma rpow_gt0 a b : 0 < a -> 0 < rpow a b.
Proof. intros. rewrite rpow_pos by auto. apply exp_pos. Qed.
Lemma rpow_inc a c b : 0 <= a < c -> 0 < b -> rpow a b < rpow c b.
Proof.
  intros [[Ha| <-] Hc] Hb.
  - rewrite !rpow_pos by lra. apply Rlt_Rpower_l; lra.
  - rewrite rpow_0. apply rpow_gt0. lra.
Qed.
Lemma rpow_mono a c b : 0 <= a <= c -> 0 < b -> rpow a b <= rpow c b.
Proof.
  intros [H [H1| ->]] Hb; [left; apply rpow_inc; lra|lra].
Qed.
Lemma rpow_1 b : rpow 1 b = 1.
Proof. rewrite rpow_pos by lra. unfold Rpower. rewrite ln_1, Rmult_0_r. apply exp_0. Qed.
Lemma rpow_inv_l a n : 0 <= a -> 0 < n -> rpow (rpow a (1 / n)) n = a.
Proof.
  intros [Ha| <-] Hn; [|now rewrite !rpow_0].
  rewrite (rpow_pos a) by auto. rewrite rpow_pos by apply exp_pos. rewrite Rpower_mult.
  replace (1 / n * n) with 1 by (field; lra). now apply Rpower_1.
Qed.
Lemma rpow_inv_r a n : 0 <= a -> 0 < n -> rpow (rpow a n) (1 / n) = a.
Proof.
  intros [Ha| <-] Hn; [|now rewrite !rpow_0].
  rewrite (rpow_pos a) by auto. rewrite rpow_pos by apply exp_pos. rewrite Rpower_mult.
  replace (n * (1 / n)) with 1 by (field; lra). now apply Rpower_1.
Qed.

Lemma Rpower_2 a : 0 < a -> Rpower a 2 = a * a.
Proof. intros H. replace 2 with (1 + 1) by ring. rewrite Rpower_plus, !Rpower_1 by auto. reflexivity. Qed.

Definition bnR (n : R) : R := gammaincinvR (2 * n) (1 / 2).

Lemma bn_fin n : 0 < n -> bn_of (Fin n) = Fin (bnR n).
Proof.
  intros H. unfold bn_of. rewrite half_lit. cbn. unfold xgammaincinv.
  rewrite Rltb_true by lra. rewrite !Rltb_false by lra. rewrite Reqb_false by lra. reflexivity.
Qed.

Lemma bnR_half n : 0 < n -> half_light n (bnR n).
Proof.
  intros H. unfold half_light, bnR. split; [apply gammaincinv_pos; lra|].
  destruct (gammaincinv_spec (2 * n) ltac:(lra) (1 / 2) ltac:(lra)) as [_ E].
  pose proof (Gamma_pos (2 * n) ltac:(lra)) as G. unfold gammaincR in E.
  apply (Rmult_eq_compat_r (2 * GammaR (2 * n))) in E.
  field_simplify in E; lra.
Qed.

Lemma half_light_unique n b : 0 < n -> half_light n b -> b = bnR n.
Proof.
  intros H [Hb E]. destruct (bnR_half n H) as [Hb' E'].
  apply (lg_inj (2 * n)); lra.
Qed.

Lemma bnR_pos n : 0 < n -> 0 < bnR n.
Proof. intros. now apply bnR_half. Qed.

(** the factor in front of the incomplete gamma function *)
Definition scaleR (A re n e : R) : R :=
  A * (re * re) * 2 * PI * n * (exp (bnR n) / Rpower (bnR n) (2 * n)) * (1 - e).
(** argument of the incomplete gamma function *)
Definition argR (re n r : R) : R := bnR n * rpow (r / re) (1 / n).
Definition enclR (A re n e r : R) : R := scaleR A re n e * lower_gamma (2 * n) (argR re n r).

Lemma scale_pos A re n e : 0 < A -> 0 < re -> 0 < n -> e < 1 -> 0 < scaleR A re n e.
Proof.
  intros. unfold scaleR. pose proof PI_RGT_0. generalize dependent PI. intros p Hp.
  repeat apply Rmult_lt_0_compat; try lra; try apply exp_pos. apply Rinv_0_lt_compat, exp_pos.
Qed.

Lemma arg_nonneg re n r : 0 < n -> 0 <= argR re n r.
Proof.
  intros. unfold argR. apply Rmult_le_pos; [left; now apply bnR_pos|apply rpow_nonneg].
Qed.
Lemma arg_zero re n : argR re n 0 = 0.
Proof. unfold argR. replace (0 / re) with 0 by (unfold Rdiv; ring). rewrite rpow_0. ring. Qed.
Lemma arg_inc re n r r' : 0 < re -> 0 < n -> 0 <= r < r' -> argR re n r < argR re n r'.
Proof.
  intros Hre Hn H. unfold argR. apply Rmult_lt_compat_l; [now apply bnR_pos|].
  assert (I : 0 < / re) by now apply Rinv_0_lt_compat.
  apply rpow_inc; [unfold Rdiv; nra|]. apply Rdiv_lt_0_compat; lra.
Qed.
Lemma arg_pos re n r : 0 < re -> 0 < n -> 0 < r -> 0 < argR re n r.
Proof. intros. rewrite <- (arg_zero re n). apply arg_inc; lra. Qed.
Lemma arg_re re n : 0 < re -> argR re n re = bnR n.
Proof. intros. unfold argR. replace (re / re) with 1 by (field; lra). rewrite rpow_1. ring. Qed.

Lemma x_fin re n r : 0 < re -> 0 < n -> 0 <= r ->
  nmul (bn_of (Fin n)) (xpow (ndiv (Fin r) (Fin re)) (ndiv n1 (Fin n))) = Fin (argR re n r).
Proof.
  intros. rewrite bn_fin by auto. cbn [n1 nofZ XRnum ndiv].
  rewrite !xdiv_fin by lra.
  rewrite xpow_nonneg.
  - reflexivity.
  - apply Rmult_le_pos; auto. left. now apply Rinv_0_lt_compat.
  - apply Rdiv_lt_0_compat; lra.
Qed.

Lemma g_fin n x : 0 < n -> 0 <= x ->
  nmul (xgamma (nmul n2 (Fin n))) (xgammainc (nmul n2 (Fin n)) (Fin x)) = Fin (lower_gamma (2 * n) x).
Proof.
  intros. cbn. unfold xgammainc. rewrite !Rltb_true by lra. rewrite Rltb_false by lra.
  cbn. f_equal. unfold gammaincR. pose proof (Gamma_pos (2 * n) ltac:(lra)). field. lra.
Qed.

Lemma enclosed_fin A re n e r : 0 < re -> 0 < n -> 0 <= r ->
  sersic_enclosed (Fin r) (Fin A) (Fin re) (Fin n) (Fin e) = Fin (enclR A re n e r).
Proof.
  intros Hre Hn Hr. unfold sersic_enclosed. cbv zeta. rewrite x_fin, g_fin by (auto using arg_nonneg).
  rewrite bn_fin by auto. pose proof (bnR_pos n Hn).
  cbn [n2 n1 nofZ nmul nsub ndiv XRnum xpi xmul xexp]. rewrite xpow_sq, xpow_pos by auto.
  rewrite xdiv_fin by (pose proof (exp_pos (2 * n * ln (bnR n))); unfold Rpower; lra).
  cbn. f_equal. unfold enclR, scaleR. ring.
Qed.

Definition totalR (A re n e : R) : R := scaleR A re n e * GammaR (2 * n).

Lemma enclosed_inf A re n e : 0 < re -> 0 < n ->
  sersic_enclosed PInf (Fin A) (Fin re) (Fin n) (Fin e) = Fin (totalR A re n e).
Proof.
  intros Hre Hn. unfold sersic_enclosed. cbv zeta.
  rewrite bn_fin by auto. pose proof (bnR_pos n Hn).
  assert (X : nmul (Fin (bnR n)) (xpow (ndiv PInf (Fin re)) (ndiv n1 (Fin n))) = PInf).
  { cbn [n1 nofZ XRnum ndiv nmul]. rewrite xdiv_fin by lra. cbn. rewrite Rltb_false by lra.
    assert (0 < 1 / n) by (apply Rdiv_lt_0_compat; lra).
    unfold xpow. rewrite Reqb_false by lra. rewrite Rltb_true by auto. cbn. unfold xsgn_inf.
    now rewrite Rltb_true. }
  rewrite X.
  assert (G : nmul (xgamma (nmul n2 (Fin n))) (xgammainc (nmul n2 (Fin n)) PInf) = Fin (GammaR (2 * n))).
  { cbn. unfold xgammainc. rewrite !Rltb_true by lra. cbn. f_equal. ring. }
  rewrite G.
  cbn [n2 n1 nofZ nmul nsub ndiv XRnum xpi xmul xexp]. rewrite xpow_sq, xpow_pos by auto.
  rewrite xdiv_fin by (pose proof (exp_pos (2 * n * ln (bnR n))); unfold Rpower; lra).
  cbn. f_equal. unfold totalR, scaleR. ring.
Qed.

(** derivative *)
Lemma dpl_ext f g x l (d : R) : 0 < d -> (forall y, Rabs (y - x) < d -> f y = g y) ->
  derivable_pt_lim f x l -> derivable_pt_lim g x l.
Proof.
  intros Hd E D eps Heps. destruct (D eps Heps) as (dl & Hdl).
  assert (P : 0 < Rmin dl d) by (apply Rmin_glb_lt; [apply cond_pos|auto]).
  exists (mkposreal _ P). cbn. intros h Hh Hl.
  pose proof (Rmin_l dl d). pose proof (Rmin_r dl d).
  rewrite <- !E.
  - apply Hdl; auto. lra.
  - rewrite Rminus_diag_eq by auto. rewrite Rabs_R0. auto.
  - replace (x + h - x) with h by ring. lra.
Qed.

Lemma encl_derive A re n e r : 0 < re -> 0 < n -> 0 < r ->
  derivable_pt_lim (enclR A re n e) r (2 * PI * r * (1 - e) * sersic_law A re n (bnR n) r).
Proof.
  intros Hre Hn Hr. pose proof (bnR_pos n Hn) as Hb. set (b := bnR n) in *.
  assert (Hir : 0 < / re) by now apply Rinv_0_lt_compat.
  assert (Hq : 0 < r / re) by (unfold Rdiv; nra).
  apply (dpl_ext (fun y => scaleR A re n e * lower_gamma (2 * n) (b * Rpower (y * / re) (1 / n))) _ _ _ r Hr).
  { intros y Hy. unfold enclR, argR. rewrite rpow_pos; auto.
    apply Rabs_def2 in Hy. unfold Rdiv. apply Rmult_lt_0_compat; lra. }
  set (X := b * Rpower (r * / re) (1 / n)).
  assert (D1 : derivable_pt_lim (fun y => y * / re) r (/ re)).
  { pose proof (derivable_pt_lim_mult id (fct_cte (/ re)) r _ _ (derivable_pt_lim_id r)
      (derivable_pt_lim_const (/ re) r)) as D.
    replace (1 * fct_cte (/ re) r + id r * 0) with (/ re) in D by (unfold fct_cte; ring). exact D. }
  assert (D2 : derivable_pt_lim (fun y => Rpower y (1 / n)) (r * / re) (1 / n * Rpower (r * / re) (1 / n - 1)))
    by now apply derivable_pt_lim_power.
  pose proof (derivable_pt_lim_comp _ _ _ _ _ D1 D2) as D3.
  assert (D4 : derivable_pt_lim (fun y => b * Rpower (y * / re) (1 / n)) r
     (b * (1 / n * Rpower (r * / re) (1 / n - 1) * / re))).
  { apply (derivable_pt_lim_scal (comp (fun y => Rpower y (1 / n)) (fun y => y * / re)) b). exact D3. }
  assert (HX : 0 < X) by (unfold X; apply Rmult_lt_0_compat; auto; apply exp_pos).
  assert (D5 : derivable_pt_lim (lower_gamma (2 * n)) X (Rpower X (2 * n - 1) * exp (- X)))
    by (apply lg_derivable; lra).
  pose proof (derivable_pt_lim_comp _ (lower_gamma (2 * n)) _ _ _ D4 D5) as D6.
  pose proof (derivable_pt_lim_scal _ (scaleR A re n e) _ _ D6) as D7.
  unfold mult_real_fct, comp in D7.
  replace (2 * PI * r * (1 - e) * sersic_law A re n b r) with
    (scaleR A re n e * (Rpower X (2 * n - 1) * exp (- X) * (b * (1 / n * Rpower (r * / re) (1 / n - 1) * / re))));
    [exact D7|].
  unfold sersic_law. rewrite rpow_pos by auto. fold (Rdiv r re) in *. fold b.
  set (q := r / re) in *.
  assert (E1 : Rpower X (2 * n - 1) * b * Rpower q (1 / n - 1) = Rpower b (2 * n) * q).
  { unfold X. rewrite <- Rpower_mult_distr by (auto; apply exp_pos).
    rewrite Rpower_mult.
    replace (Rpower b (2 * n - 1) * Rpower q (1 / n * (2 * n - 1)) * b * Rpower q (1 / n - 1))
      with ((Rpower b (2 * n - 1) * b) * (Rpower q (1 / n * (2 * n - 1)) * Rpower q (1 / n - 1))) by ring.
    rewrite <- Rpower_plus. replace (1 / n * (2 * n - 1) + (1 / n - 1)) with 1 by (field; lra).
    rewrite Rpower_1 by auto. f_equal.
    replace b with (Rpower b 1) at 2 by (apply Rpower_1; auto). rewrite <- Rpower_plus. f_equal. ring. }
  replace (scaleR A re n e * (Rpower X (2 * n - 1) * exp (- X) * (b * (1 / n * Rpower q (1 / n - 1) * / re))))
    with (scaleR A re n e * exp (- X) * (1 / n * / re) * (Rpower X (2 * n - 1) * b * Rpower q (1 / n - 1))) by ring.
  rewrite E1. unfold scaleR. fold b.
  assert (E2 : - b * (Rpower q (1 / n) - 1) = b + - X) by (unfold X; ring).
  rewrite E2, exp_plus. unfold q.
  assert (Rpower b (2 * n) <> 0) by (pose proof (exp_pos (2 * n * ln b)); unfold Rpower; lra).
  field. repeat split; lra.
Qed.

Lemma encl_zero A re n e : enclR A re n e 0 = 0.
Proof. unfold enclR. rewrite arg_zero, lg_zero by lra. ring. Qed.

Lemma encl_inc A re n e r r' : 0 < A -> 0 < re -> 0 < n -> e < 1 -> 0 <= r < r' ->
  enclR A re n e r < enclR A re n e r'.
Proof.
  intros. unfold enclR. apply Rmult_lt_compat_l; [now apply scale_pos|].
  apply lg_increasing; [lra|]. split; [now apply arg_nonneg|now apply arg_inc].
Qed.

Lemma encl_half A re n e : 0 < re -> 0 < n -> 2 * enclR A re n e re = totalR A re n e.
Proof.
  intros Hre Hn. unfold enclR, totalR. rewrite arg_re by auto.
  destruct (bnR_half n Hn) as [_ E]. rewrite <- E. ring.
Qed.

Lemma encl_lt_total A re n e r : 0 < A -> 0 < re -> 0 < n -> e < 1 ->
  enclR A re n e r < totalR A re n e.
Proof.
  intros. unfold enclR, totalR. apply Rmult_lt_compat_l; [now apply scale_pos|]. apply lg_lt_Gamma. lra.
Qed.

Lemma arg_of_inv re n x : 0 < re -> 0 < n -> 0 <= x ->
  argR re n (rpow (x / bnR n) n * re) = x.
Proof.
  intros Hre Hn Hx. unfold argR. pose proof (bnR_pos n Hn).
  replace (rpow (x / bnR n) n * re / re) with (rpow (x / bnR n) n) by (field; lra).
  rewrite rpow_inv_r; auto.
  - field. lra.
  - apply Rmult_le_pos; auto. left. now apply Rinv_0_lt_compat.
Qed.

Lemma encl_limit A re n e : 0 < re -> 0 < n ->
  tends_to_at_infinity (enclR A re n e) (totalR A re n e).
Proof.
  intros Hre Hn eps Heps.
  set (K := Rabs (scaleR A re n e) + 1). pose proof (Rabs_pos (scaleR A re n e)).
  assert (HK : 0 < K) by (unfold K; lra).
  destruct (lg_limit_inf (2 * n) ltac:(lra) (eps / K)) as (X & HX & HL); [now apply Rdiv_lt_0_compat|].
  exists (rpow (X / bnR n) n * re). intros r Hr.
  assert (0 <= rpow (X / bnR n) n * re) by (apply Rmult_le_pos; [apply rpow_nonneg|lra]).
  assert (HA : X <= argR re n r).
  { rewrite <- (arg_of_inv re n X) by lra. destruct Hr as [Hr| <-]; [|lra]. left. apply arg_inc; auto. }
  specialize (HL _ HA). pose proof (lg_lt_Gamma (2 * n) ltac:(lra) (argR re n r)) as HU.
  unfold enclR, totalR. rewrite <- Rmult_minus_distr_l, Rabs_mult.
  rewrite (Rabs_left (lower_gamma _ _ - _)) by lra.
  apply Rle_lt_trans with (K * - (lower_gamma (2 * n) (argR re n r) - GammaR (2 * n))).
  - apply Rmult_le_compat_r; [lra|unfold K; lra].
  - apply Rlt_le_trans with (K * (eps / K)); [apply Rmult_lt_compat_l; lra|]. right. field. lra.
Qed.

Lemma encl_limit0 A re n e : 0 < re -> 0 < n -> tends_to_at_zero (enclR A re n e) 0.
Proof.
  intros Hre Hn eps Heps.
  set (K := Rabs (scaleR A re n e) + 1). pose proof (Rabs_pos (scaleR A re n e)).
  assert (HK : 0 < K) by (unfold K; lra). pose proof (bnR_pos n Hn).
  destruct (lg_limit0 (2 * n) ltac:(lra) (eps / K)) as (d & Hd & HL); [now apply Rdiv_lt_0_compat|].
  exists (rpow (d / bnR n) n * re). split.
  { apply Rmult_lt_0_compat; auto. apply rpow_gt0. now apply Rdiv_lt_0_compat. }
  intros r [Hr0 Hr].
  assert (HA : 0 < argR re n r < d).
  { split; [now apply arg_pos|]. rewrite <- (arg_of_inv re n d) by lra. apply arg_inc; auto. lra. }
  specialize (HL _ HA). unfold enclR. rewrite Rminus_0_r, Rabs_mult.
  apply Rle_lt_trans with (K * Rabs (lower_gamma (2 * n) (argR re n r))).
  - apply Rmult_le_compat_r; [apply Rabs_pos|unfold K; lra].
  - apply Rlt_le_trans with (K * (eps / K)); [apply Rmult_lt_compat_l; lra|]. right. field. lra.
Qed.

(** C33 *)
Theorem enclosed_spec A re n e b : 0 < A -> 0 < re -> 0 < n -> e < 1 -> half_light n b ->
  exists L total,
    computes (fun r => sersic_enclosed r (Fin A) (Fin re) (Fin n) (Fin e)) L /\
    L 0 = 0 /\ tends_to_at_zero L 0 /\
    (forall r, 0 < r -> derivable_pt_lim L r (2 * PI * r * (1 - e) * sersic_law A re n b r)) /\
    (forall r r', 0 <= r < r' -> L r < L r') /\
    tends_to_at_infinity L total /\
    sersic_enclosed PInf (Fin A) (Fin re) (Fin n) (Fin e) = Fin total /\
    2 * L re = total.
Proof.
  intros HA Hre Hn He Hb. rewrite (half_light_unique n b Hn Hb).
  exists (enclR A re n e), (totalR A re n e). repeat split.
  - intros r Hr. now apply enclosed_fin.
  - apply encl_zero.
  - now apply encl_limit0.
  - intros. now apply encl_derive.
  - intros. now apply encl_inc.
  - now apply encl_limit.
  - now apply enclosed_inf.
  - now apply encl_half.
Qed.

Lemma half_light_exists n : 0 < n -> exists b, half_light n b /\ forall b', half_light n b' -> b' = b.
Proof.
  intros H. exists (bnR n). split; [now apply bnR_half|]. intros. now apply half_light_unique.
Qed.

(** * Inverse *)
Lemma inv_g_fin A re n e f : 0 < A -> 0 < re -> 0 < n -> e < 1 ->
  ndiv (ndiv (Fin f) (nmul (nmul (nmul (nmul (nmul (nmul (Fin A) (xpow (Fin re) n2)) n2) xpi) (Fin n))
      (ndiv (xexp (Fin (bnR n))) (xpow (Fin (bnR n)) (nmul n2 (Fin n))))) (nsub n1 (Fin e))))
    (xgamma (nmul n2 (Fin n))) = Fin (f / totalR A re n e).
Proof.
  intros HA Hre Hn He. pose proof (bnR_pos n Hn). pose proof (scale_pos A re n e HA Hre Hn He) as Hs.
  cbn [n2 n1 nofZ nmul nsub ndiv XRnum xpi xmul xexp xsub xopp xadd]. rewrite xpow_sq, xpow_pos by auto.
  rewrite xdiv_fin by (pose proof (exp_pos (2 * n * ln (bnR n))); unfold Rpower; lra).
  cbn [xmul xpi]. cbn [xmul]. change (xgamma (Fin (2 * n))) with (if Rltb 0 (2 * n) then Fin (GammaR (2 * n)) else NaN).
  rewrite Rltb_true by lra. pose proof (Gamma_pos (2 * n) ltac:(lra)).
  replace (A * (re * re) * 2 * PI * n * (exp (bnR n) / Rpower (bnR n) (2 * n)) * (1 + - e)) with (scaleR A re n e)
    by (unfold scaleR; ring).
  rewrite (xdiv_fin f) by lra. rewrite xdiv_fin by lra.
  f_equal. unfold totalR. field. lra.
Qed.

Definition invR (A re n e f : R) : R :=
  rpow (gammaincinvR (2 * n) (f / totalR A re n e) / bnR n) n * re.

Lemma total_pos A re n e : 0 < A -> 0 < re -> 0 < n -> e < 1 -> 0 < totalR A re n e.
Proof.
  intros. unfold totalR. apply Rmult_lt_0_compat; [now apply scale_pos|]. apply Gamma_pos. lra.
Qed.

Lemma frac_range A re n e f : 0 < A -> 0 < re -> 0 < n -> e < 1 -> 0 <= f < totalR A re n e ->
  0 <= f / totalR A re n e < 1.
Proof.
  intros HA Hre Hn He Hf. pose proof (total_pos A re n e HA Hre Hn He).
  assert (0 < / totalR A re n e) by now apply Rinv_0_lt_compat.
  split; [unfold Rdiv; apply Rmult_le_pos; lra|].
  apply Rmult_lt_reg_r with (totalR A re n e); auto. unfold Rdiv. rewrite Rmult_assoc, Rinv_l by lra. lra.
Qed.

Lemma inv_fin A re n e f : 0 < A -> 0 < re -> 0 < n -> e < 1 -> 0 <= f < totalR A re n e ->
  sersic_enclosed_inv (Fin f) (Fin A) (Fin re) (Fin n) (Fin e) = Fin (invR A re n e f).
Proof.
  intros HA Hre Hn He Hf. unfold sersic_enclosed_inv. cbv zeta. rewrite bn_fin by auto.
  rewrite inv_g_fin by auto. pose proof (bnR_pos n Hn).
  pose proof (frac_range A re n e f HA Hre Hn He Hf) as Hq.
  cbn [n2 nofZ nmul ndiv XRnum xmul]. unfold xgammaincinv. rewrite Rltb_true by lra.
  rewrite !Rltb_false by lra. rewrite Reqb_false by lra. cbn [orb].
  rewrite xdiv_fin by lra.
  destruct (gammaincinv_spec (2 * n) ltac:(lra) _ Hq) as [G _].
  rewrite xpow_nonneg by (auto; unfold Rdiv; apply Rmult_le_pos; auto; left; now apply Rinv_0_lt_compat).
  reflexivity.
Qed.

Lemma inv_range A re n e f : 0 < re -> 0 <= invR A re n e f.
Proof. intros. unfold invR. apply Rmult_le_pos; [apply rpow_nonneg|lra]. Qed.

Lemma encl_inv A re n e f : 0 < A -> 0 < re -> 0 < n -> e < 1 -> 0 <= f < totalR A re n e ->
  enclR A re n e (invR A re n e f) = f.
Proof.
  intros HA Hre Hn He Hf. pose proof (frac_range A re n e f HA Hre Hn He Hf) as Hq.
  destruct (gammaincinv_spec (2 * n) ltac:(lra) _ Hq) as [G E].
  unfold enclR, invR. rewrite arg_of_inv by auto. unfold gammaincR in E.
  pose proof (Gamma_pos (2 * n) ltac:(lra)). pose proof (scale_pos A re n e HA Hre Hn He) as Hs.
  apply (Rmult_eq_compat_r (GammaR (2 * n))) in E. unfold Rdiv in E at 1.
  rewrite Rmult_assoc, Rinv_l, Rmult_1_r in E by lra. rewrite E. unfold totalR. field. lra.
Qed.

Lemma encl_inj A re n e r r' : 0 < A -> 0 < re -> 0 < n -> e < 1 -> 0 <= r -> 0 <= r' ->
  enclR A re n e r = enclR A re n e r' -> r = r'.
Proof.
  intros HA Hre Hn He Hr Hr' E. destruct (Rtotal_order r r') as [L|[L|L]]; auto.
  - pose proof (encl_inc A re n e r r' HA Hre Hn He ltac:(lra)). lra.
  - pose proof (encl_inc A re n e r' r HA Hre Hn He ltac:(lra)). lra.
Qed.

Lemma inv_inf A re n e : 0 < A -> 0 < re -> 0 < n -> e < 1 ->
  sersic_enclosed_inv (Fin (totalR A re n e)) (Fin A) (Fin re) (Fin n) (Fin e) = PInf.
Proof.
  intros HA Hre Hn He. unfold sersic_enclosed_inv. cbv zeta. rewrite bn_fin by auto.
  rewrite inv_g_fin by auto. pose proof (bnR_pos n Hn). pose proof (total_pos A re n e HA Hre Hn He).
  replace (totalR A re n e / totalR A re n e) with 1 by (field; lra).
  cbn [n2 nofZ nmul ndiv XRnum xmul]. unfold xgammaincinv. rewrite Rltb_true by lra.
  rewrite !Rltb_false by lra. rewrite Reqb_true by lra. cbn [orb].
  cbn. rewrite Rltb_false by lra. rewrite Reqb_false by lra. rewrite Rltb_true by lra. cbn.
  unfold xsgn_inf. now rewrite Rltb_true.
Qed.

Lemma inv_out A re n e f : 0 < A -> 0 < re -> 0 < n -> e < 1 -> f < 0 \/ totalR A re n e < f ->
  sersic_enclosed_inv (Fin f) (Fin A) (Fin re) (Fin n) (Fin e) = NaN.
Proof.
  intros HA Hre Hn He Hf. unfold sersic_enclosed_inv. cbv zeta. rewrite bn_fin by auto.
  rewrite inv_g_fin by auto. pose proof (bnR_pos n Hn). pose proof (total_pos A re n e HA Hre Hn He).
  assert (Hi : 0 < / totalR A re n e) by now apply Rinv_0_lt_compat.
  cbn [n2 nofZ nmul ndiv XRnum xmul]. unfold xgammaincinv. rewrite Rltb_true by lra.
  assert (Rltb (f / totalR A re n e) 0 || Rltb 1 (f / totalR A re n e) = true)%bool as ->.
  { destruct Hf as [Hf|Hf].
    - rewrite Rltb_true; auto. unfold Rdiv. nra.
    - rewrite (Rltb_true 1); [apply Bool.orb_true_r|].
      apply Rmult_lt_reg_r with (totalR A re n e); auto. unfold Rdiv. rewrite Rmult_assoc, Rinv_l by lra. lra. }
  cbn. rewrite Reqb_false by lra. reflexivity.
Qed.

(** C34 *)
Theorem inverse_spec A re n e : 0 < A -> 0 < re -> 0 < n -> e < 1 ->
  exists total, sersic_enclosed PInf (Fin A) (Fin re) (Fin n) (Fin e) = Fin total /\ 0 < total /\
    (forall r, 0 <= r -> exists f, 0 <= f < total /\
       sersic_enclosed (Fin r) (Fin A) (Fin re) (Fin n) (Fin e) = Fin f /\
       sersic_enclosed_inv (Fin f) (Fin A) (Fin re) (Fin n) (Fin e) = Fin r) /\
    (forall f, 0 <= f < total -> exists r, 0 <= r /\
       sersic_enclosed_inv (Fin f) (Fin A) (Fin re) (Fin n) (Fin e) = Fin r /\
       sersic_enclosed (Fin r) (Fin A) (Fin re) (Fin n) (Fin e) = Fin f) /\
    (forall f f' r r', 0 <= f < f' -> f' < total ->
       sersic_enclosed_inv (Fin f) (Fin A) (Fin re) (Fin n) (Fin e) = Fin r ->
       sersic_enclosed_inv (Fin f') (Fin A) (Fin re) (Fin n) (Fin e) = Fin r' -> r < r') /\
    sersic_enclosed_inv (Fin total) (Fin A) (Fin re) (Fin n) (Fin e) = PInf /\
    (forall f, f < 0 \/ total < f ->
       sersic_enclosed_inv (Fin f) (Fin A) (Fin re) (Fin n) (Fin e) = NaN).
Proof.
  intros HA Hre Hn He. exists (totalR A re n e).
  assert (Hrng : forall r, 0 <= r -> 0 <= enclR A re n e r < totalR A re n e).
  { intros r Hr. split; [|now apply encl_lt_total].
    rewrite <- (encl_zero A re n e). destruct Hr as [Hr| <-]; [|lra]. left. apply encl_inc; lra. }
  split; [now apply enclosed_inf|]. split; [now apply total_pos|].
  repeat split.
  - intros r Hr. exists (enclR A re n e r). split; [now apply Hrng|]. split; [now apply enclosed_fin|].
    rewrite inv_fin by auto. f_equal.
    apply (encl_inj A re n e); auto; [now apply inv_range|]. apply encl_inv; auto.
  - intros f Hf. exists (invR A re n e f). split; [now apply inv_range|]. split; [now apply inv_fin|].
    rewrite enclosed_fin by (auto using inv_range). f_equal. now apply encl_inv.
  - intros f f' r r' Hf Hf' E E'. rewrite inv_fin in E, E' by (auto; lra).
    injection E as <-. injection E' as <-.
    apply Rnot_le_lt. intros L.
    assert (enclR A re n e (invR A re n e f') <= enclR A re n e (invR A re n e f)).
    { destruct L as [L|L]; [|rewrite L; lra]. left. apply encl_inc; auto. split; auto. now apply inv_range. }
    rewrite !encl_inv in H by (auto; lra). lra.
  - now apply inv_inf.
  - intros. now apply inv_out.
Qed.

(** * Petrosian profile *)
Definition petroR (s x : R) : R := Rpower x s * exp (- x) / (s * lower_gamma s x).

Lemma petro_fin re n r : 0 < re -> 0 < n -> 0 < r ->
  petrosian_profile (Fin r) (Fin re) (Fin n) = Fin (petroR (2 * n) (argR re n r)).
Proof.
  intros Hre Hn Hr. unfold petrosian_profile. cbv zeta.
  rewrite x_fin, g_fin by (auto using arg_nonneg; lra).
  pose proof (arg_pos re n r Hre Hn Hr) as Hx. pose proof (lg_pos (2 * n) ltac:(lra) _ Hx) as Hg.
  cbn [n2 nofZ nopp n0 nsub nmul ndiv XRnum xmul xopp xsub xadd xexp].
  rewrite xpow_pos by auto. cbn [xmul]. rewrite xdiv_fin by nra.
  f_equal. unfold petroR. replace (0 + - argR re n r) with (- argR re n r) by ring.
  field. nra.
Qed.

Lemma petroR_range s x : 0 < s -> 0 < x -> 0 < petroR s x < 1.
Proof.
  intros Hs Hx. unfold petroR. pose proof (lg_pos s Hs x Hx). pose proof (lg_lower s Hs x Hx).
  assert (0 < s * lower_gamma s x) by (apply Rmult_lt_0_compat; auto).
  assert (0 < Rpower x s * exp (- x)) by (apply Rmult_lt_0_compat; apply exp_pos).
  split; [now apply Rdiv_lt_0_compat|].
  apply Rmult_lt_reg_r with (s * lower_gamma s x); auto. unfold Rdiv. rewrite Rmult_assoc, Rinv_l by lra. lra.
Qed.

(** strictly decreasing: the logarithmic derivative is negative *)
Lemma petroR_dec s x y : 0 < s -> 0 < x < y -> petroR s y < petroR s x.
Proof.
  intros Hs Hxy.
  set (f := fun z => Rpower z s * exp (- z)).
  set (f' := fun z => (s / z - 1) * (Rpower z s * exp (- z))).
  set (h := fun z => f z / lower_gamma s z).
  assert (Df : forall z, 0 < z -> derivable_pt_lim f z (f' z)).
  { intros z Hz. unfold f, f'.
    assert (E : (s / z - 1) * (Rpower z s * exp (- z)) = s * Rpower z (s - 1) * exp (- z) + Rpower z s * (exp (- z) * -1)).
    { replace (Rpower z s) with (Rpower z (s - 1) * z).
      - field. lra.
      - replace z with (Rpower z 1) at 2 by (apply Rpower_1; auto). rewrite <- Rpower_plus. f_equal. ring. }
    rewrite E.
    apply (derivable_pt_lim_mult (fun z => Rpower z s) (fun z => exp (- z))).
    - now apply derivable_pt_lim_power.
    - apply (derivable_pt_lim_comp (fun z => - z) exp).
      + apply (derivable_pt_lim_opp id z 1). apply derivable_pt_lim_id.
      + apply derivable_pt_lim_exp. }
  set (h' := fun z => (f' z * lower_gamma s z - (Rpower z (s - 1) * exp (- z)) * f z) / Rsqr (lower_gamma s z)).
  assert (Dh : forall z, 0 < z -> derivable_pt_lim h z (h' z)).
  { intros z Hz. unfold h, h'. apply (derivable_pt_lim_div f (lower_gamma s)).
    - now apply Df.
    - now apply lg_derivable.
    - pose proof (lg_pos s Hs z Hz). lra. }
  assert (Hneg : forall z, 0 < z -> h' z < 0).
  { intros z Hz. unfold h', f', f. pose proof (lg_pos s Hs z Hz) as Hg. pose proof (lg_upper s Hs z Hz) as Hu.
    assert (P : 0 < Rpower z s * exp (- z)) by (apply Rmult_lt_0_compat; apply exp_pos).
    assert (Ez : Rpower z (s - 1) * exp (- z) = Rpower z s * exp (- z) / z).
    { replace (Rpower z s) with (Rpower z (s - 1) * z).
      - field. lra.
      - replace z with (Rpower z 1) at 2 by (apply Rpower_1; auto). rewrite <- Rpower_plus. f_equal. ring. }
    rewrite Ez.
    replace ((s / z - 1) * (Rpower z s * exp (- z)) * lower_gamma s z - Rpower z s * exp (- z) / z * (Rpower z s * exp (- z)))
      with (- (Rpower z s * exp (- z) / z * (Rpower z s * exp (- z) - (s - z) * lower_gamma s z))) by (field; lra).
    unfold Rdiv. assert (0 < / Rsqr (lower_gamma s z)) by (apply Rinv_0_lt_compat; unfold Rsqr; nra).
    assert (0 < / z) by now apply Rinv_0_lt_compat.
    assert (0 < Rpower z s * exp (- z) * / z * (Rpower z s * exp (- z) - (s - z) * lower_gamma s z)).
    { apply Rmult_lt_0_compat; [apply Rmult_lt_0_compat; auto|lra]. }
    nra. }
  assert (Hd : h y < h x).
  { assert (pr : forall c, x < c < y -> derivable_pt h c).
    { intros c Hc. exists (h' c). apply Dh. lra. }
    assert (C : forall c, x <= c <= y -> continuity_pt h c).
    { intros c Hc. apply derivable_continuous_pt. exists (h' c). apply Dh. lra. }
    destruct (MVT_cor2 h h' x y) as (c & E & Hc); [lra|intros; apply Dh; lra|].
    pose proof (Hneg c ltac:(lra)). nra. }
  unfold petroR. fold (f x) (f y).
  pose proof (lg_pos s Hs x ltac:(lra)). pose proof (lg_pos s Hs y ltac:(lra)).
  replace (f y / (s * lower_gamma s y)) with (/ s * h y) by (unfold h; field; lra).
  replace (f x / (s * lower_gamma s x)) with (/ s * h x) by (unfold h; field; lra).
  apply Rmult_lt_compat_l; auto. now apply Rinv_0_lt_compat.
Qed.

(** C35 *)
Theorem profile_spec re n r : 0 < re -> 0 < n -> 0 < r ->
  exists v, petrosian_profile (Fin r) (Fin re) (Fin n) = Fin v /\ 0 < v < 1 /\
    (forall A e b L, 0 < A -> e < 1 -> half_light n b ->
       sersic_enclosed (Fin r) (Fin A) (Fin re) (Fin n) (Fin e) = Fin L ->
       v = sersic_law A re n b r / (L / (PI * (r * r) * (1 - e)))) /\
    (forall k, 0 < k -> petrosian_profile (Fin (k * r)) (Fin (k * re)) (Fin n) = Fin v) /\
    (forall r' v', r < r' -> petrosian_profile (Fin r') (Fin re) (Fin n) = Fin v' -> v' < v).
Proof.
  intros Hre Hn Hr. pose proof (arg_pos re n r Hre Hn Hr) as Hx.
  exists (petroR (2 * n) (argR re n r)). split; [now apply petro_fin|].
  split; [apply petroR_range; lra|]. repeat split.
  - intros A e b L HA He Hb E. rewrite enclosed_fin in E by lra. injection E as <-.
    rewrite (half_light_unique n b Hn Hb). pose proof (bnR_pos n Hn) as Hb0.
    pose proof (lg_pos (2 * n) ltac:(lra) _ Hx) as Hg.
    unfold sersic_law, enclR, petroR.
    assert (Hq : 0 < r / re) by now apply Rdiv_lt_0_compat.
    assert (EX : Rpower (argR re n r) (2 * n) = Rpower (bnR n) (2 * n) * ((r / re) * (r / re))).
    { unfold argR. rewrite rpow_pos by auto. rewrite <- Rpower_mult_distr by (auto; apply exp_pos).
      rewrite Rpower_mult. replace (1 / n * (2 * n)) with 2 by (field; lra). now rewrite Rpower_2. }
    rewrite EX.
    assert (E2 : - bnR n * (rpow (r / re) (1 / n) - 1) = bnR n + - argR re n r) by (unfold argR; ring).
    rewrite E2, exp_plus. unfold scaleR.
    assert (Rpower (bnR n) (2 * n) <> 0) by (pose proof (exp_pos (2 * n * ln (bnR n))); unfold Rpower; lra).
    pose proof (exp_pos (bnR n)). pose proof PI_RGT_0. field. repeat split; lra.
  - intros k Hk. rewrite petro_fin by (try apply Rmult_lt_0_compat; auto).
    f_equal. f_equal. unfold argR. do 2 f_equal. field. lra.
  - intros r' v' Hr' E. rewrite petro_fin in E by lra. injection E as <-.
    apply petroR_dec; [lra|]. split; auto. apply arg_inc; lra.
Qed.

(** * Central intensity *)
Theorem intensity_spec i n : 0 < n ->
  I0_to_Ie (Ie_to_I0 (Fin i) (Fin n)) (Fin n) = Fin i /\
  Ie_to_I0 (I0_to_Ie (Fin i) (Fin n)) (Fin n) = Fin i /\
  (forall re b, 0 < re -> half_light n b -> Ie_to_I0 (Fin i) (Fin n) = Fin (sersic_law i re n b 0)).
Proof.
  intros Hn. unfold I0_to_Ie, Ie_to_I0. rewrite bn_fin by auto.
  pose proof (exp_pos (bnR n)).
  cbn [xexp nmul ndiv XRnum xmul]. rewrite !xdiv_fin by lra. repeat split.
  - f_equal. field. lra.
  - cbn. f_equal. field. lra.
  - intros re b Hre Hb. rewrite (half_light_unique n b Hn Hb). f_equal. unfold sersic_law.
    replace (0 / re) with 0 by (unfold Rdiv; ring). rewrite rpow_0. do 2 f_equal. ring.
Qed.
