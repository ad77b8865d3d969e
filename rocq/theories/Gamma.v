(** The gamma function, the lower incomplete gamma function and its inverse on the reals,
    constructed from a power series (nothing is assumed about them). *)
From Coq Require Import Reals Ranalysis5 Lra Lia.
From Coquelicot Require Import Coquelicot.
Local Open Scope R_scope.

(** coefficients of t^(-s) * integral of t^(s-1) exp(-t) *)
Definition lg_coef (s : R) (k : nat) : R := (-1)^k / (INR (fact k) * (s + INR k)).

(** lower incomplete gamma function, for s > 0 *)
Definition lower_gamma (s x : R) : R :=
  if Rle_dec x 0 then 0 else Rpower x s * PSeries (lg_coef s) x.

(** gamma function for s > 0: supremum (= limit) of the lower incomplete gamma function *)
Definition GammaR (s : R) : R := real (Lub_Rbar (fun y => exists x, y = lower_gamma s x)).

(** regularised, and its inverse *)
Definition gammaincR (s x : R) : R := lower_gamma s x / GammaR s.
Definition gammaincinvR (s p : R) : R :=
  real (Lub_Rbar (fun x => 0 <= x /\ lower_gamma s x <= p * GammaR s)).

Section Series.
  Variable s : R.
  Hypothesis Hs : 0 < s.

  Lemma den_pos k : 0 < INR (fact k) * (s + INR k).
  Proof.
    apply Rmult_lt_0_compat; [apply INR_fact_lt_0|]. pose proof (pos_INR k). lra.
  Qed.

  Lemma coef_nz k : lg_coef s k <> 0.
  Proof.
    unfold lg_coef. apply Rmult_integral_contrapositive_currified.
    - apply pow_nonzero. lra.
    - apply Rinv_neq_0_compat. pose proof (den_pos k). lra.
  Qed.

  Lemma radius : CV_radius (lg_coef s) = p_infty.
  Proof.
    apply CV_radius_infinite_DAlembert; [exact coef_nz|].
    apply is_lim_seq_le_le with (u := fun _ => 0) (w := fun n => / INR (S n)).
    - intros n. split; [apply Rabs_pos|].
      unfold lg_coef. pose proof (den_pos n). pose proof (den_pos (S n)).
      replace ((-1) ^ S n / (INR (fact (S n)) * (s + INR (S n))) / ((-1) ^ n / (INR (fact n) * (s + INR n))))
        with (- ((s + INR n) / (INR (S n) * (s + INR (S n))))).
      2:{ rewrite fact_simpl, mult_INR. cbn [pow]. pose proof (INR_fact_lt_0 n).
          assert (INR (S n) <> 0) by (apply not_0_INR; lia). pose proof (pos_INR n).
          pose proof (pos_INR (S n)). field. repeat split; try lra. apply pow_nonzero; lra. }
      rewrite Rabs_Ropp. pose proof (pos_INR n). rewrite S_INR in *.
      rewrite Rabs_pos_eq.
      + apply Rmult_le_reg_l with ((INR n + 1) * (s + (INR n + 1))); [nra|].
        field_simplify; [|lra|split; lra]. nra.
      + apply Rmult_le_pos; [lra|]. left. apply Rinv_0_lt_compat. nra.
    - apply is_lim_seq_const.
    - replace (Finite 0) with (Rbar_inv p_infty) by reflexivity.
      apply is_lim_seq_inv; [|discriminate].
      apply (is_lim_seq_incr_1 INR). apply is_lim_seq_INR.
  Qed.

  Lemma inside x : Rbar_lt (Rabs x) (CV_radius (lg_coef s)).
  Proof. rewrite radius. exact I. Qed.

  Lemma exp_neg x : exp (- x) = PSeries (fun k => (-1)^k / INR (fact k)) x.
  Proof.
    rewrite exp_Reals. unfold PSeries. apply Series_ext. intros k.
    replace (- x) with ((-1) * x) by ring. rewrite Rpow_mult_distr. unfold Rdiv. ring.
  Qed.

  Lemma series_ode x :
    s * PSeries (lg_coef s) x + x * PSeries (PS_derive (lg_coef s)) x = exp (- x).
  Proof.
    rewrite <- PSeries_scal, <- PSeries_incr_1.
    rewrite <- PSeries_plus.
    - rewrite exp_neg. apply PSeries_ext. intros [|k].
      + unfold PS_plus, PS_scal, PS_incr_1, lg_coef. cbn. unfold plus, scal, mult, zero. cbn.
        unfold mult. cbn. field. lra.
      + unfold PS_plus, PS_scal, PS_incr_1, PS_derive, lg_coef. cbn [PS_incr_1].
        unfold plus, scal, mult. cbn -[INR fact pow].
        unfold mult. cbn -[INR fact pow].
        pose proof (pos_INR (S k)). pose proof (INR_fact_lt_0 (S k)). field. lra.
    - apply ex_pseries_scal; [apply Rmult_comm|]. apply CV_radius_inside, inside.
    - apply ex_pseries_incr_1. apply ex_pseries_derive, inside.
  Qed.

  Lemma lg_derive x : 0 < x ->
    is_derive (lower_gamma s) x (Rpower x (s - 1) * exp (- x)).
  Proof.
    intros Hx.
    apply is_derive_ext_loc with (fun y => Rpower y s * PSeries (lg_coef s) y).
    { exists (mkposreal x Hx). intros y Hy. unfold lower_gamma.
      destruct (Rle_dec y 0); [|reflexivity].
      exfalso. unfold ball in Hy. cbn in Hy. unfold AbsRing_ball, abs, minus, plus, opp in Hy. cbn in Hy.
      revert Hy. unfold Rabs. destruct (Rcase_abs _); lra. }
    assert (Dp : is_derive (fun y => Rpower y s) x (s * Rpower x (s - 1))).
    { apply is_derive_Reals. apply derivable_pt_lim_power. exact Hx. }
    assert (Db : is_derive (PSeries (lg_coef s)) x (PSeries (PS_derive (lg_coef s)) x))
      by apply is_derive_PSeries, inside.
    pose proof (is_derive_mult _ _ x _ _ Dp Db Rmult_comm) as D.
    unfold mult, plus in D. cbn in D. replace (Rpower x (s - 1) * exp (- x)) with
      (s * Rpower x (s - 1) * PSeries (lg_coef s) x + Rpower x s * PSeries (PS_derive (lg_coef s)) x); auto.
    rewrite <- series_ode. replace (Rpower x s) with (Rpower x (s - 1) * x); [ring|].
    replace x with (Rpower x 1) at 2 by (apply Rpower_1; auto). rewrite <- Rpower_plus. f_equal. ring.
  Qed.

  Lemma lg_zero x : x <= 0 -> lower_gamma s x = 0.
  Proof. intros H. unfold lower_gamma. destruct (Rle_dec x 0); [auto|lra]. Qed.

  Lemma Rpower_small e : 0 < e -> exists d, 0 < d /\ forall x, 0 < x < d -> Rpower x s < e.
  Proof.
    intros He. exists (Rpower e (/ s)). split; [apply exp_pos|]. intros x Hx.
    replace e with (Rpower (Rpower e (/ s)) s).
    - apply Rlt_Rpower_l; lra.
    - rewrite Rpower_mult. rewrite Rinv_l by lra. now apply Rpower_1.
  Qed.

  Lemma lg_limit0 e : 0 < e -> exists d, 0 < d /\ forall x, 0 < x < d -> Rabs (lower_gamma s x) < e.
  Proof.
    intros He.
    assert (C : continuity_pt (PSeries (lg_coef s)) 0) by apply PSeries_continuity, inside.
    destruct (C 1 Rlt_0_1) as (d1 & Hd1 & H1).
    set (M := Rabs (PSeries (lg_coef s) 0) + 1). assert (HM : 0 < M) by (unfold M; pose proof (Rabs_pos (PSeries (lg_coef s) 0)); lra).
    destruct (Rpower_small (e / M)) as (d2 & Hd2 & H2); [apply Rdiv_lt_0_compat; auto|].
    exists (Rmin d1 d2). split; [apply Rmin_glb_lt; auto|]. intros x [Hx0 Hx].
    pose proof (Rmin_l d1 d2). pose proof (Rmin_r d1 d2).
    unfold lower_gamma. destruct (Rle_dec x 0); [lra|].
    assert (B : Rabs (PSeries (lg_coef s) x) < M).
    { specialize (H1 x). cbn in H1. unfold R_dist in H1.
      assert (K : Rabs (PSeries (lg_coef s) x - PSeries (lg_coef s) 0) < 1).
      { apply H1. split; [split; [exact I|lra]|]. rewrite Rminus_0_r, Rabs_pos_eq; lra. }
      unfold M. replace (PSeries (lg_coef s) x) with (PSeries (lg_coef s) x - PSeries (lg_coef s) 0 + PSeries (lg_coef s) 0) by ring.
      pose proof (Rabs_triang (PSeries (lg_coef s) x - PSeries (lg_coef s) 0) (PSeries (lg_coef s) 0)). lra. }
    rewrite Rabs_mult. rewrite (Rabs_pos_eq (Rpower x s)) by (left; apply exp_pos).
    specialize (H2 x ltac:(lra)).
    apply Rle_lt_trans with (Rpower x s * M).
    - apply Rmult_le_compat_l; [left; apply exp_pos|lra].
    - apply Rmult_lt_reg_r with (/ M); [now apply Rinv_0_lt_compat|].
      rewrite Rmult_assoc, Rinv_r by lra. rewrite Rmult_1_r. exact H2.
  Qed.
End Series.

(** a function with positive derivative on (0, oo) increases there; if moreover it tends
    to 0 at 0 it is positive *)
Lemma inc_from_derive (f f' : R -> R) :
  (forall x, 0 < x -> is_derive f x (f' x)) -> (forall x, 0 < x -> 0 < f' x) ->
  forall x y, 0 < x < y -> f x < f y.
Proof.
  intros D P x y H. destruct (MVT_gen f x y f') as (c & [Hc1 Hc2] & E).
  - intros z [Hz1 Hz2]. apply D. rewrite Rmin_left in Hz1 by lra. lra.
  - intros z [Hz1 Hz2]. rewrite Rmin_left in Hz1 by lra. apply continuity_pt_filterlim.
    apply (ex_derive_continuous f z). exists (f' z). apply D. lra.
  - rewrite Rmin_left in Hc1 by lra. specialize (P c ltac:(lra)). nra.
Qed.

Lemma nondec_from_derive (f f' : R -> R) a : 0 < a ->
  (forall x, a <= x -> is_derive f x (f' x)) -> (forall x, a <= x -> f' x <= 0) ->
  forall y, a <= y -> f y <= f a.
Proof.
  intros Ha D P y H. destruct (MVT_gen f a y f') as (c & [Hc1 Hc2] & E).
  - intros z [Hz1 Hz2]. apply D. rewrite Rmin_left in Hz1 by lra. lra.
  - intros z [Hz1 Hz2]. rewrite Rmin_left in Hz1 by lra. apply continuity_pt_filterlim.
    apply (ex_derive_continuous f z). exists (f' z). apply D. lra.
  - rewrite Rmin_left in Hc1 by lra. specialize (P c ltac:(lra)). nra.
Qed.

Lemma pos_from_derive (f f' : R -> R) :
  (forall x, 0 < x -> is_derive f x (f' x)) -> (forall x, 0 < x -> 0 < f' x) ->
  (forall e, 0 < e -> exists d, 0 < d /\ forall x, 0 < x < d -> Rabs (f x) < e) ->
  forall x, 0 < x -> 0 < f x.
Proof.
  intros D P L x Hx.
  assert (Hinc := inc_from_derive f f' D P).
  assert (H2 : f (x / 2) < f x) by (apply Hinc; lra).
  destruct (Rle_lt_dec (f x) 0) as [Hle|]; auto. exfalso.
  destruct (L (- f (x / 2)) ltac:(lra)) as (d & Hd & Hz).
  set (z := Rmin (d / 2) (x / 4)).
  assert (0 < z) by (apply Rmin_glb_lt; lra).
  assert (z <= d / 2) by apply Rmin_l. assert (z <= x / 4) by apply Rmin_r.
  specialize (Hz z ltac:(lra)). assert (f z < f (x / 2)) by (apply Hinc; lra).
  apply Rabs_def2 in Hz. lra.
Qed.

Section Gamma.
  Variable s : R.
  Hypothesis Hs : 0 < s.

  Lemma integrand_pos x : 0 < Rpower x (s - 1) * exp (- x).
  Proof. apply Rmult_lt_0_compat; apply exp_pos. Qed.

  Lemma lg_increasing x y : 0 <= x < y -> lower_gamma s x < lower_gamma s y.
  Proof.
    intros H.
    assert (P : forall z, 0 < z -> 0 < lower_gamma s z).
    { apply (pos_from_derive _ (fun x => Rpower x (s - 1) * exp (- x))).
      - intros; now apply lg_derive.
      - intros; apply integrand_pos.
      - apply lg_limit0; auto. }
    destruct (Req_dec x 0) as [->|Hx]; [rewrite (lg_zero s 0) by lra; apply P; lra|].
    apply (inc_from_derive _ (fun x => Rpower x (s - 1) * exp (- x))).
    - intros; now apply lg_derive.
    - intros; apply integrand_pos.
    - lra.
  Qed.

  Lemma lg_pos x : 0 < x -> 0 < lower_gamma s x.
  Proof. intros H. rewrite <- (lg_zero s 0) by lra. apply lg_increasing. lra. Qed.

  Lemma lg_nonneg x : 0 <= lower_gamma s x.
  Proof.
    destruct (Rle_lt_dec x 0); [rewrite lg_zero by auto; lra|]. left. now apply lg_pos.
  Qed.

  Lemma lg_mono x y : x <= y -> lower_gamma s x <= lower_gamma s y.
  Proof.
    intros H. destruct (Rle_lt_dec x 0); [rewrite (lg_zero s x) by auto; apply lg_nonneg|].
    destruct H as [H| ->]; [|lra]. left. apply lg_increasing. lra.
  Qed.

  Lemma lg_inj x y : 0 <= x -> 0 <= y -> lower_gamma s x = lower_gamma s y -> x = y.
  Proof.
    intros Hx Hy E. destruct (Rtotal_order x y) as [H|[H|H]]; auto.
    - pose proof (lg_increasing x y ltac:(lra)). lra.
    - pose proof (lg_increasing y x ltac:(lra)). lra.
  Qed.

  Lemma power_bound : exists C, 0 < C /\
    forall x, 1 <= x -> Rpower x (s - 1) * exp (- x) <= C / 2 * exp (- x / 2).
  Proof.
    set (K := 2 * (s + 1)). exists (2 * exp (s * ln K)). split; [pose proof (exp_pos (s * ln K)); lra|].
    intros x Hx. unfold Rpower. rewrite <- exp_plus.
    replace (2 * exp (s * ln K) / 2 * exp (- x / 2)) with (exp (s * ln K + - x / 2))
      by (rewrite exp_plus; field).
    assert (Hln : 0 <= ln x).
    { destruct Hx as [Hx| <-]; [|rewrite ln_1; lra]. left. rewrite <- ln_1. apply ln_increasing; lra. }
    assert (HK : 0 < K) by (unfold K; lra).
    assert (Hk : ln x <= x / K + ln K).
    { replace x with (x / K * K) at 1 by (field; lra).
      rewrite ln_mult by (auto; apply Rdiv_lt_0_compat; lra).
      assert (ln (x / K) <= x / K); [|lra].
      assert (0 < x / K) by (apply Rdiv_lt_0_compat; lra).
      pose proof (exp_ineq1_le (ln (x / K))) as E. rewrite exp_ln in E by auto. lra. }
    assert (G : (s - 1) * ln x + - x <= s * ln K + - x / 2).
    { assert (s * ln x <= s * (x / K + ln K)) by (apply Rmult_le_compat_l; lra).
      assert (s * (x / K) <= x / 2).
      { unfold K. apply Rmult_le_reg_r with (2 * (s + 1)); [lra|]. field_simplify; nra. }
      nra. }
    destruct G as [G|G]; [left; now apply exp_increasing|right; now rewrite G].
  Qed.

  Lemma lg_bounded : exists B, forall x, lower_gamma s x <= B.
  Proof.
    destruct power_bound as (C & HC & HB).
    exists (lower_gamma s 1 + C * exp (- 1 / 2)). intros x.
    pose proof (exp_pos (- 1 / 2)).
    destruct (Rle_lt_dec x 1) as [Hx|Hx].
    { pose proof (lg_mono x 1 Hx). nra. }
    pose proof (nondec_from_derive (fun y => lower_gamma s y + C * exp (- y / 2))
      (fun y => Rpower y (s - 1) * exp (- y) - C / 2 * exp (- y / 2)) 1 Rlt_0_1) as M.
    cbv beta in M. assert (lower_gamma s x + C * exp (- x / 2) <= lower_gamma s 1 + C * exp (- 1 / 2)).
    { apply M; [| |lra].
      - intros y Hy. apply (is_derive_plus (lower_gamma s) (fun y => C * exp (- y / 2)) y).
        + apply lg_derive; lra.
        + auto_derive; auto. unfold opp. cbn. unfold Rdiv. ring.
      - intros y Hy. specialize (HB y Hy). lra. }
    pose proof (exp_pos (- x / 2)). nra.
  Qed.

  Lemma Gamma_lub : is_lub_Rbar (fun y => exists x, y = lower_gamma s x) (Finite (GammaR s)).
  Proof.
    unfold GammaR. pose proof (Lub_Rbar_correct (fun y => exists x, y = lower_gamma s x)) as L.
    destruct (Lub_Rbar _) as [l| |] eqn:E; auto.
    - exfalso. destruct lg_bounded as (B & HB). destruct L as [_ L].
      specialize (L (Finite B)). apply L. intros y (x & ->). apply HB.
    - exfalso. destruct L as [L _]. apply (L (lower_gamma s 1)). eauto.
  Qed.

  Lemma lg_lt_Gamma x : lower_gamma s x < GammaR s.
  Proof.
    destruct Gamma_lub as [U _].
    set (y := Rmax x 0 + 1). assert (lower_gamma s y <= GammaR s) by (apply (U (lower_gamma s y)); eauto).
    assert (lower_gamma s x <= lower_gamma s (Rmax x 0)) by apply lg_mono, Rmax_l.
    assert (lower_gamma s (Rmax x 0) < lower_gamma s y).
    { apply lg_increasing. pose proof (Rmax_r x 0). unfold y. lra. }
    lra.
  Qed.

  Lemma Gamma_pos : 0 < GammaR s.
  Proof. pose proof (lg_lt_Gamma 0). pose proof (lg_nonneg 0). lra. Qed.

  Lemma lg_limit_inf e : 0 < e -> exists X, 0 < X /\ forall x, X <= x -> GammaR s - e < lower_gamma s x.
  Proof.
    intros He. destruct Gamma_lub as [_ L].
    destruct (Classical_Prop.classic (exists x, GammaR s - e < lower_gamma s x)) as [(x & Hx)|N].
    - exists (Rmax x 1). split; [pose proof (Rmax_r x 1); lra|].
      intros y Hy. pose proof (Rmax_l x 1). assert (lower_gamma s x <= lower_gamma s y) by (apply lg_mono; lra). lra.
    - exfalso. specialize (L (Finite (GammaR s - e))).
      assert (Rbar_le (GammaR s) (GammaR s - e)).
      { apply L. intros y (x & ->). cbn. apply Rnot_lt_le. intros H. apply N; eauto. }
      cbn in H. lra.
  Qed.

  Lemma lg_continuity x : 0 < x -> continuity_pt (lower_gamma s) x.
  Proof.
    intros H. apply continuity_pt_filterlim. apply (ex_derive_continuous (lower_gamma s) x).
    eexists. now apply lg_derive.
  Qed.

  (** every value in [0, Gamma s) is taken *)
  Lemma lg_onto v : 0 <= v < GammaR s -> exists x, 0 <= x /\ lower_gamma s x = v.
  Proof.
    intros [Hv0 Hv]. destruct Hv0 as [Hv0| <-]; [|exists 0; split; [lra|apply lg_zero; lra]].
    destruct (lg_limit0 s Hs v Hv0) as (d & Hd & H0).
    destruct (lg_limit_inf (GammaR s - v) ltac:(lra)) as (X & HX & H1).
    set (a := d / 2). set (b := Rmax X (d + 1)).
    assert (a < b) by (unfold a, b; pose proof (Rmax_r X (d + 1)); lra).
    assert (Ha : lower_gamma s a < v).
    { specialize (H0 a ltac:(unfold a; lra)). apply Rabs_def2 in H0. lra. }
    assert (Hb : v < lower_gamma s b) by (specialize (H1 b (Rmax_l _ _)); lra).
    destruct (Ranalysis5.IVT_interv (fun x => lower_gamma s x - v) a b) as (z & Hz & E); auto.
    - intros z Hz. apply continuity_pt_minus; [|apply continuity_pt_const; intros ? ?; reflexivity].
      apply lg_continuity. unfold a in Hz. lra.
    - lra.
    - lra.
    - exists z. unfold a in Hz. split; lra.
  Qed.

  Lemma gammaincinv_unique p x : 0 <= x -> lower_gamma s x = p * GammaR s -> gammaincinvR s p = x.
  Proof.
    intros Hx E. unfold gammaincinvR.
    assert (L : is_lub_Rbar (fun y => 0 <= y /\ lower_gamma s y <= p * GammaR s) (Finite x)).
    { split.
      - intros y [Hy Hl]. cbn. apply Rnot_lt_le. intros H.
        pose proof (lg_increasing x y ltac:(lra)). lra.
      - intros b Hb. apply (Hb x). lra. }
    rewrite (is_lub_Rbar_unique _ _ L). reflexivity.
  Qed.

  Lemma gammaincinv_spec p : 0 <= p < 1 ->
    0 <= gammaincinvR s p /\ gammaincR s (gammaincinvR s p) = p.
  Proof.
    intros Hp. pose proof Gamma_pos. destruct (lg_onto (p * GammaR s)) as (x & Hx & E); [nra|].
    rewrite (gammaincinv_unique p x Hx E). split; auto. unfold gammaincR. rewrite E. field. lra.
  Qed.

  Lemma gammaincinv_left x : 0 <= x -> gammaincinvR s (gammaincR s x) = x.
  Proof.
    intros Hx. apply gammaincinv_unique; auto. unfold gammaincR. pose proof Gamma_pos. field. lra.
  Qed.

  Lemma gammaincinv_pos p : 0 < p < 1 -> 0 < gammaincinvR s p.
  Proof.
    intros Hp. destruct (gammaincinv_spec p ltac:(lra)) as [H E].
    destruct H as [H|H]; auto. exfalso. rewrite <- H in E. unfold gammaincR in E.
    rewrite lg_zero in E by lra. unfold Rdiv in E. rewrite Rmult_0_l in E. lra.
  Qed.

  Lemma gammainc_range x : 0 <= gammaincR s x < 1.
  Proof.
    unfold gammaincR. pose proof Gamma_pos. pose proof (lg_nonneg x). pose proof (lg_lt_Gamma x). split.
    - apply Rmult_le_pos; auto. left. now apply Rinv_0_lt_compat.
    - apply Rmult_lt_reg_r with (GammaR s); auto. unfold Rdiv. rewrite Rmult_assoc, Rinv_l by lra. lra.
  Qed.

  Lemma gammaincinv_increasing p q : 0 <= p < q -> q < 1 -> gammaincinvR s p < gammaincinvR s q.
  Proof.
    intros H H1. destruct (gammaincinv_spec p ltac:(lra)) as [A1 A2].
    destruct (gammaincinv_spec q ltac:(lra)) as [B1 B2].
    apply Rnot_le_lt. intros L. pose proof (lg_mono _ _ L). pose proof Gamma_pos.
    unfold gammaincR in A2, B2.
    assert (lower_gamma s (gammaincinvR s q) / GammaR s <= lower_gamma s (gammaincinvR s p) / GammaR s).
    { apply Rmult_le_compat_r; auto. left. now apply Rinv_0_lt_compat. }
    lra.
  Qed.

  (** s * lower_gamma(s, x) exceeds x^s exp(-x) *)
  Lemma lg_lower x : 0 < x -> Rpower x s * exp (- x) < s * lower_gamma s x.
  Proof.
    intros Hx. enough (0 < s * lower_gamma s x - Rpower x s * exp (- x)) by lra.
    apply (pos_from_derive (fun x => s * lower_gamma s x - Rpower x s * exp (- x))
      (fun x => Rpower x s * exp (- x))); auto.
    - intros y Hy.
      assert (D1 : is_derive (fun x => s * lower_gamma s x) y (s * (Rpower y (s - 1) * exp (- y)))).
      { apply is_derive_scal. now apply lg_derive. }
      assert (D2 : is_derive (fun x => Rpower x s) y (s * Rpower y (s - 1))).
      { apply is_derive_Reals. now apply derivable_pt_lim_power. }
      assert (D3 : is_derive (fun x => exp (- x)) y (- exp (- y))) by (auto_derive; auto; ring).
      pose proof (is_derive_mult _ _ y _ _ D2 D3 Rmult_comm) as D4.
      pose proof (is_derive_minus _ _ y _ _ D1 D4) as D. unfold minus, plus, opp, mult in D. cbn in D.
      replace (Rpower y s * exp (- y)) with
        (s * (Rpower y (s - 1) * exp (- y)) + - (s * Rpower y (s - 1) * exp (- y) + Rpower y s * - exp (- y)))
        by ring. exact D.
    - intros y Hy. apply Rmult_lt_0_compat; apply exp_pos.
    - intros e He. destruct (lg_limit0 s Hs (e / (2 * s))) as (d1 & Hd1 & H1).
      { apply Rdiv_lt_0_compat; lra. }
      destruct (Rpower_small s Hs (e / 2)) as (d2 & Hd2 & H2); [lra|].
      exists (Rmin d1 d2). split; [apply Rmin_glb_lt; auto|]. intros z [Hz0 Hz].
      pose proof (Rmin_l d1 d2). pose proof (Rmin_r d1 d2).
      specialize (H1 z ltac:(lra)). specialize (H2 z ltac:(lra)).
      assert (P : 0 < Rpower z s) by apply exp_pos. assert (Ez : exp (- z) < 1) by (rewrite <- exp_0; apply exp_increasing; lra).
      pose proof (exp_pos (- z)). pose proof (lg_nonneg z).
      rewrite Rabs_pos_eq in H1 by auto.
      assert (s * lower_gamma s z < e / 2).
      { apply Rlt_le_trans with (s * (e / (2 * s))); [apply Rmult_lt_compat_l; auto|]. right. field. lra. }
      assert (Rpower z s * exp (- z) < e / 2) by nra.
      assert (0 <= s * lower_gamma s z) by (apply Rmult_le_pos; lra).
      assert (0 <= Rpower z s * exp (- z)) by (apply Rmult_le_pos; lra).
      apply Rabs_def1; lra.
  Qed.

  (** the quantity deciding that x^s exp(-x) / lower_gamma(s, x) decreases *)
  Lemma lg_upper x : 0 < x -> (s - x) * lower_gamma s x < Rpower x s * exp (- x).
  Proof.
    intros Hx. enough (0 < Rpower x s * exp (- x) - (s - x) * lower_gamma s x) by lra.
    apply (pos_from_derive (fun x => Rpower x s * exp (- x) - (s - x) * lower_gamma s x)
      (fun x => lower_gamma s x)); auto.
    - intros y Hy.
      assert (D1 : is_derive (lower_gamma s) y (Rpower y (s - 1) * exp (- y))) by now apply lg_derive.
      assert (D0 : is_derive (fun x => s - x) y (-1)) by (auto_derive; auto; ring).
      assert (D2 : is_derive (fun x => Rpower x s) y (s * Rpower y (s - 1))).
      { apply is_derive_Reals. now apply derivable_pt_lim_power. }
      assert (D3 : is_derive (fun x => exp (- x)) y (- exp (- y))) by (auto_derive; auto; ring).
      pose proof (is_derive_mult _ _ y _ _ D2 D3 Rmult_comm) as D4.
      pose proof (is_derive_mult _ _ y _ _ D0 D1 Rmult_comm) as D5.
      pose proof (is_derive_minus _ _ y _ _ D4 D5) as D. unfold minus, plus, opp, mult in D. cbn in D.
      assert (Ey : Rpower y s = Rpower y (s - 1) * y).
      { replace y with (Rpower y 1) at 3 by (apply Rpower_1; auto). rewrite <- Rpower_plus. f_equal. ring. }
      replace (lower_gamma s y) with
        (s * Rpower y (s - 1) * exp (- y) + Rpower y s * - exp (- y) +
          - (-1 * lower_gamma s y + (s - y) * (Rpower y (s - 1) * exp (- y)))) by (rewrite Ey; ring).
      exact D.
    - intros y Hy. now apply lg_pos.
    - intros e He. destruct (lg_limit0 s Hs (e / (2 * (s + 1)))) as (d1 & Hd1 & H1).
      { apply Rdiv_lt_0_compat; lra. }
      destruct (Rpower_small s Hs (e / 2)) as (d2 & Hd2 & H2); [lra|].
      exists (Rmin 1 (Rmin d1 d2)). split; [repeat apply Rmin_glb_lt; auto; lra|]. intros z [Hz0 Hz].
      pose proof (Rmin_l d1 d2). pose proof (Rmin_r d1 d2).
      pose proof (Rmin_l 1 (Rmin d1 d2)). pose proof (Rmin_r 1 (Rmin d1 d2)).
      specialize (H1 z ltac:(lra)). specialize (H2 z ltac:(lra)).
      assert (P : 0 < Rpower z s) by apply exp_pos. assert (Ez : exp (- z) < 1) by (rewrite <- exp_0; apply exp_increasing; lra).
      pose proof (exp_pos (- z)). pose proof (lg_nonneg z).
      rewrite Rabs_pos_eq in H1 by auto.
      assert (HR : Rabs ((s - z) * lower_gamma s z) < e / 2).
      { rewrite Rabs_mult, (Rabs_pos_eq (lower_gamma s z)) by auto.
        apply Rle_lt_trans with ((s + 1) * lower_gamma s z).
        - apply Rmult_le_compat_r; auto. apply Rabs_le. lra.
        - apply Rlt_le_trans with ((s + 1) * (e / (2 * (s + 1)))); [apply Rmult_lt_compat_l; lra|]. right. field. lra. }
      assert (Rpower z s * exp (- z) < e / 2) by nra.
      assert (0 <= Rpower z s * exp (- z)) by (apply Rmult_le_pos; lra).
      apply Rabs_def2 in HR. apply Rabs_def1; lra.
  Qed.

  (** in terms of the standard library's derivative *)
  Lemma lg_derivable x : 0 < x ->
    derivable_pt_lim (lower_gamma s) x (Rpower x (s - 1) * exp (- x)).
  Proof. intros H. apply is_derive_Reals. now apply lg_derive. Qed.
End Gamma.

(** lower bound for the exponential *)
Lemma exp_taylor4 y : 0 <= y -> 1 + y + y^2 / 2 + y^3 / 6 + y^4 / 24 <= exp y.
Proof.
  intros H. pose proof (exp_ge_taylor y 4 H) as E. cbn in E. field_simplify in E.
  field_simplify. exact E.
Qed.

(** a function with zero derivative on (0, oo) and limit 0 at 0 vanishes *)
Lemma zero_from_derive (f : R -> R) :
  (forall x, 0 < x -> is_derive f x 0) ->
  (forall e, 0 < e -> exists d, 0 < d /\ forall x, 0 < x < d -> Rabs (f x) < e) ->
  forall x, 0 < x -> f x = 0.
Proof.
  intros D L x Hx.
  assert (E : forall z, 0 < z < x -> f z = f x).
  { intros z Hz. destruct (MVT_gen f z x (fun _ => 0)) as (c & _ & E).
    - intros y [Hy1 Hy2]. apply D. rewrite Rmin_left in Hy1 by lra. lra.
    - intros y [Hy1 Hy2]. rewrite Rmin_left in Hy1 by lra. apply continuity_pt_filterlim.
      apply (ex_derive_continuous f y). exists 0. apply D. lra.
    - lra. }
  destruct (Req_dec (f x) 0) as [|N]; auto. exfalso.
  destruct (L (Rabs (f x)) ltac:(now apply Rabs_pos_lt)) as (d & Hd & H).
  set (z := Rmin (d / 2) (x / 2)).
  assert (0 < z) by (apply Rmin_glb_lt; lra).
  assert (z <= d / 2) by apply Rmin_l. assert (z <= x / 2) by apply Rmin_r.
  specialize (H z ltac:(lra)). rewrite (E z ltac:(lra)) in H. lra.
Qed.

Lemma lower_gamma_1 x : 0 <= x -> lower_gamma 1 x = 1 - exp (- x).
Proof.
  intros [Hx| <-]; [|rewrite lg_zero, Ropp_0, exp_0 by lra; ring].
  enough (lower_gamma 1 x - (1 - exp (- x)) = 0) by lra.
  apply (zero_from_derive (fun x => lower_gamma 1 x - (1 - exp (- x)))); auto.
  - intros y Hy.
    assert (D2 : is_derive (fun x => 1 - exp (- x)) y (exp (- y))) by (auto_derive; auto; ring).
    pose proof (is_derive_minus _ _ y _ _ (lg_derive 1 Rlt_0_1 y Hy) D2) as D.
    match type of D with is_derive _ _ ?l => assert (E : l = 0); [|rewrite E in D; exact D] end.
    unfold minus, plus, opp. cbn. replace (1 - 1) with 0 by ring. rewrite Rpower_O by auto. ring.
  - intros e He. destruct (lg_limit0 1 Rlt_0_1 (e / 2) ltac:(lra)) as (d & Hd & H).
    exists (Rmin d (e / 2)). split; [apply Rmin_glb_lt; lra|]. intros z [Hz Hz'].
    pose proof (Rmin_l d (e / 2)). pose proof (Rmin_r d (e / 2)). specialize (H z ltac:(lra)).
    pose proof (exp_ineq1_le (- z)).
    assert (exp (- z) < 1) by (rewrite <- exp_0; apply exp_increasing; lra).
    apply Rabs_def2 in H. apply Rabs_def1; lra.
Qed.

Lemma Gamma_1 : GammaR 1 = 1.
Proof.
  apply Rle_antisym.
  - apply Rnot_lt_le. intros H. destruct (lg_limit_inf 1 Rlt_0_1 (GammaR 1 - 1) ltac:(lra)) as (X & HX & L).
    specialize (L X ltac:(lra)). rewrite lower_gamma_1 in L by lra. pose proof (exp_pos (- X)). lra.
  - apply Rnot_lt_le. intros H.
    pose proof (lg_lt_Gamma 1 Rlt_0_1 (- ln (1 - GammaR 1))) as L.
    pose proof (Gamma_pos 1 Rlt_0_1).
    rewrite lower_gamma_1 in L.
    + rewrite Ropp_involutive, exp_ln in L by lra. lra.
    + assert (ln (1 - GammaR 1) < ln 1) by (apply ln_increasing; lra). rewrite ln_1 in *. lra.
Qed.

(** functional equation *)
Lemma lower_gamma_succ s x : 0 < s -> 0 < x ->
  lower_gamma (s + 1) x = s * lower_gamma s x - Rpower x s * exp (- x).
Proof.
  intros Hs Hx.
  enough (lower_gamma (s + 1) x - (s * lower_gamma s x - Rpower x s * exp (- x)) = 0) by lra.
  apply (zero_from_derive (fun x => lower_gamma (s + 1) x - (s * lower_gamma s x - Rpower x s * exp (- x)))); auto.
  - intros y Hy.
    assert (D1 : is_derive (fun x => s * lower_gamma s x) y (s * (Rpower y (s - 1) * exp (- y)))).
    { apply is_derive_scal. now apply lg_derive. }
    assert (D2 : is_derive (fun x => Rpower x s) y (s * Rpower y (s - 1))).
    { apply is_derive_Reals. now apply derivable_pt_lim_power. }
    assert (D3 : is_derive (fun x => exp (- x)) y (- exp (- y))) by (auto_derive; auto; ring).
    pose proof (is_derive_mult _ _ y _ _ D2 D3 Rmult_comm) as D4.
    pose proof (is_derive_minus _ _ y _ _ D1 D4) as D5.
    pose proof (is_derive_minus _ _ y _ _ (lg_derive (s + 1) ltac:(lra) y Hy) D5) as D.
    unfold minus, plus, opp, mult in D. cbn in D.
    match type of D with is_derive _ _ ?l => replace l with 0 in D; [exact D|] end.
    replace (s + 1 - 1) with s by ring. ring.
  - intros e He. destruct (lg_limit0 (s + 1) ltac:(lra) (e / 4) ltac:(lra)) as (d0 & Hd0 & H0).
    destruct (lg_limit0 s Hs (e / (4 * s))) as (d1 & Hd1 & H1).
    { apply Rdiv_lt_0_compat; lra. }
    destruct (Rpower_small s Hs (e / 4)) as (d2 & Hd2 & H2); [lra|].
    exists (Rmin d0 (Rmin d1 d2)). split; [repeat apply Rmin_glb_lt; auto|]. intros z [Hz0 Hz].
    pose proof (Rmin_l d1 d2). pose proof (Rmin_r d1 d2).
    pose proof (Rmin_l d0 (Rmin d1 d2)). pose proof (Rmin_r d0 (Rmin d1 d2)).
    specialize (H0 z ltac:(lra)). specialize (H1 z ltac:(lra)). specialize (H2 z ltac:(lra)).
    assert (P : 0 < Rpower z s) by apply exp_pos.
    assert (Ez : exp (- z) < 1) by (rewrite <- exp_0; apply exp_increasing; lra).
    pose proof (exp_pos (- z)). pose proof (lg_nonneg s Hs z). pose proof (lg_nonneg (s + 1) ltac:(lra) z).
    rewrite Rabs_pos_eq in H0, H1 by auto.
    assert (s * lower_gamma s z < e / 4).
    { apply Rlt_le_trans with (s * (e / (4 * s))); [apply Rmult_lt_compat_l; auto|]. right. field. lra. }
    assert (Rpower z s * exp (- z) < e / 4) by nra.
    assert (0 <= s * lower_gamma s z) by (apply Rmult_le_pos; lra).
    assert (0 <= Rpower z s * exp (- z)) by (apply Rmult_le_pos; lra).
    apply Rabs_def1; lra.
Qed.
