(** Proofs about GenSersic2D, Nuker2D, CoreSersic2D and PetroApprox. *)
From Verif Require Import Base Num Gamma M_Sersic S_Sersic L_Sersic.
Local Open Scope R_scope.

Lemma sqnn a : 0 <= a * a.
Proof. apply Rle_0_sqr. Qed.
Lemma sumsq a b : 0 <= a * a + b * b.
Proof. nra. Qed.

Lemma xpow_nan b : b <> 0 -> xpow NaN (Fin b) = NaN.
Proof. intros. unfold xpow. now rewrite Reqb_false. Qed.

(** * GenSersic2D *)

(** generalised elliptical radius in units of r_eff *)
Definition zR (re x0 y0 e th c x y : R) : R :=
  rpow (rpow (Rabs (along x0 y0 th x y / re)) (c + 2)
        + rpow (Rabs (across x0 y0 th x y / ((1 - e) * re))) (c + 2)) (1 / (c + 2)).
Definition genR (A re n x0 y0 e th c x y : R) : R :=
  A * exp (- bnR n * (rpow (zR re x0 y0 e th c x y) (1 / n) - 1)).

Lemma gen_fin A re n x0 y0 e th c x y : 0 < re -> 0 < n -> e <> 1 -> -2 < c ->
  gen_sersic2d (Fin x) (Fin y) (Fin A) (Fin re) (Fin n) (Fin x0) (Fin y0) (Fin e) (Fin th) (Fin c)
  = Fin (genR A re n x0 y0 e th c x y).
Proof.
  intros Hre Hn He Hc. unfold gen_sersic2d. cbv zeta. rewrite bn_fin by auto.
  assert (Hb : (1 - e) * re <> 0) by (apply Rmult_integral_contrapositive_currified; lra).
  cbn [n1 n2 n0 nofZ nopp nmul nsub nadd ndiv nabs XRnum xmul xsub xadd xopp xcos xsin].
  replace ((1 + - e) * re) with ((1 - e) * re) by ring.
  rewrite !xdiv_fin by (auto; lra). cbn [xabs].
  assert (0 < 1 / (c + 2)) by (apply Rdiv_lt_0_compat; lra).
  assert (0 < 1 / n) by (apply Rdiv_lt_0_compat; lra).
  rewrite !(xpow_nonneg (Rabs _)) by (try apply Rabs_pos; lra). cbn [xadd].
  rewrite xpow_nonneg by (auto; apply Rplus_le_le_0_compat; apply rpow_nonneg).
  rewrite xpow_nonneg by (auto using rpow_nonneg).
  cbn [xadd xsub xopp xmul xexp]. f_equal. unfold genR, zR. f_equal. f_equal.
  replace ((x + - x0) * cos th + (y + - y0) * sin th) with (along x0 y0 th x y) by (unfold along; ring).
  replace ((0 + - (x + - x0)) * sin th + (y + - y0) * cos th) with (across x0 y0 th x y) by (unfold across; ring).
  ring.
Qed.

Lemma rpow_2 a : 0 <= a -> rpow a 2 = a * a.
Proof.
  intros [H| <-]; [rewrite rpow_pos by auto; now apply Rpower_2|rewrite rpow_0; ring].
Qed.
Lemma rpow_half a : 0 <= a -> rpow a (1 / 2) = sqrt a.
Proof.
  intros [H| <-]; [|now rewrite rpow_0, sqrt_0].
  rewrite rpow_pos by auto. replace (1 / 2) with (/ 2) by field. now apply Rpower_sqrt.
Qed.

Lemma gen_sersic2d_zero A re n x0 y0 e th x y b : half_light n b -> 0 < n ->
  genR A re n x0 y0 e th 0 x y = sersic2d b A re n x0 y0 e th x y.
Proof.
  intros Hb Hn. rewrite (half_light_unique n b Hn Hb). unfold genR, sersic2d, zR.
  replace (0 + 2) with 2 by ring. rewrite !rpow_2 by apply Rabs_pos.
  rewrite rpow_half.
  - replace (Rabs (along x0 y0 th x y / re) * Rabs (along x0 y0 th x y / re))
      with (along x0 y0 th x y / re * (along x0 y0 th x y / re))
      by (rewrite <- Rabs_mult; symmetry; apply Rabs_pos_eq; nra).
    replace (Rabs (across x0 y0 th x y / ((1 - e) * re)) * Rabs (across x0 y0 th x y / ((1 - e) * re)))
      with (across x0 y0 th x y / ((1 - e) * re) * (across x0 y0 th x y / ((1 - e) * re)))
      by (rewrite <- Rabs_mult; symmetry; apply Rabs_pos_eq; nra).
    reflexivity.
  - pose proof (Rabs_pos (along x0 y0 th x y / re)).
    pose proof (Rabs_pos (across x0 y0 th x y / ((1 - e) * re))). nra.
Qed.

Lemma gen_at_one A re n x0 y0 e th c x y :
  rpow (Rabs (along x0 y0 th x y / re)) (c + 2)
   + rpow (Rabs (across x0 y0 th x y / ((1 - e) * re))) (c + 2) = 1 ->
  genR A re n x0 y0 e th c x y = A.
Proof.
  intros E. unfold genR, zR. rewrite E, !rpow_1. replace (- bnR n * (1 - 1)) with 0 by ring.
  rewrite exp_0. ring.
Qed.

(** end points of the axes *)
Lemma gen_major A re n x0 y0 e th c s : 0 < re -> e <> 1 -> s = 1 \/ s = -1 ->
  genR A re n x0 y0 e th c (x0 + s * re * cos th) (y0 + s * re * sin th) = A.
Proof.
  intros Hre He Hs. apply gen_at_one.
  assert (Hb : (1 - e) * re <> 0) by (apply Rmult_integral_contrapositive_currified; lra).
  pose proof (sin2_cos2 th) as SC. unfold Rsqr in SC.
  replace (along x0 y0 th (x0 + s * re * cos th) (y0 + s * re * sin th)) with (s * re * 1)
    by (unfold along; rewrite <- SC; ring).
  replace (across x0 y0 th (x0 + s * re * cos th) (y0 + s * re * sin th)) with 0 by (unfold across; ring).
  replace (s * re * 1 / re) with s by (field; lra).
  replace (0 / ((1 - e) * re)) with 0 by (field; split; lra).
  rewrite Rabs_R0, rpow_0. replace (Rabs s) with 1.
  - rewrite rpow_1. ring.
  - destruct Hs as [-> | ->]; [now rewrite Rabs_R1|]. rewrite Rabs_left by lra. ring.
Qed.

Lemma gen_minor A re n x0 y0 e th c s : 0 < re -> e <> 1 -> s = 1 \/ s = -1 ->
  genR A re n x0 y0 e th c (x0 - s * ((1 - e) * re) * sin th) (y0 + s * ((1 - e) * re) * cos th) = A.
Proof.
  intros Hre He Hs. apply gen_at_one.
  assert (Hb : (1 - e) * re <> 0) by (apply Rmult_integral_contrapositive_currified; lra).
  pose proof (sin2_cos2 th) as SC. unfold Rsqr in SC.
  replace (across x0 y0 th (x0 - s * ((1 - e) * re) * sin th) (y0 + s * ((1 - e) * re) * cos th))
    with (s * ((1 - e) * re) * 1) by (unfold across; rewrite <- SC; ring).
  replace (along x0 y0 th (x0 - s * ((1 - e) * re) * sin th) (y0 + s * ((1 - e) * re) * cos th)) with 0
    by (unfold along; ring).
  replace (s * ((1 - e) * re) * 1 / ((1 - e) * re)) with s by (field; split; lra).
  replace (0 / re) with 0 by (field; lra).
  rewrite Rabs_R0, rpow_0. replace (Rabs s) with 1.
  - rewrite rpow_1. ring.
  - destruct Hs as [-> | ->]; [now rewrite Rabs_R1|]. rewrite Rabs_left by lra. ring.
Qed.

Lemma Rabs_div_opp a b : Rabs (- a / b) = Rabs (a / b).
Proof. replace (- a / b) with (- (a / b)) by (unfold Rdiv; ring). apply Rabs_Ropp. Qed.

Lemma gen_reflect A re n x0 y0 e th c x y :
  genR A re n x0 y0 e th c (2 * x0 - x) (2 * y0 - y) = genR A re n x0 y0 e th c x y.
Proof.
  unfold genR, zR.
  replace (along x0 y0 th (2 * x0 - x) (2 * y0 - y)) with (- along x0 y0 th x y) by (unfold along; ring).
  replace (across x0 y0 th (2 * x0 - x) (2 * y0 - y)) with (- across x0 y0 th x y) by (unfold across; ring).
  now rewrite !Rabs_div_opp.
Qed.

Lemma gen_turn A re n x0 y0 e th c x y :
  genR A re n x0 y0 e (th + PI) c x y = genR A re n x0 y0 e th c x y.
Proof.
  unfold genR, zR.
  replace (along x0 y0 (th + PI) x y) with (- along x0 y0 th x y) by (unfold along; rewrite neg_cos, neg_sin; ring).
  replace (across x0 y0 (th + PI) x y) with (- across x0 y0 th x y) by (unfold across; rewrite neg_cos, neg_sin; ring).
  now rewrite !Rabs_div_opp.
Qed.

Lemma zR_ray re x0 y0 e th c u v t t' : 0 < re -> e < 1 -> -2 < c -> 0 <= t <= t' ->
  zR re x0 y0 e th c (x0 + t * u) (y0 + t * v) <= zR re x0 y0 e th c (x0 + t' * u) (y0 + t' * v).
Proof.
  intros Hre He Hc Ht. unfold zR.
  assert (Hs : forall t, along x0 y0 th (x0 + t * u) (y0 + t * v) = t * (u * cos th + v * sin th))
    by (intros; unfold along; ring).
  assert (Ha : forall t, across x0 y0 th (x0 + t * u) (y0 + t * v) = t * (v * cos th - u * sin th))
    by (intros; unfold across; ring).
  rewrite !Hs, !Ha.
  assert (M : forall w d, Rabs (t * w / d) <= Rabs (t' * w / d)).
  { intros w d. unfold Rdiv. rewrite !Rmult_assoc, !(Rabs_mult t), !(Rabs_mult t').
    apply Rmult_le_compat_r; [apply Rabs_pos|]. rewrite !Rabs_pos_eq; lra. }
  apply rpow_mono; [|apply Rdiv_lt_0_compat; lra]. split.
  - apply Rplus_le_le_0_compat; apply rpow_nonneg.
  - apply Rplus_le_compat; apply rpow_mono; try lra; split; auto using Rabs_pos.
Qed.

Lemma gen_ray A re n x0 y0 e th c u v t t' : 0 <= A -> 0 < re -> 0 < n -> e < 1 -> -2 < c -> 0 <= t <= t' ->
  genR A re n x0 y0 e th c (x0 + t' * u) (y0 + t' * v) <= genR A re n x0 y0 e th c (x0 + t * u) (y0 + t * v).
Proof.
  intros HA Hre Hn He Hc Ht. unfold genR. apply Rmult_le_compat_l; auto.
  pose proof (zR_ray re x0 y0 e th c u v t t' Hre He Hc Ht) as Hz.
  assert (Hz0 : 0 <= zR re x0 y0 e th c (x0 + t * u) (y0 + t * v)) by apply rpow_nonneg.
  assert (Hp := rpow_mono _ _ (1 / n) (conj Hz0 Hz) ltac:(apply Rdiv_lt_0_compat; lra)).
  pose proof (bnR_pos n Hn).
  assert (G : - bnR n * (rpow (zR re x0 y0 e th c (x0 + t' * u) (y0 + t' * v)) (1 / n) - 1)
    <= - bnR n * (rpow (zR re x0 y0 e th c (x0 + t * u) (y0 + t * v)) (1 / n) - 1)) by nra.
  destruct G as [G|G]; [left; now apply exp_increasing|rewrite G; lra].
Qed.

(** C37 *)
Theorem gen_sersic_spec A re n x0 y0 e th c : 0 < re -> 0 < n -> e < 1 -> -2 < c ->
  exists f, (forall x y, gen_sersic2d (Fin x) (Fin y) (Fin A) (Fin re) (Fin n) (Fin x0) (Fin y0)
                (Fin e) (Fin th) (Fin c) = Fin (f x y)) /\
    (c = 0 -> forall b x y, half_light n b -> f x y = sersic2d b A re n x0 y0 e th x y) /\
    (forall s, s = 1 \/ s = -1 ->
       f (x0 + s * re * cos th) (y0 + s * re * sin th) = A /\
       f (x0 - s * ((1 - e) * re) * sin th) (y0 + s * ((1 - e) * re) * cos th) = A) /\
    (forall x y, f (2 * x0 - x) (2 * y0 - y) = f x y) /\
    (forall x y, gen_sersic2d (Fin x) (Fin y) (Fin A) (Fin re) (Fin n) (Fin x0) (Fin y0)
                (Fin e) (Fin (th + PI)) (Fin c) = Fin (f x y)) /\
    (0 <= A -> forall u v t t', 0 <= t <= t' ->
       f (x0 + t' * u) (y0 + t' * v) <= f (x0 + t * u) (y0 + t * v)).
Proof.
  intros Hre Hn He Hc. exists (genR A re n x0 y0 e th c).
  split; [intros; apply gen_fin; auto; lra|].
  split; [intros -> b x y Hb; now apply gen_sersic2d_zero|].
  split; [intros s Hs; split; [apply gen_major|apply gen_minor]; auto; lra|].
  split; [intros; apply gen_reflect|].
  split; [intros; rewrite gen_fin by (auto; lra); f_equal; apply gen_turn|].
  intros HA u v t t' Ht. now apply gen_ray.
Qed.

(** * Nuker2D *)
Definition distR (x0 y0 x y : R) : R := sqrt ((x - x0) * (x - x0) + (y - y0) * (y - y0)).

Lemma nuker_r x0 y0 x y :
  sqrt ((x - x0 + (y - y0)) * (x - x0 + (y - y0)) + (- (x - x0) + (y - y0)) * (- (x - x0) + (y - y0)))
  = sqrt 2 * distR x0 y0 x y.
Proof.
  unfold distR. rewrite <- sqrt_mult by (try lra; apply sumsq). f_equal. ring.
Qed.

Lemma nuker_fin Ib rb x0 y0 al be ga x y : 0 < rb -> al <> 0 -> 0 < distR x0 y0 x y ->
  nuker2d (Fin x) (Fin y) (Fin Ib) (Fin rb) (Fin x0) (Fin y0) (Fin al) (Fin be) (Fin ga)
  = Fin (nuker_law Ib rb al be ga (sqrt 2 * distR x0 y0 x y)).
Proof.
  intros Hrb Hal Hd. unfold nuker2d. cbv zeta.
  cbn [n1 n2 n0 nofZ nopp nmul nsub nadd ndiv nabs nsqrt neqb XRnum xmul xsub xadd xopp].
  rewrite !xpow_sq. cbn [xadd]. rewrite xsqrt_fin by apply sumsq.
  replace (0 + - (x + - x0) + (y + - y0)) with (- (x - x0) + (y - y0)) by ring.
  replace (x + - x0 + (y + - y0)) with (x - x0 + (y - y0)) by ring.
  rewrite nuker_r. assert (0 < sqrt 2) by (apply sqrt_lt_R0; lra).
  assert (Hr : 0 < sqrt 2 * distR x0 y0 x y) by (apply Rmult_lt_0_compat; auto).
  set (r := sqrt 2 * distR x0 y0 x y) in *.
  cbn [xeqb]. rewrite Reqb_false by lra. rewrite !xdiv_fin by lra.
  assert (Hq : 0 < r / rb) by now apply Rdiv_lt_0_compat.
  rewrite !xpow_pos by (auto; lra). cbn [xadd].
  rewrite xpow_pos by (pose proof (exp_pos (al * ln (r / rb))); unfold Rpower; lra).
  cbn [xmul]. f_equal. unfold nuker_law.
  replace (be + - ga) with (be - ga) by ring. replace (ga + - be) with (ga - be) by ring.
  replace (0 + - ga) with (- ga) by ring. ring.
Qed.

Lemma nuker_center Ib rb x0 y0 al be ga : 0 < rb -> al <> 0 ->
  nuker2d (Fin x0) (Fin y0) (Fin Ib) (Fin rb) (Fin x0) (Fin y0) (Fin al) (Fin be) (Fin ga)
  = if Reqb ga 0 && Reqb be 0 then Fin Ib else NaN.
Proof.
  intros Hrb Hal. unfold nuker2d. cbv zeta.
  cbn [n1 n2 n0 nofZ nopp nmul nsub nadd ndiv nabs nsqrt neqb XRnum xmul xsub xadd xopp].
  rewrite !xpow_sq. cbn [xadd]. rewrite xsqrt_fin by apply sumsq.
  replace ((x0 + - x0 + (y0 + - y0)) * (x0 + - x0 + (y0 + - y0)) +
      (0 + - (x0 + - x0) + (y0 + - y0)) * (0 + - (x0 + - x0) + (y0 + - y0))) with 0 by ring.
  rewrite sqrt_0. cbn [xeqb]. rewrite Reqb_true by auto. rewrite !xdiv_fin by lra. cbn [xdiv].
  rewrite xpow_pos by lra. cbn [xmul].
  rewrite (xpow_nan al) by auto. cbn [xadd].
  unfold xpow.
  destruct (Reqb_spec ga 0) as [->|Hg].
  - replace (0 + - 0) with 0 by ring. rewrite (Reqb_true 0 0) by auto.
    destruct (Reqb_spec be 0) as [->|Hb].
    + replace ((0 + - 0) / al) with 0 by (field; lra). rewrite (Reqb_true 0 0) by auto. cbn.
      f_equal. rewrite Rpower_O by lra. ring.
    + rewrite (Reqb_false ((0 + - be) / al)). 2:{ intros E. apply Hb. apply (Rmult_eq_compat_r al) in E.
      field_simplify in E; lra. }
      reflexivity.
  - rewrite (Reqb_false (0 + - ga)) by lra. destruct (Reqb (_ / _) 0); reflexivity.
Qed.

Lemma nuker_law_at_break Ib rb al be ga : 0 < rb -> al <> 0 -> nuker_law Ib rb al be ga rb = Ib.
Proof.
  intros Hrb Hal. unfold nuker_law. replace (rb / rb) with 1 by (field; lra).
  assert (One : forall y, Rpower 1 y = 1) by (intros; unfold Rpower; rewrite ln_1, Rmult_0_r; apply exp_0).
  rewrite !One. replace (1 + 1) with 2 by ring.
  replace (Ib * Rpower 2 ((be - ga) / al) * 1 * Rpower 2 ((ga - be) / al))
    with (Ib * (Rpower 2 ((be - ga) / al) * Rpower 2 ((ga - be) / al))) by ring.
  rewrite <- Rpower_plus. replace ((be - ga) / al + (ga - be) / al) with 0 by (field; auto).
  rewrite Rpower_O by lra. ring.
Qed.

(** C38 *)
Theorem nuker_spec Ib rb x0 y0 al be ga : 0 < rb -> al <> 0 ->
  (forall x y d, 0 < d -> d * d = (x - x0) * (x - x0) + (y - y0) * (y - y0) ->
     nuker2d (Fin x) (Fin y) (Fin Ib) (Fin rb) (Fin x0) (Fin y0) (Fin al) (Fin be) (Fin ga)
     = Fin (nuker_law Ib rb al be ga (sqrt 2 * d))) /\
  (forall x y, 2 * ((x - x0) * (x - x0) + (y - y0) * (y - y0)) = rb * rb ->
     nuker2d (Fin x) (Fin y) (Fin Ib) (Fin rb) (Fin x0) (Fin y0) (Fin al) (Fin be) (Fin ga) = Fin Ib) /\
  (ga <> 0 \/ be <> 0 ->
     nuker2d (Fin x0) (Fin y0) (Fin Ib) (Fin rb) (Fin x0) (Fin y0) (Fin al) (Fin be) (Fin ga) = NaN).
Proof.
  intros Hrb Hal.
  assert (One : forall x y d, 0 < d -> d * d = (x - x0) * (x - x0) + (y - y0) * (y - y0) ->
     nuker2d (Fin x) (Fin y) (Fin Ib) (Fin rb) (Fin x0) (Fin y0) (Fin al) (Fin be) (Fin ga)
     = Fin (nuker_law Ib rb al be ga (sqrt 2 * d))).
  { intros x y d Hd E. assert (Ed : distR x0 y0 x y = d).
    { unfold distR. rewrite <- E. apply sqrt_square. lra. }
    rewrite <- Ed in Hd |- *. now apply nuker_fin. }
  split; [exact One|]. split.
  - intros x y E. assert (0 < sqrt 2) by (apply sqrt_lt_R0; lra).
    assert (S2 : sqrt 2 * sqrt 2 = 2) by (apply sqrt_sqrt; lra).
    rewrite (One x y (rb / sqrt 2)).
    + f_equal. replace (sqrt 2 * (rb / sqrt 2)) with rb by (field; lra). now apply nuker_law_at_break.
    + now apply Rdiv_lt_0_compat.
    + replace (rb / sqrt 2 * (rb / sqrt 2)) with (rb * rb / (sqrt 2 * sqrt 2)) by (field; lra).
      rewrite S2. lra.
  - intros Hn. rewrite nuker_center by auto.
    destruct (Reqb_spec ga 0), (Reqb_spec be 0); cbn; auto. exfalso. lra.
Qed.

(** the law itself gives amplitude at r_break and, if it declines, less at sqrt 2 r_break *)
Theorem nuker_not_at_break : exists x y,
  (x - 0) * (x - 0) + (y - 0) * (y - 0) = 1 * 1 /\
  nuker2d (Fin x) (Fin y) (Fin 1) (Fin 1) (Fin 0) (Fin 0) (Fin 2) (Fin 4) (Fin 0) <> Fin 1.
Proof.
  exists 1, 0. split; [ring|].
  destruct (nuker_spec 1 1 0 0 2 4 0 ltac:(lra) ltac:(lra)) as (H & _).
  rewrite (H 1 0 1) by lra. intros E.
  injection E as E. unfold nuker_law in E.
  replace (sqrt 2 * 1 / 1) with (sqrt 2) in E by field.
  assert (0 < sqrt 2) by (apply sqrt_lt_R0; lra).
  assert (S2 : sqrt 2 * sqrt 2 = 2) by (apply sqrt_sqrt; lra).
  replace (- 0) with 0 in E by ring. rewrite (Rpower_O (sqrt 2)) in E by auto.
  rewrite (Rpower_2 (sqrt 2)) in E by auto. rewrite S2 in E.
  replace ((4 - 0) / 2) with 2 in E by field. rewrite Rpower_2 in E by lra.
  replace ((0 - 4) / 2) with (- (2)) in E by field. rewrite Rpower_Ropp, Rpower_2 in E by lra.
  apply (Rmult_eq_compat_r 9) in E. field_simplify in E. lra.
Qed.

(** * CoreSersic2D *)
Definition ellR (re x0 y0 e th x y : R) : R :=
  sqrt (along x0 y0 th x y * along x0 y0 th x y
        + across x0 y0 th x y / (1 - e) * (across x0 y0 th x y / (1 - e))).

Lemma core_fin Ib re rb n x0 y0 al ga e th x y : 0 < re -> 0 < rb -> 0 < n -> 0 < al -> e < 1 ->
  0 < ellR re x0 y0 e th x y ->
  core_sersic2d (Fin x) (Fin y) (Fin Ib) (Fin re) (Fin rb) (Fin n) (Fin x0) (Fin y0) (Fin al) (Fin ga) (Fin e) (Fin th)
  = Fin (core_sersic_law Ib re rb n (bnR n) al ga (ellR re x0 y0 e th x y / re)).
Proof.
  intros Hre Hrb Hn Hal He Hd. unfold core_sersic2d. cbv zeta. rewrite bn_fin by auto.
  assert (Hb : (1 - e) * re <> 0) by (apply Rmult_integral_contrapositive_currified; lra).
  cbn [n1 n2 n0 nofZ nopp nmul nsub nadd ndiv nabs nsqrt neqb XRnum xmul xsub xadd xopp xcos xsin].
  replace ((1 + - e) * re) with ((1 - e) * re) by ring.
  replace ((x + - x0) * cos th + (y + - y0) * sin th) with (along x0 y0 th x y) by (unfold along; ring).
  replace ((0 + - (x + - x0)) * sin th + (y + - y0) * cos th) with (across x0 y0 th x y) by (unfold across; ring).
  rewrite !(xdiv_fin (along _ _ _ _ _)), !(xdiv_fin (across _ _ _ _ _)) by (auto; lra).
  rewrite !xpow_sq. cbn [xadd].
  rewrite xsqrt_fin by apply sumsq.
  assert (Er : sqrt (along x0 y0 th x y / re * (along x0 y0 th x y / re) +
      across x0 y0 th x y / ((1 - e) * re) * (across x0 y0 th x y / ((1 - e) * re))) = ellR re x0 y0 e th x y / re).
  { unfold ellR. replace (along x0 y0 th x y / re * (along x0 y0 th x y / re) +
      across x0 y0 th x y / ((1 - e) * re) * (across x0 y0 th x y / ((1 - e) * re)))
      with ((along x0 y0 th x y * along x0 y0 th x y + across x0 y0 th x y / (1 - e) * (across x0 y0 th x y / (1 - e)))
        / (re * re)) by (field; split; lra).
    rewrite sqrt_div by (try apply sumsq; nra). rewrite sqrt_square by lra. reflexivity. }
  rewrite Er. assert (Hr : 0 < ellR re x0 y0 e th x y / re) by now apply Rdiv_lt_0_compat.
  set (r := ellR re x0 y0 e th x y / re) in *.
  cbn [xeqb]. rewrite Reqb_false by lra.
  assert (Haln : 0 < al * n) by (apply Rmult_lt_0_compat; auto).
  rewrite !(xdiv_fin ga), !(xdiv_fin 1), !(xdiv_fin rb) by lra.
  assert (Hp2 : 0 < rb / re) by now apply Rdiv_lt_0_compat.
  assert (Hp3 : 0 < rb / r) by now apply Rdiv_lt_0_compat.
  assert (PP : forall a b, 0 < Rpower a b) by (intros; apply exp_pos).
  rewrite (xpow_pos 2 (1 / al)) by lra. rewrite (xpow_pos (rb / r)), (xpow_pos r), (xpow_pos rb), (xpow_pos re) by auto.
  cbn [xmul xadd xopp]. rewrite xpow_pos by lra.
  rewrite (xdiv_fin (_ + _)) by (specialize (PP re al); lra).
  rewrite (xpow_pos (Rpower 2 (1 / al) * (rb / re))) by (apply Rmult_lt_0_compat; auto).
  rewrite (xpow_pos (1 + _)) by (specialize (PP (rb / r) al); lra).
  rewrite xpow_pos by (apply Rdiv_lt_0_compat; auto; pose proof (PP r al); pose proof (PP rb al); lra).
  cbn [xmul xexp]. f_equal. unfold core_sersic_law.
  replace (0 + - (ga / al)) with (- (ga / al)) by ring. replace (0 + - bnR n) with (- bnR n) by ring. ring.
Qed.

Lemma core_law_at_break Ib re rb n b al ga : 0 < re -> 0 < rb -> 0 < n -> 0 < al ->
  core_sersic_law Ib re rb n b al ga rb = Ib.
Proof.
  intros Hre Hrb Hn Hal. unfold core_sersic_law.
  assert (PP : forall a b, 0 < Rpower a b) by (intros; apply exp_pos).
  replace (rb / rb) with 1 by (field; lra).
  replace (Rpower 1 al) with 1 by (unfold Rpower; rewrite ln_1, Rmult_0_r; symmetry; apply exp_0).
  replace (1 + 1) with 2 by ring.
  assert (E : Rpower ((Rpower rb al + Rpower rb al) / Rpower re al) (1 / (al * n))
              = Rpower (Rpower 2 (1 / al) * (rb / re)) (1 / n)).
  { replace ((Rpower rb al + Rpower rb al) / Rpower re al) with (Rpower (Rpower 2 (1 / al) * (rb / re)) al).
    - rewrite Rpower_mult. f_equal. field. split; lra.
    - rewrite <- Rpower_mult_distr by (auto; now apply Rdiv_lt_0_compat).
      rewrite Rpower_mult. replace (1 / al * al) with 1 by (field; lra). rewrite Rpower_1 by lra.
      replace (Rpower (rb / re) al) with (Rpower rb al / Rpower re al).
      + field. specialize (PP re al). lra.
      + unfold Rdiv. rewrite <- Rpower_mult_distr by (auto; now apply Rinv_0_lt_compat).
        f_equal. unfold Rpower. rewrite ln_Rinv by auto. rewrite <- exp_Ropp. f_equal. ring. }
  rewrite E. set (w := Rpower (Rpower 2 (1 / al) * (rb / re)) (1 / n)).
  replace (Ib * Rpower 2 (- (ga / al)) * exp (b * w) * Rpower 2 (ga / al) * exp (- b * w))
    with (Ib * (Rpower 2 (- (ga / al)) * Rpower 2 (ga / al)) * (exp (b * w) * exp (- b * w))) by ring.
  rewrite <- Rpower_plus, <- exp_plus. replace (- (ga / al) + ga / al) with 0 by ring.
  replace (b * w + - b * w) with 0 by ring. rewrite Rpower_O, exp_0 by lra. ring.
Qed.

Lemma core_center Ib re rb n x0 y0 al ga e th : 0 < re -> 0 < rb -> 0 < n -> 0 < al -> e < 1 ->
  core_sersic2d (Fin x0) (Fin y0) (Fin Ib) (Fin re) (Fin rb) (Fin n) (Fin x0) (Fin y0) (Fin al) (Fin ga) (Fin e) (Fin th)
  = NaN.
Proof.
  intros Hre Hrb Hn Hal He. unfold core_sersic2d. cbv zeta. rewrite bn_fin by auto.
  assert (Hb : (1 - e) * re <> 0) by (apply Rmult_integral_contrapositive_currified; lra).
  cbn [n1 n2 n0 nofZ nopp nmul nsub nadd ndiv nabs nsqrt neqb XRnum xmul xsub xadd xopp xcos xsin].
  replace ((1 + - e) * re) with ((1 - e) * re) by ring.
  replace ((x0 + - x0) * cos th + (y0 + - y0) * sin th) with 0 by ring.
  replace ((0 + - (x0 + - x0)) * sin th + (y0 + - y0) * cos th) with 0 by ring.
  rewrite !(xdiv_fin 0) by (auto; lra). rewrite !xpow_sq. cbn [xadd].
  replace (0 / re * (0 / re) + 0 / ((1 - e) * re) * (0 / ((1 - e) * re))) with 0 by (field; split; lra).
  rewrite xsqrt_fin by lra. rewrite sqrt_0. cbn [xeqb]. rewrite Reqb_true by auto.
  assert (Haln : 0 < al * n) by (apply Rmult_lt_0_compat; auto).
  rewrite !(xdiv_fin ga), !(xdiv_fin 1), !(xdiv_fin rb) by lra.
  rewrite (xpow_nan al) by lra. cbn [xadd].
  rewrite (xpow_pos re) by auto. cbn [xadd xdiv].
  assert (0 < 1 / (al * n)) by (apply Rdiv_lt_0_compat; lra).
  rewrite (xpow_nan (1 / (al * n))) by lra. cbn [xmul xexp].
  match goal with |- xmul ?a NaN = NaN => destruct a; reflexivity end.
Qed.

(** C64 *)
Theorem core_sersic_spec Ib re rb n x0 y0 al ga e th b :
  0 < re -> 0 < rb -> 0 < n -> 0 < al -> e < 1 -> half_light n b ->
  (forall x y d, 0 < d ->
     d * d = along x0 y0 th x y * along x0 y0 th x y
             + across x0 y0 th x y / (1 - e) * (across x0 y0 th x y / (1 - e)) ->
     core_sersic2d (Fin x) (Fin y) (Fin Ib) (Fin re) (Fin rb) (Fin n) (Fin x0) (Fin y0)
       (Fin al) (Fin ga) (Fin e) (Fin th)
     = Fin (core_sersic_law Ib re rb n b al ga (d / re))) /\
  core_sersic_law Ib re rb n b al ga rb = Ib /\
  (forall x y, (rb * re) * (rb * re) = along x0 y0 th x y * along x0 y0 th x y
             + across x0 y0 th x y / (1 - e) * (across x0 y0 th x y / (1 - e)) ->
     core_sersic2d (Fin x) (Fin y) (Fin Ib) (Fin re) (Fin rb) (Fin n) (Fin x0) (Fin y0)
       (Fin al) (Fin ga) (Fin e) (Fin th) = Fin Ib) /\
  core_sersic2d (Fin x0) (Fin y0) (Fin Ib) (Fin re) (Fin rb) (Fin n) (Fin x0) (Fin y0)
       (Fin al) (Fin ga) (Fin e) (Fin th) = NaN.
Proof.
  intros Hre Hrb Hn Hal He Hb.
  assert (One : forall x y d, 0 < d ->
     d * d = along x0 y0 th x y * along x0 y0 th x y
             + across x0 y0 th x y / (1 - e) * (across x0 y0 th x y / (1 - e)) ->
     core_sersic2d (Fin x) (Fin y) (Fin Ib) (Fin re) (Fin rb) (Fin n) (Fin x0) (Fin y0)
       (Fin al) (Fin ga) (Fin e) (Fin th)
     = Fin (core_sersic_law Ib re rb n b al ga (d / re))).
  { intros x y d Hd E. rewrite (half_light_unique n b Hn Hb).
    assert (Ed : ellR re x0 y0 e th x y = d) by (unfold ellR; rewrite <- E; apply sqrt_square; lra).
    rewrite <- Ed in Hd |- *. now apply core_fin. }
  split; [exact One|]. split; [now apply core_law_at_break|]. split; [|now apply core_center].
  intros x y E. rewrite (One x y (rb * re)) by (auto; apply Rmult_lt_0_compat; auto).
  replace (rb * re / re) with rb by (field; lra). now rewrite core_law_at_break.
Qed.

(** * PetroApprox *)
Fixpoint polyR (cs : list R) (x : R) : R := match cs with [] => 0 | c :: tl => c + x * polyR tl x end.

Lemma horner_fin cs x : horner (map Fin cs) (Fin x) = Fin (polyR cs x).
Proof. induction cs; cbn; auto. rewrite IHcs. reflexivity. Qed.

Lemma e8_fin m : e8 m = Fin (IZR m / 100000000).
Proof. unfold e8, nlit. cbn. unfold xdiv. rewrite Reqb_false by lra. reflexivity. Qed.

Definition c2080R (c : R) : R :=
  polyR (map (fun m => IZR m / 100000000) [-41844073; 20487513; 8626531; 1067070; -82523; 2486]%Z) c.
Definition u2080R (u : R) : R :=
  polyR (map (fun m => IZR m / 100000000) [226194802; -361130833; 382197580; -164146600; 38059409; -4503840; 221922]%Z) u.

Lemma c2080_fin c : c2080_to_n (Fin c) = Fin (c2080R c).
Proof. unfold c2080_to_n, c2080R. rewrite !e8_fin. rewrite <- horner_fin. reflexivity. Qed.
Lemma u2080_fin c : u2080_to_c2080 (Fin c) = Fin (u2080R c).
Proof. unfold u2080_to_c2080, u2080R. rewrite !e8_fin. rewrite <- horner_fin. reflexivity. Qed.

Fixpoint dpolyR (cs : list R) (x : R) : R :=
  match cs with [] => 0 | _ :: tl => polyR tl x + x * dpolyR tl x end.

Lemma poly_derive cs x : derivable_pt_lim (polyR cs) x (dpolyR cs x).
Proof.
  induction cs as [|c tl IH]; cbn [polyR dpolyR].
  - apply (derivable_pt_lim_const 0).
  - assert (D : derivable_pt_lim (fun z => z * polyR tl z) x (polyR tl x + x * dpolyR tl x)).
    { pose proof (derivable_pt_lim_mult id (polyR tl) x _ _ (derivable_pt_lim_id x) IH) as D.
      replace (1 * polyR tl x + id x * dpolyR tl x) with (polyR tl x + x * dpolyR tl x) in D
        by (unfold id; ring). exact D. }
    pose proof (derivable_pt_lim_plus (fct_cte c) _ x _ _ (derivable_pt_lim_const c x) D) as D2.
    replace (0 + (polyR tl x + x * dpolyR tl x)) with (polyR tl x + x * dpolyR tl x) in D2 by ring.
    exact D2.
Qed.

Lemma inc_on (f f' : R -> R) a : (forall x, a <= x -> derivable_pt_lim f x (f' x)) ->
  (forall x, a <= x -> 0 < f' x) -> forall x y, a <= x < y -> f x < f y.
Proof.
  intros D P x y H. destruct (MVT_cor2 f f' x y) as (c & E & Hc); [lra|intros; apply D; lra|].
  pose proof (P c ltac:(lra)). nra.
Qed.

Definition coefs (l : list Z) : list R := map (fun m => IZR m / 100000000) l.

Lemma c2080_inc x y : 0 <= x < y -> c2080R x < c2080R y.
Proof.
  apply (inc_on _ (dpolyR (coefs [-41844073; 20487513; 8626531; 1067070; -82523; 2486]%Z))).
  - intros z _. apply poly_derive.
  - intros z Hz. cbn. 
    enough (0 < z * z * (3201210 - 330092 * z + 12430 * (z * z)) + 17253062 * z + 20487513) by lra.
    pose proof (sqnn (z - 1328/100)).
    assert (0 < 3201210 - 330092 * z + 12430 * (z * z)) by lra.
    assert (0 <= z * z) by nra.
    assert (0 <= z * z * (3201210 - 330092 * z + 12430 * (z * z))) by (apply Rmult_le_pos; lra). lra.
Qed.

Lemma u2080_dpos t : 0 <= t ->
  0 < 41874495 + 152809328 * t - 157526772 * t^2 + 75476156 * t^3 - 15861540 * t^4 + 1331532 * t^5.
Proof.
  intros H. destruct (Rle_lt_dec t 1) as [H1|H1].
  { assert (0 <= t * t) by nra.
    pose proof (sqnn (t - 4/3)).
    assert (E : 0 <= 152809328 - 157526772 * t + 59614616 * (t * t)) by nra.
    assert (E2 : 0 <= t * t * (15861540 - 15861540 * t)) by (apply Rmult_le_pos; lra).
    assert (E3 : 0 <= t * (152809328 - 157526772 * t + 59614616 * (t * t) + t * t * (15861540 - 15861540 * t))).
    { apply Rmult_le_pos; lra. }
    assert (0 <= t ^ 5) by now apply pow_le. nra. }
  destruct (Rle_lt_dec t 2) as [H2|H2].
  { set (s := t - 1). replace t with (s + 1) by (unfold s; ring).
    assert (Hs : 0 <= s <= 1) by (unfold s; lra). clearbody s. clear H H1 H2 t.
    assert (A2 : 0 <= s * s <= 1) by nra. assert (A3 : 0 <= s * s * s) by (apply Rmult_le_pos; lra).
    assert (A4 : 0 <= s * s * (s * s) <= 1) by nra.
    assert (A5 : 0 <= s * s * (s * s) * s) by (apply Rmult_le_pos; lra).
    ring_simplify. replace (s ^ 5) with (s * s * (s * s) * s) by ring. replace (s ^ 4) with (s * s * (s * s)) by ring.
    replace (s ^ 3) with (s * s * s) by ring. replace (s ^ 2) with (s * s) by ring. lra. }
  destruct (Rle_lt_dec t 3) as [H3|H3].
  { set (s := t - 2). replace t with (s + 2) by (unfold s; ring).
    assert (Hs : 0 <= s <= 1) by (unfold s; lra). clearbody s. clear H H1 H2 H3 t.
    assert (A2 : 0 <= s * s <= 1) by nra. assert (A3 : 0 <= s * s * s) by (apply Rmult_le_pos; lra).
    assert (A4 : 0 <= s * s * (s * s) <= 1) by nra.
    assert (A5 : 0 <= s * s * (s * s) * s) by (apply Rmult_le_pos; lra).
    ring_simplify. replace (s ^ 5) with (s * s * (s * s) * s) by ring. replace (s ^ 4) with (s * s * (s * s)) by ring.
    replace (s ^ 3) with (s * s * s) by ring. replace (s ^ 2) with (s * s) by ring. lra. }
  set (s := t - 3). replace t with (s + 3) by (unfold s; ring).
  assert (Hs : 0 <= s) by (unfold s; lra). clearbody s. clear H H1 H2 H3 t.
  pose proof (pow_le s 2 Hs). pose proof (pow_le s 3 Hs). pose proof (pow_le s 4 Hs). pose proof (pow_le s 5 Hs).
  ring_simplify. lra.
Qed.

Lemma u2080_inc x y : 1 <= x < y -> u2080R x < u2080R y.
Proof.
  apply (inc_on _ (dpolyR (coefs [226194802; -361130833; 382197580; -164146600; 38059409; -4503840; 221922]%Z))).
  - intros z _. apply poly_derive.
  - intros z Hz. cbn. pose proof (u2080_dpos (z - 1) ltac:(lra)) as H. ring_simplify in H.
    match goal with |- 0 < ?e => replace e with ((1331532 * z ^ 5 - 22519200 * z ^ 4 + 152237636 * z ^ 3 - 492439800 * z ^ 2
      + 764395160 * z - 361130833) / 100000000) by field end. lra.
Qed.

Lemma u2080_ge1 x : 1 <= x -> 1 <= u2080R x.
Proof.
  intros [H| <-].
  - left. apply Rle_lt_trans with (u2080R 1); [unfold u2080R; cbn; lra|]. apply u2080_inc. lra.
  - unfold u2080R; cbn; lra.
Qed.

Definition nepsR (n : R) : R :=
  polyR (coefs [-654870813; -215040843; -28993623; -4099376; -46837; -22305]%Z) n
  + IZR 748787292 / 100000000 * exp (n / (IZR 268760550 / 100000000)).
Definition pepsR (p : R) : R :=
  polyR (coefs [109339566; -14524911; 50361697; -12158090; 2533795; -196243; 9081]%Z) p
  + IZR 3312881 / 100000000 * exp (p / (IZR 183616642 / 100000000)).

Lemma expo_fin a t x : 0 < t -> exponential1d (Fin a) (Fin t) (Fin x) = Fin (a * exp (x / t)).
Proof. intros. unfold exponential1d. cbn [ndiv nmul XRnum]. rewrite xdiv_fin by lra. reflexivity. Qed.

Lemma neps_fin n : n_to_epsilon (Fin n) = Fin (nepsR n).
Proof.
  unfold n_to_epsilon, nepsR. rewrite !e8_fin. rewrite expo_fin by lra.
  unfold coefs. change (nadd (horner (map Fin (map (fun m => IZR m / 100000000)
    [-654870813; -215040843; -28993623; -4099376; -46837; -22305]%Z)) (Fin n))
    (Fin (IZR 748787292 / 100000000 * exp (n / (IZR 268760550 / 100000000)))) = Fin (nepsR n)).
  rewrite horner_fin. reflexivity.
Qed.
Lemma peps_fin n : p0502_to_epsilon (Fin n) = Fin (pepsR n).
Proof.
  unfold p0502_to_epsilon, pepsR. rewrite !e8_fin. rewrite expo_fin by lra.
  unfold coefs. change (nadd (horner (map Fin (map (fun m => IZR m / 100000000)
    [109339566; -14524911; 50361697; -12158090; 2533795; -196243; 9081]%Z)) (Fin n))
    (Fin (IZR 3312881 / 100000000 * exp (n / (IZR 183616642 / 100000000)))) = Fin (pepsR n)).
  rewrite horner_fin. reflexivity.
Qed.

Lemma expo_derive a t x : derivable_pt_lim (fun z => a * exp (z / t)) x (a * / t * exp (x / t)).
Proof.
  assert (D1 : derivable_pt_lim (fun z => z / t) x (/ t)).
  { pose proof (derivable_pt_lim_mult id (fct_cte (/ t)) x _ _ (derivable_pt_lim_id x)
      (derivable_pt_lim_const (/ t) x)) as D.
    replace (1 * fct_cte (/ t) x + id x * 0) with (/ t) in D by (unfold fct_cte; ring). exact D. }
  pose proof (derivable_pt_lim_comp _ exp x _ _ D1 (derivable_pt_lim_exp (x / t))) as D2.
  pose proof (derivable_pt_lim_scal _ a x _ D2) as D3.
  replace (a * / t * exp (x / t)) with (a * (exp (x / t) * / t)) by ring. exact D3.
Qed.

Lemma peps_inc x y : 1 / 5 <= x < y -> pepsR x < pepsR y.
Proof.
  apply (inc_on _ (fun z => dpolyR (coefs [109339566; -14524911; 50361697; -12158090; 2533795; -196243; 9081]%Z) z
     + IZR 3312881 / 100000000 * / (IZR 183616642 / 100000000) * exp (z / (IZR 183616642 / 100000000)))).
  - intros z _. apply (derivable_pt_lim_plus (polyR _)); [apply poly_derive|apply expo_derive].
  - intros z Hz. set (ex := exp _). assert (0 < ex) by apply exp_pos.
    assert (0 < / (IZR 183616642 / 100000000)) by (apply Rinv_0_lt_compat; lra).
    assert (0 < IZR 3312881 / 100000000 * / (IZR 183616642 / 100000000) * ex).
    { repeat apply Rmult_lt_0_compat; lra. }
    enough (0 <= dpolyR (coefs [109339566; -14524911; 50361697; -12158090; 2533795; -196243; 9081]%Z) z) by lra.
    cbn. set (t := z - 1 / 5). replace z with (t + 1 / 5) by (unfold t; ring).
    assert (Ht : 0 <= t) by (unfold t; lra). clearbody t. 
    assert (A : 0 <= t * (87318900 - 30624300 * t + 3000000 * (t * t))) by (apply Rmult_le_pos; [lra|]; pose proof (sqnn (t - 52/10)); lra).
    assert (B : 0 <= t * t * t * (6371900 - 926800 * t + 54400 * (t * t))).
    { apply Rmult_le_pos; [repeat apply Rmult_le_pos; auto|]. pose proof (sqnn (t - 86/10)). lra. }
    pose proof (pow_le t 2 Ht). pose proof (pow_le t 3 Ht). pose proof (pow_le t 4 Ht). pose proof (pow_le t 5 Ht).
    ring_simplify in A. ring_simplify in B. field_simplify. lra.
Qed.

Lemma neps_inc x y : 0 <= x < y -> nepsR x < nepsR y.
Proof.
  apply (inc_on _ (fun z => dpolyR (coefs [-654870813; -215040843; -28993623; -4099376; -46837; -22305]%Z) z
     + IZR 748787292 / 100000000 * / (IZR 268760550 / 100000000) * exp (z / (IZR 268760550 / 100000000)))).
  - intros z _. apply (derivable_pt_lim_plus (polyR _)); [apply poly_derive|apply expo_derive].
  - intros z Hz. set (w := z / (IZR 268760550 / 100000000)).
    assert (Hw : 0 <= w) by (unfold w, Rdiv; apply Rmult_le_pos; auto; left; apply Rinv_0_lt_compat; lra).
    assert (Ez : z = w * (IZR 268760550 / 100000000)) by (unfold w; field; lra).
    pose proof (exp_taylor4 w Hw) as T.
    rewrite Ez. cbn. clearbody w.
    assert (K : 27860 / 10000 <= IZR 748787292 / 100000000 * / (IZR 268760550 / 100000000)).
    { apply Rmult_le_reg_r with (IZR 268760550 / 100000000); [lra|].
      rewrite Rmult_assoc, Rinv_l by lra. lra. }
    pose proof (exp_pos w).
    apply Rlt_le_trans with (dpolyR (coefs [-654870813; -215040843; -28993623; -4099376; -46837; -22305]%Z) (w * (IZR 268760550 / 100000000))
      + 27860 / 10000 * (1 + w + w ^ 2 / 2 + w ^ 3 / 6 + w ^ 4 / 24)).
    2:{ cbn. apply Rplus_le_compat_l. apply Rle_trans with (27860 / 10000 * exp w); [lra|].
        apply Rmult_le_compat_r; lra. }
    cbn.
    pose proof (pow_le w 2 Hw). pose proof (pow_le w 3 Hw). pose proof (pow_le w 4 Hw).
    field_simplify. lra.
Qed.

(** C65 *)
Theorem approx_spec :
  (forall u u' v v', 1 <= u < u' -> u2080_to_c2080 (Fin u) = v -> u2080_to_c2080 (Fin u') = v' ->
     exists c c' k k', v = Fin c /\ v' = Fin c' /\ 1 <= c < c' /\
       c2080_to_n v = Fin k /\ c2080_to_n v' = Fin k' /\ k < k') /\
  (forall c c', 0 <= c < c' -> exists k k',
     c2080_to_n (Fin c) = Fin k /\ c2080_to_n (Fin c') = Fin k' /\ k < k') /\
  (forall n n', 0 <= n < n' -> exists k k',
     n_to_epsilon (Fin n) = Fin k /\ n_to_epsilon (Fin n') = Fin k' /\ 9 / 10 < k < k') /\
  (forall p p', 1 / 5 <= p < p' -> exists k k',
     p0502_to_epsilon (Fin p) = Fin k /\ p0502_to_epsilon (Fin p') = Fin k' /\ k < k').
Proof.
  repeat split.
  - intros u u' v v' H <- <-. exists (u2080R u), (u2080R u'), (c2080R (u2080R u)), (c2080R (u2080R u')).
    rewrite !u2080_fin, !c2080_fin. pose proof (u2080_ge1 u ltac:(lra)). pose proof (u2080_inc u u' H).
    repeat split; auto; try lra. apply c2080_inc. lra.
  - intros c c' H. exists (c2080R c), (c2080R c'). rewrite !c2080_fin. repeat split. now apply c2080_inc.
  - intros n n' H. exists (nepsR n), (nepsR n'). rewrite !neps_fin. repeat split; [|now apply neps_inc].
    assert (N0 : 9 / 10 < nepsR 0).
    { unfold nepsR. replace (0 / (IZR 268760550 / 100000000)) with 0 by (field; lra). rewrite exp_0. cbn. lra. }
    destruct H as [[H| <-] _]; auto. pose proof (neps_inc 0 n ltac:(lra)). lra.
  - intros p p' H. exists (pepsR p), (pepsR p'). rewrite !peps_fin. repeat split. now apply peps_inc.
Qed.

(** below the fitted range the estimates are not ordered, and n can be negative *)
Theorem approx_limits :
  (exists u u' c c', 0 <= u < u' /\ u2080_to_c2080 (Fin u) = Fin c /\ u2080_to_c2080 (Fin u') = Fin c' /\ c' < c) /\
  (exists c k, 0 < c /\ c2080_to_n (Fin c) = Fin k /\ k < 0).
Proof.
  split.
  - exists 0, (1/2), (u2080R 0), (u2080R (1/2)). rewrite !u2080_fin. repeat split; try lra. unfold u2080R. cbn. lra.
  - exists 1, (c2080R 1). rewrite c2080_fin. repeat split; try lra. unfold c2080R. cbn. lra.
Qed.
