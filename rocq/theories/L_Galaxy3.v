(** The Petrosian radius of a rendered Sersic galaxy. *)
From Coq Require Import String.
From Verif Require Import Base Num Numpy M_Utils M_Photometry S_Photometry M_Petrosian M_Sersic Gamma S_Sersic S_Utils S_Petrosian S_PetroR S_Conv S_Robust S_Noise
  M_PSF S_PSF M_Fitting S_Fitting M_Integrate S_Integrate M_Exact S_Exact S_Galaxy S_Render S_Image
  L_Numpy L_Sersic L_Petrosian L_PetroR L_Robust2 L_Conv L_Conv2 L_Noise.
From Verif Require L_Galaxy L_Galaxy2.
Local Open Scope list_scope.
Local Open Scope R_scope.

(** ** a step fine enough, with room for errors of the profile *)
Section Steps.
  Variables A re n : R.
  Hypothesis HA : 0 < A.
  Hypothesis Hre : 0 < re.
  Hypothesis Hn : 0 < n.
  Notation law := (sersic_law A re n (bnR n)).
  Notation p := (profR re n).
  Definition suits (rt eps h d tau : R) : Prop :=
    0 < h <= eps /\ 0 < d /\ 8 * d <= eps /\ 8 * d <= h /\ 0 < tau /\
    p rt - (p (rt - eps / 2) - p rt) + 2 * tau < p (rt + 2 * h) /\
    p (rt + h / 4) * law (rt + h / 2 - 4 * d) <= (p rt - tau) * law (rt + h / 2 + 4 * d).

  Lemma suitable rt eps : 0 < rt -> 0 < eps <= rt -> exists h d tau, suits rt eps h d tau.
  Proof.
    intros Hrt Heps.
    pose proof (prof_dec re n Hre Hn (rt - eps / 2) rt ltac:(lra)) as Hm.
    destruct (prof_cont A re n 0 HA Hre Hn ltac:(lra) rt Hrt (p (rt - eps / 2) - p rt) ltac:(lra)) as (d1 & Hd1 & C1).
    set (h := Rmin (eps / 2) (d1 / 3)).
    assert (Hh : 0 < h) by (unfold h; apply Rmin_glb_lt; lra).
    assert (h <= eps / 2) by apply Rmin_l. assert (h <= d1 / 3) by apply Rmin_r.
    pose proof (prof_dec re n Hre Hn rt (rt + h / 4) ltac:(lra)) as P4.
    pose proof (prof_range re n Hre Hn (rt + h / 4) ltac:(lra)) as P4r.
    set (c := rt + h / 2). set (p4 := p (rt + h / 4)) in *. set (pt := p rt) in *.
    pose proof (law_pos A re n HA c) as Lc.
    set (pm := (pt + p4) / 2). assert (Pm : p4 < pm < pt) by (unfold pm; lra).
    set (t := law c * (pm - p4) / (pm + p4)).
    assert (Ht : 0 < t) by (apply Rdiv_lt_0_compat; [apply Rmult_lt_0_compat|]; lra).
    destruct (L_Conv2.law_cont A re n Hre c ltac:(unfold c; lra) t Ht) as (d2 & Hd2 & C2).
    set (d := Rmin (h / 8) (d2 / 8)).
    assert (Hd : 0 < d) by (unfold d; apply Rmin_glb_lt; lra).
    assert (d <= h / 8) by apply Rmin_l. assert (d <= d2 / 8) by apply Rmin_r.
    specialize (C1 (rt + 2 * h)). rewrite Rabs_pos_eq in C1 by lra. specialize (C1 ltac:(lra)). apply Rabs_def2 in C1. fold pt in C1.
    set (sl := p (rt + 2 * h) - (pt - (p (rt - eps / 2) - pt))). assert (Hsl : 0 < sl) by (unfold sl; lra).
    set (tau := Rmin (sl / 4) (pt - pm)).
    assert (Ht1 : tau <= sl / 4) by apply Rmin_l. assert (Ht2 : tau <= pt - pm) by apply Rmin_r.
    assert (Htau : 0 < tau) by (unfold tau; apply Rmin_glb_lt; lra).
    exists h, d, tau. unfold suits. fold c p4 pt. repeat split; auto; try lra; [unfold sl in *; lra|].
    pose proof (C2 (c - 4 * d)) as C3. rewrite Rabs_left1 in C3 by lra. specialize (C3 ltac:(lra)). apply Rabs_def2 in C3.
    pose proof (C2 (c + 4 * d)) as C4. rewrite Rabs_pos_eq in C4 by lra. specialize (C4 ltac:(lra)). apply Rabs_def2 in C4.
    pose proof (law_pos A re n HA (c + 4 * d)) as Lp.
    apply Rle_trans with (p4 * (law c + t)); [apply Rmult_le_compat_l; lra|].
    apply Rle_trans with (pm * (law c - t)).
    - assert (t * (pm + p4) = law c * (pm - p4)) by (unfold t; field; lra). lra.
    - apply Rle_trans with (pm * law (c + 4 * d)); [apply Rmult_le_compat_l; lra|apply Rmult_le_compat_r; lra].
  Qed.
End Steps.

(** the same galaxy on finer pixels *)
Lemma arg_scale K re n r : 0 < K -> 0 < re -> argR (K * re) n (K * r) = argR re n r.
Proof. intros. unfold argR. do 2 f_equal. field. lra. Qed.
Lemma prof_scale K re n r : 0 < K -> 0 < re -> profR (K * re) n (K * r) = profR re n r.
Proof. intros. unfold profR. now rewrite arg_scale. Qed.
Lemma law_scale K A re n b r : 0 < K -> 0 < re -> sersic_law A (K * re) n b (K * r) = sersic_law A re n b r.
Proof. intros. unfold sersic_law. do 5 f_equal. field. lra. Qed.
Lemma encl_scale K A re n e r : 0 < K -> 0 < re -> enclR A (K * re) n e (K * r) = K * K * enclR A re n e r.
Proof. intros. unfold enclR. rewrite arg_scale by auto. unfold scaleR. ring. Qed.
Lemma suits_scale K A re n rt eps h d tau : 0 < K -> 0 < re -> suits A re n rt eps h d tau ->
  suits A (K * re) n (K * rt) (K * eps) (K * h) (K * d) tau.
Proof.
  intros HK Hre (H1 & H2 & H3 & H4 & H5 & H6 & H7). unfold suits.
  replace (K * rt - K * eps / 2) with (K * (rt - eps / 2)) by field.
  replace (K * rt + 2 * (K * h)) with (K * (rt + 2 * h)) by ring.
  replace (K * rt + K * h / 4) with (K * (rt + h / 4)) by field.
  replace (K * rt + K * h / 2 - 4 * (K * d)) with (K * (rt + h / 2 - 4 * d)) by field.
  replace (K * rt + K * h / 2 + 4 * (K * d)) with (K * (rt + h / 2 + 4 * d)) by field.
  rewrite !prof_scale, !law_scale by auto.
  split; [split; [apply Rmult_lt_0_compat; lra|apply Rmult_le_compat_l; lra]|]. split; [apply Rmult_lt_0_compat; lra|].
  split; [nra|]. split; [nra|]. auto.
Qed.

(** ** the search on a profile with errors up to tau *)
Section Search.
  Variables A re n e : R.
  Hypothesis HA : 0 < A.
  Hypothesis Hre : 0 < re.
  Hypothesis Hn : 0 < n.
  Hypothesis He : e < 1.
  Notation law := (sersic_law A re n (bnR n)).
  Notation p := (profR re n).

  Lemma petro_near rt eps h d tau mk ik num rs V : 0 < rt -> eps <= rt -> suits A re n rt eps h d tau ->
      (2 < length rs)%nat -> increasing rs -> 0 < at_ rs 0 -> fine d (0 :: rs) -> rt + eps <= last_of rs ->
      length V = (length rs - 1)%nat ->
      (forall i, (S i < length rs)%nat -> Rabs (at_ V i - measured A re n e (at_ rs i) (at_ rs (S i))) <= tau) ->
      (forall k, ik = Some k -> no_overshoot (mk k) /\ last_of rs < d * INR (num - 1)) ->
      exists a, calculate_petrosian_r mk (map Fin rs) (NaN :: map Fin V) None (Fin (p rt)) ik num = Ok (Fin a, NaN) /\
        Rabs (a - rt) < eps.
  Proof.
    intros Hrt Heps' (Hh & Hd & Hde & Hdh & Htau & Hb & Hc) Len I P0 Fi La LV HV HK. assert (Heps : 0 < eps <= rt) by lra.
    assert (Full : forall i, (i < length rs)%nat -> 0 < at_ rs i) by (intros; apply at_pos; auto).
    assert (Step : forall i, (S i < length rs)%nat -> at_ rs (S i) - at_ rs i < d) by (intros i Hi; apply (Fi (S i)); cbn; lia).
    destruct rs as [|r0 rs]; [cbn in Len; lia|].
    assert (P0' : 0 < r0) by exact P0.
    set (X := 0 :: rs). set (Y := 1 :: V).
    assert (LX : length X = length (r0 :: rs)) by reflexivity.
    assert (L2 : (2 <= length X)%nat) by (rewrite LX; lia).
    assert (L1 : (1 <= length rs)%nat) by (cbn in Len; lia).
    assert (LXY : length X = length Y) by (cbn in *; lia).
    assert (IX : increasing X) by (eapply inc_tl; eauto).
    assert (FX : fine (2 * d) X) by (eapply fine_tl; eauto).
    assert (AX : forall i, (1 <= i)%nat -> at_ X i = at_ (r0 :: rs) i) by (intros [|i] Hi; [lia|reflexivity]).
    assert (LaX : last_of X = last_of (r0 :: rs)).
    { unfold last_of. rewrite LX. apply AX. cbn in *; lia. }
    assert (low : forall i r, (i < length X)%nat -> at_ X i <= r -> 0 < r -> p r - tau <= at_ Y i).
    { intros i r Hi Hr Hr0. destruct i as [|i].
      - cbn [at_ nth Y]. pose proof (prof_range re n Hre Hn r Hr0). unfold at_, Y. cbn [nth]. lra.
      - change (at_ Y (S i)) with (at_ V i). pose proof (HV i ltac:(lia)) as HVi. apply abs_bounds in HVi. rewrite AX in Hr by lia.
        pose proof (Full i ltac:(lia)). pose proof (I i ltac:(lia)).
        destruct (measured_bracket A re n e HA Hre Hn He (at_ (r0 :: rs) i) (at_ (r0 :: rs) (S i)) ltac:(lra)) as [[B _] _].
        apply Rle_trans with (p (at_ (r0 :: rs) (S i)) - tau); [|lra].
        assert (p r <= p (at_ (r0 :: rs) (S i))); [|lra]. apply prof_dec_le; auto; try lra. }
    assert (high : forall i, (i < length X)%nat -> rt + h / 2 - 2 * d <= at_ X i <= rt + h / 2 + 4 * d -> at_ Y i <= p rt).
    { intros i Hi Hx. destruct i as [|i]; [unfold at_, X in Hx; cbn [nth] in Hx; lra|].
      change (at_ Y (S i)) with (at_ V i). pose proof (HV i ltac:(lia)) as HVi. apply abs_bounds in HVi. rewrite AX in Hx by lia.
      pose proof (Full i ltac:(lia)). pose proof (I i ltac:(lia)). pose proof (Step i ltac:(lia)).
      destruct (measured_bracket A re n e HA Hre Hn He (at_ (r0 :: rs) i) (at_ (r0 :: rs) (S i)) ltac:(lra)) as [_ B].
      set (a := at_ (r0 :: rs) i) in *. set (b := at_ (r0 :: rs) (S i)) in *.
      assert (p b * (law a / law b) <= p rt - tau); [|lra].
      pose proof (prof_dec_le re n Hre Hn (rt + h / 4) b ltac:(lra)).
      assert (law a <= law (rt + h / 2 - 4 * d)).
      { destruct (Req_dec a (rt + h / 2 - 4 * d)) as [->|]; [lra|]. left. apply law_dec; auto. lra. }
      assert (law (rt + h / 2 + 4 * d) <= law b).
      { destruct (Req_dec b (rt + h / 2 + 4 * d)) as [->|]; [lra|]. left. apply law_dec; auto. lra. }
      pose proof (law_pos A re n HA a). pose proof (law_pos A re n HA b).
      pose proof (prof_range re n Hre Hn b ltac:(lra)). pose proof (prof_range re n Hre Hn (rt + h / 4) ltac:(lra)).
      pose proof (law_pos A re n HA (rt + h / 2 - 4 * d)). pose proof (law_pos A re n HA (rt + h / 2 + 4 * d)).
      assert (0 < p rt - tau).
      { assert (0 < (p rt - tau) * law (rt + h / 2 + 4 * d)) by (eapply Rlt_le_trans; [|exact Hc]; apply Rmult_lt_0_compat; lra).
        destruct (Rlt_le_dec 0 (p rt - tau)); auto. nra. }
      apply Rmult_le_reg_r with (law b); auto.
      replace (p b * (law a / law b) * law b) with (p b * law a) by (field; lra).
      apply Rle_trans with (p (rt + h / 4) * law (rt + h / 2 - 4 * d)).
      - apply Rmult_le_compat; lra.
      - apply Rle_trans with (1 := Hc). apply Rmult_le_compat_l; lra. }
    assert (HK' : forall k, ik = Some k -> no_overshoot (mk k) /\ last_of X - at_ X 0 < 2 * d * INR (num - 1)).
    { intros k Ek. destruct (HK k Ek) as [N1 N2]. split; auto. rewrite LaX. unfold X at 1, at_. cbn [nth].
      pose proof (pos_INR (num - 1)). nra. }
    destruct (petro_r_total mk (Fin r0) rs NaN (map Fin V) (Fin (p rt)) ik num) as (v & Ev).
    { exact L1. } { rewrite map_length. cbn in *. lia. }
    { intros k Ek. destruct (HK k Ek) as [NO _]. destruct (NO X Y IX LXY L2) as (f & Ef & _).
      exists f. exact Ef. }
    destruct (petro_r_spec mk _ _ _ _ _ _ _ _ _ L1 Ev) as (g & q & Rs & Fr & _).
    destruct (resample_framed mk ik num X Y (2 * d) L2 IX LXY HK' FX ltac:(lra) g q Rs)
      as (z & -> & Lg & Ng & Fz & Hit).
    assert (lowz : forall k r, (k < length g)%nat -> at_ g k + 2 * d <= r -> 0 < r -> p r - tau <= at_ z k).
    { intros k r Hk Hr Hr0. destruct (Fz k Hk) as (i & i' & Hi & Hi' & Hx & B).
      assert (at_ X i' <= r).
      { assert (i' = i \/ i' = S i) as [->| ->] by lia; [lra|]. pose proof (FX i ltac:(lia)). lra. }
      pose proof (low i' r ltac:(lia) ltac:(lra) Hr0). pose proof (low i r ltac:(lia) ltac:(lra) Hr0).
      destruct B; lra. }
    destruct (search_bounds false (p rt) g z v (rt - eps) (rt + h) (p (rt - eps / 2) - p rt - tau) Ng Lg) as (a & -> & Ha); auto.
    - intros k Hk Hg. unfold gap. pose proof (lowz k (rt - eps / 2) Hk ltac:(lra) ltac:(lra)). lra.
    - intros k Hk Hg. unfold gap. pose proof (lowz k (rt + 2 * h) Hk ltac:(lra) ltac:(lra)). lra.
    - destruct (Hit (rt + h / 2)) as (j & Hj & Hgj).
      { unfold X, at_. cbn [nth]. lra. } { rewrite LaX. lra. }
      exists j. split; auto. split; [lra|]. unfold gap.
      destruct (Fz j Hj) as (i & i' & Hi & Hi' & Hx & B).
      assert (at_ X i' - at_ X i < 2 * d).
      { assert (i' = i \/ i' = S i) as [->| ->] by lia; [lra|]. apply (FX i). lia. }
      pose proof (high i ltac:(lia) ltac:(lra)). pose proof (high i' ltac:(lia) ltac:(lra)). destruct B; lra.
    - exists a. split; [exact Ev|]. apply Rabs_def1; lra.
  Qed.
End Search.

(** ** the profile from slightly wrong fluxes and areas *)
Lemma quot_near x y eps : y <> 0 -> 0 < eps -> exists d, 0 < d /\ forall x' y', Rabs (x' - x) <= d -> Rabs (y' - y) <= d ->
  y' <> 0 /\ Rabs (x' / y' - x / y) <= eps.
Proof.
  intros Hy He. set (Y := Rabs y). assert (PY : 0 < Y) by now apply Rabs_pos_lt. pose proof (Rabs_pos x) as PX. set (X := Rabs x) in *.
  set (m := 2 * (X + Y) / (Y * Y)). assert (Hm : 0 < m) by (apply Rdiv_lt_0_compat; nra).
  exists (Rmin (Y / 2) (eps / m)). pose proof (Rmin_l (Y / 2) (eps / m)). pose proof (Rmin_r (Y / 2) (eps / m)).
  assert (0 < eps / m) by now apply Rdiv_lt_0_compat. set (d := Rmin _ _) in *. assert (0 < d) by (apply Rmin_glb_lt; lra).
  split; auto. intros x' y' Hx' Hy'. destruct (quotient_close x y x' y' d) as [N Q]; auto; [fold Y; lra|]. split; auto.
  eapply Rle_trans; [exact Q|]. fold X Y. apply Rle_trans with (d * m).
  - unfold m, Rdiv. rewrite <- Rmult_assoc. replace (d * (2 * (X + Y)) * / (Y * Y)) with (d * (X + Y) * / (Y * (Y / 2))) by (field; lra).
    apply Rmult_le_compat_l; [nra|]. apply Rinv_le_contravar; nra.
  - apply Rle_trans with (eps / m * m); [apply Rmult_le_compat_r; lra|]. right. field. lra.
Qed.
Lemma mult_near x y eps : 0 < eps -> exists d, 0 < d /\ forall x' y', Rabs (x' - x) <= d -> Rabs (y' - y) <= d -> Rabs (x' * y' - x * y) <= eps.
Proof.
  intros He. set (m := Rabs x + Rabs y + 1). pose proof (Rabs_pos x) as PX. pose proof (Rabs_pos y) as PY. assert (Hm : 0 < m) by (unfold m; lra).
  exists (Rmin 1 (eps / m)). pose proof (Rmin_l 1 (eps / m)). pose proof (Rmin_r 1 (eps / m)).
  assert (0 < eps / m) by now apply Rdiv_lt_0_compat. set (d := Rmin _ _) in *. assert (0 < d) by (apply Rmin_glb_lt; lra).
  split; auto. intros x' y' Hx Hy.
  replace (x' * y' - x * y) with ((x' - x) * (y' - y) + (x' - x) * y + x * (y' - y)) by ring.
  eapply Rle_trans; [apply Rabs_triang|]. rewrite Rabs_mult.
  assert (Rabs ((x' - x) * (y' - y) + (x' - x) * y) <= d * 1 + d * Rabs y).
  { eapply Rle_trans; [apply Rabs_triang|]. rewrite !Rabs_mult. apply Rplus_le_compat; [apply Rmult_le_compat; auto using Rabs_pos; lra|apply Rmult_le_compat_r; auto]. }
  assert (Rabs x * Rabs (y' - y) <= Rabs x * d) by (apply Rmult_le_compat_l; auto).
  assert (d * m <= eps) by (apply Rle_trans with (eps / m * m); [apply Rmult_le_compat_r; lra|right; field; lra]).
  unfold m in *. nra.
Qed.

Lemma ratio_near_1 a0 a1 l0 l1 eps : a0 < a1 -> a1 <> 0 -> l1 <> 0 -> 0 < eps -> exists d, 0 < d /\ forall a0' a1' l0' l1',
  Rabs (a0' - a0) <= d -> Rabs (a1' - a1) <= d -> Rabs (l0' - l0) <= d -> Rabs (l1' - l1) <= d ->
  a0' < a1' /\ l1' <> 0 /\ Rabs ((l1' - l0') / (a1' - a0') / (l1' / a1') - (l1 - l0) / (a1 - a0) / (l1 / a1)) <= eps.
Proof.
  intros Ha Ha1 Hl He.
  destruct (quot_near (l1 - l0) (a1 - a0) 1 ltac:(lra) ltac:(lra)) as (d0 & P0 & _).
  destruct (quot_near ((l1 - l0) * a1) ((a1 - a0) * l1) eps) as (d1 & P1 & Q1); auto.
  { apply Rmult_integral_contrapositive. split; lra. }
  destruct (mult_near (l1 - l0) a1 d1 P1) as (d2 & P2 & Q2). destruct (mult_near (a1 - a0) l1 d1 P1) as (d3 & P3 & Q3).
  set (d := Rmin ((a1 - a0) / 4) (Rmin (Rabs a1 / 2) (Rmin (d2 / 2) (d3 / 2)))).
  assert (PA : 0 < Rabs a1) by now apply Rabs_pos_lt.
  assert (D1 : d <= (a1 - a0) / 4) by apply Rmin_l.
  assert (D2 : d <= Rabs a1 / 2) by (eapply Rle_trans; [apply Rmin_r|apply Rmin_l]).
  assert (D3 : d <= d2 / 2) by (eapply Rle_trans; [apply Rmin_r|]; eapply Rle_trans; [apply Rmin_r|apply Rmin_l]).
  assert (D4 : d <= d3 / 2) by (eapply Rle_trans; [apply Rmin_r|]; eapply Rle_trans; [apply Rmin_r|apply Rmin_r]).
  assert (Pd : 0 < d) by (unfold d; repeat apply Rmin_glb_lt; lra).
  exists d. split; auto. intros a0' a1' l0' l1' H0 H1 H2 H3.
  assert (N1 : a1' <> 0).
  { intros ->. rewrite Rminus_0_l, Rabs_Ropp in H1. lra. }
  pose proof H0 as H0'. apply abs_bounds in H0'. pose proof H1 as H1'. apply abs_bounds in H1'. pose proof H2 as H2'. apply abs_bounds in H2'. pose proof H3 as H3'. apply abs_bounds in H3'.
  assert (La : a0' < a1') by lra. split; auto.
  destruct (Q1 ((l1' - l0') * a1') ((a1' - a0') * l1')) as [N Q].
  - apply Q2; [apply Rabs_le; lra|lra].
  - apply Q3; [apply Rabs_le; lra|lra].
  - assert (Nl : l1' <> 0) by (intros ->; apply N; ring). split; auto.
    replace ((l1' - l0') / (a1' - a0') / (l1' / a1')) with ((l1' - l0') * a1' / ((a1' - a0') * l1')) by (field; repeat split; lra).
    replace ((l1 - l0) / (a1 - a0) / (l1 / a1)) with ((l1 - l0) * a1 / ((a1 - a0) * l1)) by (field; repeat split; lra). exact Q.
Qed.

Lemma ratio_near A L eps : increasing A -> 0 < at_ A 0 -> length L = length A -> nonzero_tail L -> 0 < eps ->
  exists d, 0 < d /\ forall c A' L', 0 < c -> length A' = length A -> length L' = length L ->
    (forall i, (i < length A)%nat -> Rabs (at_ A' i - c * at_ A i) <= d * c /\ Rabs (at_ L' i - c * at_ L i) <= d * c) ->
    increasing A' /\ ((1 <= length A)%nat -> 0 < at_ A' 0) /\ nonzero_tail L' /\
    forall i, (S i < length A)%nat -> Rabs (petro_ratio A' L' (S i) - petro_ratio A L (S i)) <= eps.
Proof.
  intros IA A0 LL NL He.
  destruct (choose (length A) (fun i d => (S i < length A)%nat -> forall a0' a1' l0' l1',
     Rabs (a0' - at_ A i) <= d -> Rabs (a1' - at_ A (S i)) <= d -> Rabs (l0' - at_ L i) <= d -> Rabs (l1' - at_ L (S i)) <= d ->
     a0' < a1' /\ l1' <> 0 /\ Rabs ((l1' - l0') / (a1' - a0') / (l1' / a1') - (at_ L (S i) - at_ L i) / (at_ A (S i) - at_ A i) / (at_ L (S i) / at_ A (S i))) <= eps)) as (d & Hd & Q).
  { intros i Hi. destruct (Nat.lt_ge_cases (S i) (length A)) as [H|H]; [|exists 1; split; [lra|lia]].
    destruct (ratio_near_1 (at_ A i) (at_ A (S i)) (at_ L i) (at_ L (S i)) eps) as (d & Hd & K); auto.
    - apply Rgt_not_eq. apply at_pos; auto.
    - apply NL. lia.
    - exists d. split; auto. }
  { intros i d d' K Hd' Hi a0' a1' l0' l1' H0 H1 H2 H3. apply K; auto; lra. }
  exists (Rmin d (at_ A 0 / 2)). pose proof (Rmin_l d (at_ A 0 / 2)). pose proof (Rmin_r d (at_ A 0 / 2)).
  set (d' := Rmin d _) in *. assert (Hd' : 0 < d') by (apply Rmin_glb_lt; lra). split; auto.
  intros c A' L' Hc LA' LL' H'.
  assert (Hi : 0 < / c) by now apply Rinv_0_lt_compat.
  assert (N : forall x y, Rabs (x - c * y) <= d' * c -> Rabs (x / c - y) <= d).
  { intros x y K. replace (x / c - y) with ((x - c * y) / c) by (field; lra). unfold Rdiv. rewrite Rabs_mult, (Rabs_pos_eq (/ c)) by lra.
    apply Rle_trans with (d' * c * / c); [apply Rmult_le_compat_r; lra|]. replace (d' * c * / c) with d' by (field; lra). lra. }
  assert (P0 : (1 <= length A)%nat -> 0 < at_ A' 0).
  { intros Len. destruct (H' 0%nat ltac:(lia)) as [K _]. apply abs_bounds in K. assert (0 < c * at_ A 0) by (apply Rmult_lt_0_compat; lra).
    assert (d' * c <= at_ A 0 / 2 * c) by (apply Rmult_le_compat_r; lra). lra. }
  assert (G : forall i, (S i < length A)%nat -> at_ A' i / c < at_ A' (S i) / c /\ at_ L' (S i) / c <> 0 /\
    Rabs (petro_ratio A' L' (S i) - petro_ratio A L (S i)) <= eps).
  { intros i HS. destruct (H' i ltac:(lia)) as [K1 K2]. destruct (H' (S i) HS) as [K3 K4].
    destruct (Q i ltac:(lia) HS (at_ A' i / c) (at_ A' (S i) / c) (at_ L' i / c) (at_ L' (S i) / c)) as (G1 & G2 & G3); auto.
    split; auto. split; auto. unfold petro_ratio, local_sb, mean_sb. replace (S i - 1)%nat with i by lia.
    assert (at_ A' i < at_ A' (S i)) by (apply Rmult_lt_reg_r with (/ c); auto).
    assert (at_ L' (S i) <> 0) by (intros Z; apply G2; rewrite Z; field; lra).
    assert (PA : 0 < at_ A (S i)) by now apply at_pos.
    assert (at_ A' (S i) <> 0).
    { destruct (H' (S i) HS) as [K _]. apply abs_bounds in K. assert (d' * c <= at_ A 0 / 2 * c) by (apply Rmult_le_compat_r; lra).
      pose proof (inc_lt A 0 (S i) IA ltac:(lia) HS). assert (c * at_ A 0 < c * at_ A (S i)) by (apply Rmult_lt_compat_l; lra). assert (0 < c * at_ A 0) by (apply Rmult_lt_0_compat; lra). lra. }
    replace ((at_ L' (S i) - at_ L' i) / (at_ A' (S i) - at_ A' i) / (at_ L' (S i) / at_ A' (S i)))
      with ((at_ L' (S i) / c - at_ L' i / c) / (at_ A' (S i) / c - at_ A' i / c) / (at_ L' (S i) / c / (at_ A' (S i) / c))); auto.
    field. repeat split; lra. }
  split; [|split; [exact P0|split]].
  - intros i Hl. destruct (G i ltac:(lia)) as [G1 _]. apply Rmult_lt_reg_r with (/ c); auto.
  - intros [|i] Hl; [lia|]. destruct (G i ltac:(lia)) as (_ & G2 & _). intros Z. apply G2. rewrite Z. field. lra.
  - intros i HS. now apply G.
Qed.

(** ** from the image to the Petrosian radius *)
Lemma at_scale K (l : list R) i : at_ (map (Rmult K) l) i = K * at_ l i.
Proof. unfold at_. rewrite <- (Rmult_0_r K) at 1. apply map_nth. Qed.

Lemma image_data_full A re n e tau sig rs : 0 < A -> 0 < re -> 0 < n -> 0 <= e < 1 -> 0 < tau -> 0 < sig ->
  (2 < length rs)%nat -> increasing rs -> 0 < at_ rs 0 ->
  exists K0, 0 < K0 /\ forall K X Y t x0 y0 m k s, K0 <= K -> shows_sersic A (K * re) n e X Y t (K * last_of rs) x0 y0 m ->
    exists F Ar V, radial_photometry exact_overlap k m (Fin (X - x0), Fin (Y - y0)) (map Fin (map (Rmult K) rs)) None None (Fin (/ (1 - e))) (Fin t)
        = Ok (map Fin F, map Fin Ar, map (fun _ => NaN) (map (Rmult K) rs)) /\ length F = length rs /\
      Petrosian_new (plain (map (Rmult K) rs) Ar F) s = Ok (mkpet (plain (map (Rmult K) rs) Ar F) s (NaN :: map Fin V) None) /\
      length V = (length rs - 1)%nat /\
      (forall i, (S i < length rs)%nat -> Rabs (at_ V i - measured A (K * re) n e (K * at_ rs i) (K * at_ rs (S i))) <= tau) /\
      (forall i, (i < length rs)%nat -> Rabs (at_ F i - enclR A (K * re) n e (K * at_ rs i)) <= K * K * sig) /\
      length Ar = length rs /\ forall i, (S i < length rs)%nat -> at_ V i = petro_ratio Ar F (S i).
Proof.
  intros HA Hre Hn He Htau Hsig Len I P0.
  assert (La : 0 < last_of rs) by (unfold last_of; apply at_pos; auto; lia).
  set (AL := map (ellipse_area e) rs). set (L := map (enclR A re n e) rs).
  assert (LA : length AL = length rs) by apply map_length. assert (LL : length L = length rs) by apply map_length.
  assert (IA : increasing AL) by (apply increasing_map; auto; intros; apply area_inc; lra).
  assert (A0 : 0 < at_ AL 0) by (unfold AL; rewrite at_map by lia; apply area_pos; auto; lra).
  assert (NL : nonzero_tail L).
  { intros i Hi. unfold L in *. rewrite map_length in Hi. rewrite at_map by lia. apply Rgt_not_eq, F_pos; auto; [lra|].
    apply at_pos; auto; lia. }
  destruct (ratio_near AL L tau IA A0 ltac:(lia) NL Htau) as (dd0 & Hdd0 & RN).
  set (dd := Rmin dd0 sig). assert (Hdd : 0 < dd) by (unfold dd; apply Rmin_glb_lt; auto).
  assert (Dd0 : dd <= dd0) by apply Rmin_l. assert (Dds : dd <= sig) by apply Rmin_r.
  set (C := 2 * sqrt 2 * PI * last_of rs * (A * exp (bnR n)) + 1).
  assert (HC : 1 <= C).
  { unfold C. pose proof PI_RGT_0. pose proof (sqrt_pos 2). pose proof (exp_pos (bnR n)).
    assert (0 <= 2 * sqrt 2 * PI * last_of rs * (A * exp (bnR n))); [|lra].
    apply Rmult_le_pos; [|apply Rmult_le_pos; lra]. apply Rmult_le_pos; [|lra]. apply Rmult_le_pos; lra. }
  exists (Rmax 1 (C / dd)). split; [eapply Rlt_le_trans; [|apply Rmax_l]; lra|]. intros K X Y t x0 y0 m k s HK (dblquad & size & flag & factor & center & nx & ny & HI & Hs & Ho & Nx & Ny & Hf & Hm & On).
  assert (K1 : 1 <= K) by (eapply Rle_trans; [apply Rmax_l|exact HK]).
  assert (K2 : C / dd <= K) by (eapply Rle_trans; [apply Rmax_r|exact HK]).
  assert (K3 : C <= dd * K) by (apply Rle_trans with (dd * (C / dd)); [right; field; lra|apply Rmult_le_compat_l; lra]).
  assert (Lst : forall i, (i < length rs)%nat -> at_ rs i <= last_of rs).
  { intros i Hi. unfold last_of. apply nondec_le; [now apply inc_nondec|lia|lia]. }
  destruct (L_Galaxy2.sersic_measured dblquad A (K * re) n X Y e t size flag factor center nx ny x0 y0 m k (map (Rmult K) rs) (bnR n))
    as (F & Ar & E & LF & LAr & H'); auto; try lra.
  { apply Rmult_lt_0_compat; lra. } { now apply bnR_half. }
  { intros i Hi. rewrite map_length in Hi. rewrite at_scale. pose proof (at_pos rs i P0 I Hi). pose proof (Lst i Hi).
    assert (Pk : 0 < K * at_ rs i) by (apply Rmult_lt_0_compat; lra). split; auto.
    assert (Kl : K * at_ rs i <= K * last_of rs) by (apply Rmult_le_compat_l; lra).
    replace (K * at_ rs i * (1 - e)) with (K * at_ rs i / / (1 - e)) by (field; lra).
    replace (K * last_of rs * (1 - e)) with (K * last_of rs / / (1 - e)) in On by (field; lra).
    apply (L_Galaxy.on_smaller _ _ (/ (1 - e)) t ltac:(apply Rinv_0_lt_compat; lra) _ _ (K * last_of rs)); auto; lra. }
  rewrite map_length in LF, LAr, H'.
  assert (HH : forall i, (i < length rs)%nat -> Rabs (at_ Ar i - K * K * at_ AL i) <= dd * (K * K) /\ Rabs (at_ F i - K * K * at_ L i) <= dd * (K * K)).
  { intros i Hi. destruct (H' i Hi) as (l & El & HF & HAr). rewrite at_scale in *.
    pose proof (at_pos rs i P0 I Hi) as Pi. pose proof (Lst i Hi) as Li.
    rewrite enclosed_fin in El; [|apply Rmult_lt_0_compat; lra|auto|apply Rmult_le_pos; lra]. rewrite encl_scale in El by lra. injection El as <-.
    unfold AL, L. rewrite !at_map by lia. unfold ellipse_area.
    assert (KK : 1 <= K * K) by nra. assert (D1 : 1 <= dd * K) by lra. split.
    - replace (K * K * (PI * (at_ rs i * at_ rs i) * (1 - e))) with (PI * (K * at_ rs i * (K * at_ rs i)) * (1 - e)) by ring.
      eapply Rle_trans; [exact HAr|]. nra.
    - eapply Rle_trans; [exact HF|]. apply Rle_trans with (C * K); [|nra]. unfold C.
      pose proof PI_RGT_0. pose proof (sqrt_pos 2). pose proof (exp_pos (bnR n)).
      assert (2 * sqrt 2 * PI * (K * at_ rs i) * (A * exp (bnR n)) <= 2 * sqrt 2 * PI * last_of rs * (A * exp (bnR n)) * K); [|lra].
      replace (2 * sqrt 2 * PI * (K * at_ rs i) * (A * exp (bnR n))) with (2 * sqrt 2 * PI * (A * exp (bnR n)) * K * at_ rs i) by ring.
      replace (2 * sqrt 2 * PI * last_of rs * (A * exp (bnR n)) * K) with (2 * sqrt 2 * PI * (A * exp (bnR n)) * K * last_of rs) by ring.
      apply Rmult_le_compat_l; auto. apply Rmult_le_pos; [|lra]. apply Rmult_le_pos; [apply Rmult_le_pos; lra|apply Rmult_le_pos; lra]. }
  destruct (RN (K * K) Ar F) as (IAr & PAr & NF & RR).
  { nra. } { lia. } { lia. }
  { intros i Hi. rewrite LA in Hi. destruct (HH i Hi). assert (dd * (K * K) <= dd0 * (K * K)) by (apply Rmult_le_compat_r; nra). lra. }
  assert (NAr : nonzero_tail Ar) by (apply inc_nz; auto; apply PAr; lia).
  destruct (petrosian_formula Ar F ltac:(lia) ltac:(lia) IAr NAr NF) as (Pl & Ep & LP & PP0 & PS).
  set (V := map (fun i => petro_ratio Ar F (S i)) (seq 0 (length rs - 1))).
  assert (LV : length V = (length rs - 1)%nat) by (unfold V; now rewrite map_length, seq_length).
  assert (VV : forall i, (S i < length rs)%nat -> at_ V i = petro_ratio Ar F (S i)).
  { intros i Hi. unfold V, at_ at 1. rewrite nth_indep with (d' := petro_ratio Ar F (S 0)) by (rewrite map_length, seq_length; lia).
    rewrite (map_nth (fun i => petro_ratio Ar F (S i))), seq_nth by lia. reflexivity. }
  assert (EP : Pl = NaN :: map Fin V).
  { apply nth_error_ext. intros i. destruct i as [|i]; [exact PP0|].
    destruct (Nat.lt_ge_cases (S i) (length rs)) as [Hi|Hi].
    - rewrite PS by lia. cbn [nth_error]. rewrite nth_fin by lia. now rewrite VV by auto.
    - rewrite (proj2 (nth_error_None Pl (S i))) by lia. symmetry. apply nth_error_None. cbn [length]. rewrite map_length. lia. }
  subst Pl.
  exists F, Ar, V. split; [exact E|]. split; [exact LF|]. split; [|split; [exact LV|split; [|split; [|split; [exact LAr|exact VV]]]]].
  - unfold Petrosian_new, validate_input_arrays, plain. cbn [d_r d_flux d_flux_err d_area_err d_area d_dtype].
    rewrite !map_length. rewrite LF, Nat.eqb_refl.
    replace (Nat.ltb 2 (length rs)) with true by (symmetry; now apply Nat.ltb_lt).
    cbn [assert_ bind]. rewrite Ep. cbn [bind fst snd]. reflexivity.
  - intros i Hi. rewrite VV by auto.
    replace (measured A (K * re) n e (K * at_ rs i) (K * at_ rs (S i))) with (petro_ratio AL L (S i)); [apply RR; lia|].
    unfold petro_ratio, local_sb, mean_sb, measured. replace (S i - 1)%nat with i by lia. unfold AL, L. rewrite !at_map by lia.
    rewrite !encl_scale by lra. unfold ellipse_area.
    pose proof (at_pos rs i P0 I ltac:(lia)). pose proof (I i Hi). pose proof PI_RGT_0.
    pose proof (F_pos A re n e HA Hre Hn (proj2 He) (at_ rs (S i)) ltac:(lra)).
    assert (at_ rs (S i) * at_ rs (S i) - at_ rs i * at_ rs i <> 0) by nra.
    assert (D1 : PI * (at_ rs (S i) * at_ rs (S i)) * (1 - e) - PI * (at_ rs i * at_ rs i) * (1 - e) <> 0).
    { replace (PI * (at_ rs (S i) * at_ rs (S i)) * (1 - e) - PI * (at_ rs i * at_ rs i) * (1 - e))
        with (PI * (1 - e) * (at_ rs (S i) * at_ rs (S i) - at_ rs i * at_ rs i)) by ring.
      apply Rmult_integral_contrapositive_currified; auto. apply Rmult_integral_contrapositive_currified; lra. }
    assert (D2 : PI * (K * at_ rs (S i) * (K * at_ rs (S i))) * (1 - e) - PI * (K * at_ rs i * (K * at_ rs i)) * (1 - e) <> 0).
    { replace (PI * (K * at_ rs (S i) * (K * at_ rs (S i))) * (1 - e) - PI * (K * at_ rs i * (K * at_ rs i)) * (1 - e))
        with (K * K * (PI * (at_ rs (S i) * at_ rs (S i)) * (1 - e) - PI * (at_ rs i * at_ rs i) * (1 - e))) by ring.
      apply Rmult_integral_contrapositive_currified; auto. apply Rmult_integral_contrapositive_currified; lra. }
    field. repeat split; auto; lra.
  - intros i Hi. rewrite encl_scale by lra. destruct (HH i Hi) as [_ Hi2]. unfold L in Hi2. rewrite at_map in Hi2 by auto.
    eapply Rle_trans; [exact Hi2|]. rewrite Rmult_comm. apply Rmult_le_compat_l; nra.
Qed.

Lemma image_data A re n e tau sig rs : 0 < A -> 0 < re -> 0 < n -> 0 <= e < 1 -> 0 < tau -> 0 < sig ->
  (2 < length rs)%nat -> increasing rs -> 0 < at_ rs 0 ->
  exists K0, 0 < K0 /\ forall K X Y t x0 y0 m k s, K0 <= K -> shows_sersic A (K * re) n e X Y t (K * last_of rs) x0 y0 m ->
    exists F Ar V, radial_photometry exact_overlap k m (Fin (X - x0), Fin (Y - y0)) (map Fin (map (Rmult K) rs)) None None (Fin (/ (1 - e))) (Fin t)
        = Ok (map Fin F, map Fin Ar, map (fun _ => NaN) (map (Rmult K) rs)) /\ length F = length rs /\
      Petrosian_new (plain (map (Rmult K) rs) Ar F) s = Ok (mkpet (plain (map (Rmult K) rs) Ar F) s (NaN :: map Fin V) None) /\
      length V = (length rs - 1)%nat /\
      (forall i, (S i < length rs)%nat -> Rabs (at_ V i - measured A (K * re) n e (K * at_ rs i) (K * at_ rs (S i))) <= tau) /\
      forall i, (i < length rs)%nat -> Rabs (at_ F i - enclR A (K * re) n e (K * at_ rs i)) <= K * K * sig.
Proof.
  intros H1 H2 H3 H4 H5 H6 H7 H8 H9. destruct (image_data_full A re n e tau sig rs H1 H2 H3 H4 H5 H6 H7 H8 H9) as (K0 & HK0 & ID).
  exists K0. split; auto. intros K X Y t x0 y0 m k s HK Sh.
  destruct (ID K X Y t x0 y0 m k s HK Sh) as (F & Ar & V & Q1 & Q2 & Q3 & Q4 & Q5 & Q6 & _).
  exists F, Ar, V. auto 10.
Qed.

Theorem petrosian_of_image A re n e rt eta eps : 0 < A -> 0 < re -> 0 < n -> 0 <= e < 1 -> 0 < rt ->
  petrosian_profile (Fin rt) (Fin re) (Fin n) = Fin eta -> 0 < eps ->
  exists d, 0 < d /\ forall rs, (2 < length rs)%nat -> increasing rs -> 0 < at_ rs 0 -> fine d (0 :: rs) -> rt + eps <= last_of rs ->
  exists K0, forall K dblquad X Y t size flag factor center nx ny x0 y0 m k mk s,
    K0 <= K -> integrates dblquad ->
    size_means size flag nx ny -> origin_is center nx ny x0 y0 -> (0 <= nx)%Z -> (0 <= ny)%Z -> (0 < factor)%Z ->
    rendered dblquad (fun x y => gen_sersic2d x y (Fin A) (Fin (K * re)) (Fin n) (Fin X) (Fin Y) (Fin e) (Fin t) (Fin 0)) size flag factor center m ->
    on_image (X - x0) (Y - y0) (K * last_of rs) (K * last_of rs * (1 - e)) t (Z.to_nat ny) (Z.to_nat nx) ->
    s_eta s = Fin eta ->
    (forall q, s_kind s = Some q -> no_overshoot (mk q) /\ last_of rs < d * INR (s_num s - 1)) ->
    exists F Ar o a,
      radial_photometry exact_overlap k m (Fin (X - x0), Fin (Y - y0)) (map Fin (map (Rmult K) rs)) None None (Fin (/ (1 - e))) (Fin t)
        = Ok (map Fin F, map Fin Ar, map (fun _ => NaN) (map (Rmult K) rs)) /\
      Petrosian_new (plain (map (Rmult K) rs) Ar F) s = Ok o /\
      read mk o A_r_petrosian = Ok (VNum (Fin a)) /\ Rabs (a / K - rt) < eps.
Proof.
  intros HA Hre Hn He Hrt Ht Heps. rewrite petro_fin in Ht by auto. injection Ht as <-.
  set (eps' := Rmin eps rt). assert (0 < eps') by (unfold eps'; apply Rmin_glb_lt; auto).
  assert (eps' <= eps) by apply Rmin_l. assert (eps' <= rt) by apply Rmin_r.
  destruct (suitable A re n HA Hre Hn rt eps' Hrt ltac:(lra)) as (h & d & tau & Su).
  assert (Hd : 0 < d) by apply Su. assert (Htau : 0 < tau) by apply Su.
  exists d. split; auto. intros rs Len I P0 Fi La.
  destruct (image_data A re n e tau 1 rs) as (K0 & HK0 & ID); auto; try lra.
  exists K0. intros K dblquad X Y t size flag factor center nx ny x0 y0 m k mk s HK HI Hs Ho Nx Ny Hf Hm On Es HS.
  assert (HKp : 0 < K) by lra.
  destruct (ID K X Y t x0 y0 m k s HK) as (F & Ar & V & E & LF & EN & LV & HV & _).
  { exists dblquad, size, flag, factor, center, nx, ny. repeat (split; [assumption|]). assumption. }
  assert (HKre : 0 < K * re) by (apply Rmult_lt_0_compat; lra).
  assert (Llast : last_of (map (Rmult K) rs) = K * last_of rs) by (unfold last_of; now rewrite map_length, at_scale).
  destruct (petro_near A (K * re) n e HA HKre Hn (proj2 He) (K * rt) (K * eps') (K * h) (K * d) tau mk (s_kind s) (s_num s) (map (Rmult K) rs) V)
    as (a & Ea & Ha).
  - apply Rmult_lt_0_compat; lra.
  - apply Rmult_le_compat_l; lra.
  - apply suits_scale; auto; lra.
  - now rewrite map_length.
  - intros i Hi. rewrite map_length in Hi. rewrite !at_scale. apply Rmult_lt_compat_l; [lra|]. now apply I.
  - rewrite at_scale. apply Rmult_lt_0_compat; lra.
  - intros i Hi. cbn [length] in Hi. rewrite map_length in Hi. pose proof (Fi i ltac:(cbn [length]; lia)) as Fi'.
    replace (0 :: map (Rmult K) rs) with (map (Rmult K) (0 :: rs)) by (cbn [map]; now rewrite Rmult_0_r). rewrite !at_scale.
    rewrite <- Rmult_minus_distr_l. apply Rmult_lt_compat_l; lra.
  - rewrite Llast, <- Rmult_plus_distr_l. apply Rmult_le_compat_l; lra.
  - now rewrite map_length.
  - intros i Hi. rewrite map_length in Hi. rewrite !at_scale. now apply HV.
  - intros q Eq. destruct (HS q Eq) as [Q1 Q2]. split; auto. rewrite Llast. rewrite Rmult_assoc. apply Rmult_lt_compat_l; lra.
  - rewrite prof_scale in Ea by lra.
    exists F, Ar. eexists. exists a. split; [exact E|]. split; [exact EN|]. split.
    + cbn [read]. unfold num, obj_r_petrosian, obj_petro_r. cbn [p_data p_set p_list p_err d_r plain].
      unfold profR in Ea. rewrite Es, Ea. reflexivity.
    + replace (a / K - rt) with ((a - K * rt) / K) by (field; lra). unfold Rdiv. rewrite Rabs_mult, (Rabs_pos_eq (/ K)) by (left; apply Rinv_0_lt_compat; lra).
      apply Rlt_le_trans with (K * eps' * / K); [apply Rmult_lt_compat_r; auto; apply Rinv_0_lt_compat; lra|].
      replace (K * eps' * / K) with eps' by (field; lra). lra.
Qed.
