(** Radii of a growing curve found along chords in double precision. *)
From Coq Require Import SpecFloat ZArith Reals Lra Lia.
From Flocq Require Import Core BinarySingleNaN Relative.
From Verif Require Import Base Num Numpy M_Utils M_Petrosian M_Interp M_Kinds S_Petrosian L_Petrosian L_PetroR S_Kinds S_Double S_Sums S_Grid L_Double L_Double2 L_Double3 L_Double4 L_Grid L_Grid2 L_Grid3.
From Verif Require L_Conv2.
Local Open Scope R_scope.

Definition short (m v y : R) : Prop := y < v + m.

Lemma pow1000 : bpow radix2 1000 = 2 ^ 1000.
Proof. rewrite bpow_powerRZ. change (powerRZ (IZR radix2) 1000) with (2 ^ Pos.to_nat 1000). f_equal. Qed.
Lemma chord_bound X Y M : increasing X -> length Y = length X -> Forall (fun y => Rabs y <= M) Y -> forall t y, chord_value X Y t y -> Rabs y <= M.
Proof.
  intros Inc LXY BM t y (i & I1 & I2 & I3). assert (L : at_ X i < at_ X (S i)) by (apply Inc; lia).
  assert (B1 : Rabs (at_ Y i) <= M) by (rewrite Forall_forall in BM; apply BM; unfold at_; apply nth_In; lia).
  assert (B2 : Rabs (at_ Y (S i)) <= M) by (rewrite Forall_forall in BM; apply BM; unfold at_; apply nth_In; lia).
  apply abs_both in B1. apply abs_both in B2. apply Rabs_le. split; apply Rmult_le_reg_r with (at_ X (S i) - at_ X i); try lra; nra.
Qed.

Section Search.
  Variables (X Y : list R) (s M D h : R) (gx gy : list f64) (v : f64) (n : nat).
  Hypotheses (Inc : increasing X) (Slope : forall i, (S i < length X)%nat -> Rabs (at_ Y (S i) - at_ Y i) <= s * (at_ X (S i) - at_ X i))
    (Sp : 0 <= s) (Ln : (2 <= n)%nat) (G2 : length gx = n) (G3 : length gy = n) (G4 : Forall double gx) (G5 : Forall double gy)
    (G6 : increasing (map dval gx)) (G7 : at_ (map dval gx) 0 = at_ X 0) (G8 : at_ (map dval gx) (n - 1) = end_of X)
    (Hstep : forall i, (S i < n)%nat -> at_ (map dval gx) (S i) - at_ (map dval gx) i <= h)
    (G10 : forall i, (i < n)%nat -> exists y, chord_value X Y (at_ (map dval gx) i) y /\ Rabs (at_ (map dval gy) i - y) <= D)
    (YB : forall t y, chord_value X Y t y -> Rabs y <= M) (Dv : double v) (Bv : Rabs (dval v) <= bpow radix2 1000) (MD : M + D <= bpow radix2 1000).
  Let GX := map dval gx.
  Let GY := map dval gy.
  Lemma LX : length GX = n. Proof. unfold GX. now rewrite map_length. Qed.
  Lemma LY : length GY = n. Proof. unfold GY. now rewrite map_length. Qed.
  Lemma below c : (c < n)%nat -> (0 < c)%nat -> (forall j, (j < c)%nat -> at_ GY j < dval v) -> forall t y, at_ X 0 <= t <= at_ GX c -> chord_value X Y t y -> short (s * h + D) (dval v) y.
  Proof.
    intros Hc c0 Hj t y Ht Cy. pose proof LX as LX.
    destruct (L_Conv2.find_step GX t) as (i & I1 & I2); [lia| |].
    { unfold GX at 1. rewrite G7. unfold S_Conv.last_of. rewrite LX. split; [lra|]. assert (at_ GX c <= at_ GX (n - 1)); [|lra].
      destruct (Nat.eq_dec c (n - 1)) as [->|N]; [lra|]. apply Rlt_le, inc_lt; auto; lia. }
    rewrite LX in I1. assert (exists j, (j < c)%nat /\ at_ GX j <= t <= at_ GX (S j)) as (j & J1 & J2).
    { destruct (Nat.lt_ge_cases i c) as [L|L]; [eauto|]. exists (c - 1)%nat. replace (S (c - 1)) with c by lia.
      assert (at_ GX c <= at_ GX i). { destruct (Nat.eq_dec c i) as [->|N]; [lra|]. apply Rlt_le, inc_lt; auto; lia. }
      assert (at_ GX (c - 1) < at_ GX c) by (apply inc_lt; auto; lia). split; [lia|]. lra. }
    destruct (G10 j ltac:(lia)) as (yj & Cj & Bj). pose proof (chord_le X Y s Inc Slope (at_ GX j) t yj y ltac:(lra) Cj Cy) as Q. specialize (Hj j J1).
    apply abs_both in Bj. apply abs_both in Q. specialize (Hstep j ltac:(lia)). fold GX in Hstep. fold GX GY in Bj. assert (s * (t - at_ GX j) <= s * h) by (apply Rmult_le_compat_l; lra). unfold short. lra.
  Qed.
  Lemma gy_small x : In x gy -> Rabs (dval x) <= bpow radix2 1000.
  Proof.
    intros Hx. apply (In_nth _ _ dz) in Hx. destruct Hx as (i & Hi & <-). assert (Hi' : (i < n)%nat) by (rewrite <- G3; exact Hi). destruct (G10 i Hi') as (y & Cy & By). rewrite dval_at in By.
    specialize (YB _ _ Cy). apply abs_both in By. apply abs_both in YB. change (Rabs (dval (@nth f64 i gy dz)) <= bpow radix2 1000). apply Rabs_le. lra.
  Qed.
  Lemma search_growing : exists x, pick gx (closest_value_index v gy true) = Ok x /\
    (x = nnan /\ (forall t y, at_ X 0 <= t <= end_of X -> chord_value X Y t y -> short (s * h + D) (dval v) y) \/
     double x /\ at_ X 0 <= dval x <= end_of X /\ exists y, chord_value X Y (dval x) y /\
       (dval x = at_ X 0 /\ dval v - D <= y \/
        Rabs (y - dval v) <= s * h + 3 * D + 3 * u64 * (2 * (M + D)) /\ forall t y', at_ X 0 <= t <= dval x -> chord_value X Y t y' -> short (s * h + D) (dval v) y')).
  Proof.
    pose proof u64_val as U. pose proof LX as LX. pose proof LY as LY. destruct (closest_value_index v gy true) as [i|] eqn:E.
    - destruct (search_some v gy true Dv G5 Bv gy_small i E) as (c & (C1 & C2 & C3) & Hic & Hnear & _). fold GY in C1, C2, C3, Hnear. rewrite LY in C1. unfold past in C2, C3.
      change (nth c GY 0) with (at_ GY c) in C2. assert (C3' : forall j, (j < c)%nat -> at_ GY j < dval v) by (intros j Hj; specialize (C3 j Hj); apply Rnot_le_lt; exact C3).
      assert (Hi : (i < n)%nat) by lia. exists (nth i gx dz). split.
      { cbn [pick]. unfold index. assert (Ne : nth_error gx i = Some (nth i gx dz)) by (apply nth_error_nth'; rewrite G2; exact Hi). rewrite Ne. reflexivity. }
      right. split; [rewrite Forall_forall in G4; apply G4, nth_In; rewrite G2; exact Hi|]. rewrite <- dval_at. fold GX.
      assert (Rg : at_ X 0 <= at_ GX i <= end_of X).
      { split; [destruct i; [unfold GX; lra|rewrite <- G7; apply Rlt_le, inc_lt; auto; fold GX; lia]|]. destruct (Nat.eq_dec i (n - 1)) as [->|N]; [unfold GX; lra|]. rewrite <- G8. apply Rlt_le, inc_lt; auto; fold GX; lia. }
      split; auto. destruct (G10 i Hi) as (yi & Ci & Bi). exists yi. split; auto. destruct (Nat.eq_dec c 0) as [E0|c0].
      + left. assert (i = 0%nat) by lia. subst c i. split; [exact G7|]. apply abs_both in Bi. fold GY in Bi. lra.
      + right. destruct (G10 c C1) as (yc & Cc & Bc). destruct (G10 (c - 1)%nat ltac:(lia)) as (yd & Cd & Bd).
        specialize (Hnear c (le_n c)). specialize (C3' (c - 1)%nat ltac:(lia)) as C4. pose proof (Hstep (c - 1)%nat ltac:(lia)) as St. replace (S (c - 1)) with c in St by lia.
        assert (St0 : at_ GX (c - 1) < at_ GX c) by (apply inc_lt; auto; lia). fold GX GY in St, Bc, Bd, Bi, Cc, Cd.
        pose proof (chord_le X Y s Inc Slope (at_ GX (c - 1)) (at_ GX c) yd yc ltac:(lra) Cd Cc) as Q. assert (Sh : s * (at_ GX c - at_ GX (c - 1)) <= s * h) by (apply Rmult_le_compat_l; lra).
        pose proof (YB _ _ Cc) as Yc. pose proof (YB _ _ Cd) as Yd. apply abs_both in Bi. apply abs_both in Bc. apply abs_both in Bd. apply abs_both in Q. apply abs_both in Yc. apply abs_both in Yd.
        assert (Ab : Rabs (at_ GY c - dval v) = at_ GY c - dval v) by (apply Rabs_pos_eq; lra). rewrite Ab in Hnear. 
        assert (D3 : 3 * u64 * (at_ GY c - dval v) <= 3 * u64 * (2 * (M + D))) by (apply Rmult_le_compat_l; lra).
        split; [apply abs_both in Hnear; apply Rabs_le; lra|]. intros t y Ht Cy. apply (below c C1) with (t := t); auto; [lia|]. split; [lra|].
        assert (at_ GX i <= at_ GX c); [|lra]. destruct (Nat.eq_dec i c) as [->|N]; [lra|]. apply Rlt_le, inc_lt; auto; lia.
    - exists nnan. split; [reflexivity|]. left. split; auto. intros t y Ht Cy.
      assert (All : forall j, (j < n)%nat -> at_ GY j < dval v).
      { intros j Hj. apply Rnot_le_lt. unfold GY. rewrite dval_at. apply (proj1 (search_none v gy true Dv G5 gy_small) E). apply nth_In. rewrite G3. exact Hj. }
      apply (below (n - 1)%nat ltac:(lia)) with (t := t); auto; [lia|intros j Hj; apply All; lia|]. unfold GX. rewrite G8. lra.
  Qed.
End Search.

Lemma rnd_any x : Rabs (rnd x - x) <= u64 * Rabs x + bpow radix2 (-1000).
Proof.
  destruct (error_N_FLT radix2 (-1074) 53 eq_refl (fun z => negb (Z.even z)) x) as (a & b & A & B & _ & E).
  change (rnd x = x * (1 + a) + b) in E. rewrite E. replace (x * (1 + a) + b - x) with (x * a + b) by ring.
  eapply Rle_trans; [apply Rabs_triang|]. rewrite Rabs_mult. apply Rplus_le_compat.
  - rewrite Rmult_comm. apply Rmult_le_compat_r; [apply Rabs_pos|]. rewrite <- u64_half. exact A.
  - eapply Rle_trans; [exact B|]. assert (bpow radix2 (-1074) <= bpow radix2 (-1000)) by (apply bpow_le; lia). pose proof (bpow_gt_0 radix2 (-1074)). lra.
Qed.
Lemma pow200 : bpow radix2 200 = 2 ^ 200.
Proof. rewrite bpow_powerRZ. change (powerRZ (IZR radix2) 200) with (2 ^ Pos.to_nat 200). f_equal. Qed.
Lemma pow_200 : bpow radix2 (-200) = / 2 ^ 200.
Proof. rewrite <- pow200. exact (bpow_opp radix2 200). Qed.

Section Fraction.
  Variables (other : kind -> list f64 -> list f64 -> result (f64 -> f64)) (k : kind) (xs ys : list f64) (num : nat) (M s : R) (rp ep f fe : f64).
  Let X := map dval xs.
  Let Y := map dval ys.
  Let n := Nat.max num (length xs).
  Let R1 := end_of X.
  Let P := dval rp * dval ep.
  Let ratio := dval f / dval fe.
  Hypotheses (Hk : chordal k) (Len : length ys = length xs) (Two : (2 <= length xs)%nat) (Dx : Forall double xs) (Dy : Forall double ys)
    (Fx : Forall fair X) (Fy : Forall fair Y) (BY : Forall (fun y => Rabs y <= M) Y) (Inc : increasing X) (Pos : 0 <= at_ X 0)
    (Wide : / 2 ^ 100 <= end_of X - at_ X 0) (Few : (Z.of_nat n <= 2 ^ 50)%Z) (Res : resolved u64 (at_ X 0) (end_of X) n)
    (Slope : forall i, (S i < length X)%nat -> Rabs (at_ Y (S i) - at_ Y i) <= s * (at_ X (S i) - at_ X i))
    (MB : / 2 ^ 200 <= M <= 2 ^ 200) (Dr : double rp) (De : double ep) (Df : double f) (Dfe : double fe)
    (MP : moderate P) (InP : at_ X 0 <= P <= R1) (Mf : moderate (dval f)) (Mfe : moderate (dval fe)) (Rt : 0 < ratio <= 1).

  Lemma eps_point : double (nmul rp ep) /\ fair (dval (nmul rp ep)) /\ at_ X 0 <= dval (nmul rp ep) <= R1 /\ Rabs (dval (nmul rp ep) - P) <= u64 * R1.
  Proof.
    pose proof u64_val as U. pose proof (moderate_sized _ MP) as SP. assert (Lx : length X = length xs) by (unfold X; apply map_length).
    destruct (d_mul rp ep Dr De) as [A B]; [fold P; apply (sized_small 200); auto; lia|]. fold P in B. split; auto.
    pose proof (sized_rnd 200 P ltac:(lia) SP) as SR. split; [|split].
    - right. unfold moderate. rewrite <- pow_200, <- pow200, B. exact SR.
    - assert (F0 : generic_format radix2 fexp64 (at_ X 0)). { unfold X. rewrite dval_at. apply double_format. rewrite Forall_forall in Dx. apply Dx, nth_In. lia. }
      assert (F1 : generic_format radix2 fexp64 R1). { unfold R1, end_of. rewrite Lx. unfold X. rewrite dval_at. apply double_format. rewrite Forall_forall in Dx. apply Dx, nth_In. lia. }
      rewrite B. split; [rewrite <- (rnd_id _ F0); apply rnd_mono; lra|rewrite <- (rnd_id _ F1); apply rnd_mono; lra].
    - destruct (sized_rel 200 P ltac:(lia) SP) as (d & Hd & E). rewrite B, E. replace (P * (1 + d) - P) with (d * P) by ring. rewrite Rabs_mult.
      apply Rmult_le_compat; try apply Rabs_pos; auto. rewrite Rabs_pos_eq; lra.
  Qed.
  Lemma at_point q : double q -> fair (dval q) -> at_ X 0 <= dval q <= R1 ->
    double (linear_at xs ys q) /\ exists y, chord_value X Y (dval q) y /\ Rabs (dval (linear_at xs ys q) - y) <= 14 * u64 * M.
  Proof.
    intros Dq Fq Iq. assert (Lx : length X = length xs) by (unfold X; apply map_length).
    destruct (line_at_double xs ys q M) as [A1 A2]; auto.
    - rewrite Forall_forall in Fx |- *. intros x Hx. apply Fx. unfold X. now apply in_map.
    - rewrite Forall_forall in Fy, BY |- *. intros y Hy. split; [apply Fy|apply BY]; unfold Y; now apply in_map.
    - fold X. unfold R1, end_of in Iq. rewrite Lx in Iq. exact Iq.
    - split; auto. destruct (L_Conv2.find_step X (dval q)) as (j & J1 & J2); [lia|exact Iq|]. rewrite Lx in J1. specialize (A2 j J1 J2).
      eexists. split; [|exact A2]. exists j. split; [now rewrite Lx|]. split; auto. fold X Y. assert (at_ X j < at_ X (S j)) by (apply Inc; lia). field. lra.
  Qed.
  Lemma chord_at t : at_ X 0 <= t <= R1 -> exists y, chord_value X Y t y.
  Proof.
    intros It. assert (Lx : length X = length xs) by (unfold X; apply map_length).
    destruct (L_Conv2.find_step X t) as (j & J1 & J2); [lia|exact It|].
    exists (at_ Y j + (t - at_ X j) / (at_ X (S j) - at_ X j) * (at_ Y (S j) - at_ Y j)). exists j. split; auto. split; auto.
    assert (at_ X j < at_ X (S j)) by (apply Inc; lia). field. lra.
  Qed.
  Lemma chord_near a b ya yb : chord_value X Y a ya -> chord_value X Y b yb -> Rabs (yb - ya) <= s * Rabs (b - a).
  Proof.
    intros A B. destruct (Rle_lt_dec a b) as [L|L].
    - rewrite (Rabs_pos_eq (b - a)) by lra. exact (chord_le X Y s Inc Slope a b ya yb L A B).
    - rewrite Rabs_minus_sym, (Rabs_minus_sym b a), (Rabs_pos_eq (a - b)) by lra. apply (chord_le X Y s Inc Slope b a yb ya); auto. lra.
  Qed.

  Lemma grid_fair (GX : list R) i : length GX = n -> increasing GX -> at_ GX 0 = at_ X 0 -> at_ GX (n - 1) = end_of X ->
    (forall i, (i < n)%nat -> Rabs (at_ GX i - even_point (at_ X 0) (end_of X) n i) <= 5 * u64 * end_of X) -> (i < n)%nat -> fair (at_ GX i).
  Proof.
    intros L I A0 A1 Ev Hi. assert (Lx : length X = length xs) by (unfold X; apply map_length). pose proof u64_val as U. destruct i as [|i].
    - rewrite A0. rewrite Forall_forall in Fx. apply Fx. unfold at_. apply nth_In. lia.
    - right. assert (Ln : (2 <= n)%nat) by (unfold n; lia). assert (N0 : 0 < INR (n - 1)) by (apply (lt_INR 0); lia).
      assert (W0 : 0 < / 2 ^ 100) by (apply Rinv_0_lt_compat, pow_lt; lra).
      assert (St : / 2 ^ 150 <= (end_of X - at_ X 0) / INR (n - 1)).
      { assert (N1 : INR (n - 1) <= 2 ^ 50).
        { rewrite INR_IZR_INZ. replace (2 ^ 50) with (IZR (2 ^ 50)) by (symmetry; exact (pow_IZR 2 50)). apply IZR_le. lia. }
        replace (/ 2 ^ 150) with (/ 2 ^ 100 * / 2 ^ 50) by (rewrite <- Rinv_mult, <- pow_add; reflexivity). unfold Rdiv. apply Rmult_le_compat; auto; try lra.
        apply Rinv_le_contravar; auto. }
      pose proof (Ev 1%nat ltac:(lia)) as E1. apply abs_both in E1. unfold even_point in E1. change (INR 1) with 1 in E1. unfold resolved in Res.
      assert (Ge : at_ GX 1 <= at_ GX (S i)). { destruct i as [|i]; [lra|]. apply Rlt_le, L_Petrosian.inc_lt; auto; lia. }
      assert (Le : at_ GX (S i) <= end_of X). { rewrite <- A1. destruct (Nat.eq_dec (S i) (n - 1)) as [->|N]; [lra|]. apply Rlt_le, L_Petrosian.inc_lt; auto; lia. }
      assert (Fe : Rabs (end_of X) <= bpow radix2 200). { apply fairk_abs, fair_k. rewrite Forall_forall in Fx. apply Fx. unfold end_of, at_. apply nth_In. lia. }
      assert (Sm : / 2 ^ 200 <= / 2 ^ 150 / 2).
      { assert (P0 : 0 < 2 ^ 150) by (apply pow_lt; lra). replace (/ 2 ^ 150 / 2) with (/ (2 ^ 150 * 2)) by (field; lra). apply Rinv_le_contravar; [lra|]. replace (2 ^ 150 * 2) with (2 ^ 151) by (simpl; ring). apply Rle_pow; [lra|lia]. }
      unfold moderate. rewrite pow200 in Fe. assert (0 < / 2 ^ 200) by (apply Rinv_0_lt_compat, pow_lt; lra). apply abs_both in Fe. rewrite Rabs_pos_eq by lra. lra.
  Qed.
  Lemma frac_fair : let h := (R1 - at_ X 0) / INR (n - 1) + 11 * u64 * R1 in
    exists x yp, fraction_to_r (mk_scipy other) f xs ys rp None None ep fe (Some k) num = Ok (x, nnan) /\ chord_value X Y P yp /\
    let v := ratio * yp in
    (x = nnan /\ (forall t y, at_ X 0 <= t <= R1 -> chord_value X Y t y -> y < v + s * h + 35 * u64 * M) \/
     double x /\ fair (dval x) /\ at_ X 0 <= dval x <= R1 /\ exists y, chord_value X Y (dval x) y /\
       (dval x = at_ X 0 /\ v - s * h - 35 * u64 * M <= y \/
        Rabs (y - v) <= s * h + 70 * u64 * M /\ forall t y', at_ X 0 <= t <= dval x -> chord_value X Y t y' -> y' < v + s * h + 35 * u64 * M)).
  Proof.
    intros h. pose proof u64_val as U. assert (Lx : length X = length xs) by (unfold X; apply map_length). assert (Ly : length Y = length X) by (unfold X, Y; rewrite !map_length; exact Len).
    assert (Ln : (2 <= n)%nat) by (unfold n; lia).
    destruct (resampled other k xs ys num M) as (gx & gy & G1 & G2 & G3 & G4 & G5 & G6 & G7 & G8 & G9 & G10); auto. fold X Y n in G2, G3, G7, G8, G9, G10. fold R1 in G8, G9.
    destruct eps_point as (E1 & E2 & E3 & E4). set (e := nmul rp ep) in *. destruct (at_point e E1 E2 E3) as (A1 & ye & A2 & A3). destruct (chord_at P InP) as (yp & Cp).
    pose proof (chord_near _ _ _ _ Cp A2) as Near. pose proof (chord_bound X Y M Inc Ly BY) as YB. pose proof (YB _ _ Cp) as Bp. pose proof (YB _ _ A2) as Be.
    set (w := linear_at xs ys e) in *.
    assert (Sp : 0 <= s). { assert (L : at_ X 0 < at_ X 1) by (apply Inc; lia). specialize (Slope 0%nat ltac:(lia)). pose proof (Rabs_pos (at_ Y 1 - at_ Y 0)). apply Rmult_le_reg_r with (at_ X 1 - at_ X 0); lra. }
    assert (Nm : Rabs (ye - yp) <= s * (u64 * R1)) by (eapply Rle_trans; [exact Near|apply Rmult_le_compat_l; auto]).
    destruct (dd_div 200 200 f fe) as (Q1 & Q2 & dq & Q3 & Q4); auto using moderate_sized; try lia. fold ratio in Q4. set (q := ndiv f fe) in *.
    assert (W0 : 0 < / 2 ^ 200) by (apply Rinv_0_lt_compat, pow_lt; lra). set (uM := u64 * M). assert (um : 0 <= uM <= M / 1000) by (unfold uM; split; [apply Rmult_le_pos; lra|apply Rle_trans with (/ 9007199254740992 * M); [apply Rmult_le_compat_r; lra|lra]]).
    assert (P2 : bpow radix2 200 = 2 ^ 200) by exact pow200. assert (Big : 2 ^ 200 * 16 <= bpow radix2 1000).
    { rewrite <- P2. change 16 with (bpow radix2 4). rewrite <- bpow_plus. apply bpow_le. lia. }
    assert (Tiny : bpow radix2 (-1000) <= uM). { unfold uM. apply Rle_trans with (bpow radix2 (-53) * bpow radix2 (-200)); [rewrite <- bpow_plus; apply bpow_le; lia|]. rewrite <- u64_bpow, pow_200. apply Rmult_le_compat_l; lra. }
    replace (14 * u64 * M) with (14 * uM) in * by (unfold uM; ring). apply abs_both in A3. apply abs_both in Be. apply abs_both in Q3. apply abs_both in Bp. 
    assert (Bw : Rabs (dval w) <= 3 / 2 * M) by (apply Rabs_le; lra). assert (Bq : 0 < dval q <= 1 + u64).
    { rewrite Q4. split; [apply Rmult_lt_0_compat; lra|]. apply Rle_trans with (1 * (1 + dq)); [apply Rmult_le_compat_r; lra|lra]. }
    assert (Bwq : Rabs (dval w * dval q) <= 2 * M). { rewrite Rabs_mult, (Rabs_pos_eq (dval q)) by lra. apply Rle_trans with (3 / 2 * M * (1 + u64)); [apply Rmult_le_compat; try apply Rabs_pos; lra|]. fold uM. assert (M * u64 = uM) by (unfold uM; ring). lra. }
    destruct (d_mul w q A1 Q1) as [V1 V2]. { apply rnd_small. apply Rle_trans with (bpow radix2 1000); [lra|apply bpow_le; lia]. }
    set (z := nmul w q) in *. pose proof (rnd_any (dval w * dval q)) as RA. rewrite <- V2 in RA. set (wq := dval w * dval q) in *.
    assert (RA' : Rabs (dval z - wq) <= 3 * uM). { eapply Rle_trans; [exact RA|]. assert (u64 * Rabs wq <= u64 * (2 * M)) by (apply Rmult_le_compat_l; lra). unfold uM in *. lra. }
    assert (Vz : Rabs (dval z - ratio * yp) <= s * (u64 * R1) + 20 * uM).
    { replace (dval z - ratio * yp) with ((dval z - wq) + dq * (ratio * dval w) + ratio * (dval w - ye) + ratio * (ye - yp)) by (unfold wq; rewrite Q4; ring).
      assert (T1 : Rabs (dq * (ratio * dval w)) <= u64 * (3 / 2 * M)). { rewrite Rabs_mult. apply Rmult_le_compat; try apply Rabs_pos; [apply Rabs_le; lra|]. rewrite Rabs_mult, (Rabs_pos_eq ratio) by lra. rewrite <- (Rmult_1_l (3 / 2 * M)). apply Rmult_le_compat; try apply Rabs_pos; lra. }
      assert (T2 : Rabs (ratio * (dval w - ye)) <= 1 * (14 * uM)). { rewrite Rabs_mult, (Rabs_pos_eq ratio) by lra. apply Rmult_le_compat; try apply Rabs_pos; try lra. apply Rabs_le. lra. }
      assert (T3 : Rabs (ratio * (ye - yp)) <= 1 * (s * (u64 * R1))). { rewrite Rabs_mult, (Rabs_pos_eq ratio) by lra. apply Rmult_le_compat; try apply Rabs_pos; lra. }
      replace (u64 * (3 / 2 * M)) with (3 / 2 * uM) in T1 by (unfold uM; ring). apply abs_both in RA'. apply abs_both in T1. apply abs_both in T2. apply abs_both in T3. apply Rabs_le. lra. }
    set (h0 := (R1 - at_ X 0) / INR (n - 1) + 10 * u64 * R1). assert (Eh : s * h = s * h0 + s * (u64 * R1)) by (unfold h, h0; ring).
    destruct (search_growing X Y s M (14 * uM) h0 gx gy z n) as (x & S1 & S2); auto.
    { intros i Hi. pose proof (G9 i ltac:(lia)) as B1. pose proof (G9 (S i) Hi) as B2. apply abs_both in B1. apply abs_both in B2. unfold even_point in B1, B2. rewrite S_INR in B2. unfold h0. lra. }
    { assert (Rabs (dval z) <= 3 * M); [|lra]. apply abs_both in RA'. apply abs_both in Bwq. apply Rabs_le. lra. } { lra. }
    assert (FX : x = nnan \/ fair (dval x)).
    { destruct (closest_value_index z gy true) as [i|]; cbn [pick] in S1; [|left; congruence]. right. unfold index in S1. destruct (nth_error gx i) as [x'|] eqn:Ei; [|discriminate]. injection S1 as ->.
      assert (Hi : (i < n)%nat) by (rewrite <- G2; apply nth_error_Some; rewrite Ei; discriminate).
      assert (Vi : at_ (map dval gx) i = dval x) by (rewrite dval_at; f_equal; apply nth_error_nth; exact Ei). rewrite <- Vi. apply (grid_fair (map dval gx)); auto. rewrite map_length. exact G2. }
    exists x, yp. split.
    { unfold fraction_to_r. fold e.
      assert (Ex : exists x0 xt, xs = x0 :: xt) by (clear - Two; destruct xs as [|x0 xt]; [cbn in Two; lia|eauto]). destruct Ex as (x0 & xt & Exs).
      assert (Mn : pymin xs = Ok x0). { rewrite Exs. cbn [pymin]. f_equal. apply low_end; rewrite <- Exs; auto. }
      assert (Mx : pymax xs = Ok (last xs n0)). { rewrite Exs. cbn [pymax]. f_equal. apply high_end; rewrite <- Exs; auto. }
      assert (Vh : dval (last xs n0) = R1). { unfold R1, end_of. rewrite Lx. unfold X. rewrite dval_at. f_equal. apply last_nth. lia. }
      assert (Dh : double (last xs n0)). { rewrite Forall_forall in Dx. apply Dx. rewrite last_nth by lia. apply nth_In. lia. }
      assert (V0 : dval x0 = at_ X 0) by (unfold X; rewrite Exs; reflexivity). assert (D0 : double x0) by (rewrite Exs in Dx; now inversion Dx).
      assert (Mk : mk_scipy other k xs ys = Ok (linear_at xs ys)).
      { unfold mk_scipy. rewrite Len, Nat.eqb_refl. destruct Hk as [->|[->| ->]]; auto; (destruct (Nat.ltb_spec (length xs) 2); [lia|reflexivity]). }
      rewrite Mx. cbn [bind]. rewrite d_ltb by auto. rewrite Vh, Rltb_false by lra. unfold interp1d. rewrite Mk, Mn, Mx. cbn [bind].
      rewrite !d_ltb by auto. rewrite V0, Vh, !Rltb_false by lra. cbn [orb bind]. unfold fdiv.
      destruct (ofZ_double 0 ltac:(lia)) as [Z1 Z2]. change (f64_ofZ 0) with (n0 : f64) in Z1, Z2. rewrite d_eqb by auto. rewrite Z2.
      rewrite Reqb_false by (apply (sized_nz 200), moderate_sized, Mfe). cbn [bind]. rewrite G1. cbn [bind fst snd]. fold w q z. rewrite S1. reflexivity. }
    split; auto. cbv zeta. set (v := ratio * yp) in *. apply abs_both in Vz. replace (35 * u64 * M) with (35 * uM) by (unfold uM; ring). replace (70 * u64 * M) with (70 * uM) by (unfold uM; ring).
    assert (T : 3 * u64 * (2 * (M + 14 * uM)) <= 7 * uM). { assert (E : 3 * u64 * (2 * (M + 14 * uM)) = 6 * uM + 84 * (u64 * uM)) by (unfold uM; ring). rewrite E. assert (u64 * uM <= / 100 * uM) by (apply Rmult_le_compat_r; lra). lra. }
    unfold short in S2. destruct S2 as [[Nx B]|(Dxx & Ix & y & Cy & S2)].
    - left. split; auto. intros t y It Ct. specialize (B t y It Ct). lra.
    - right. split; auto. split; [destruct FX as [->|FX]; [destruct Dxx as [_ []]|exact FX]|]. split; auto. exists y. split; auto. destruct S2 as [[Q B]|[Q B]].
      + left. split; auto. assert (0 <= s * h0); [|lra]. apply Rmult_le_pos; auto. unfold h0. assert (0 < INR (n - 1)) by (apply (lt_INR 0); lia).
        assert (0 <= (R1 - at_ X 0) / INR (n - 1)) by (apply Rmult_le_pos; [lra|apply Rlt_le, Rinv_0_lt_compat; auto]). assert (0 <= 10 * u64 * R1) by (apply Rmult_le_pos; lra). lra.
      + right. split; [apply abs_both in Q; apply Rabs_le; lra|]. intros t y' It Ct. specialize (B t y' It Ct). lra.
  Qed.
  Lemma frac_chords : let h := (R1 - at_ X 0) / INR (n - 1) + 11 * u64 * R1 in
    exists x yp, fraction_to_r (mk_scipy other) f xs ys rp None None ep fe (Some k) num = Ok (x, nnan) /\ chord_value X Y P yp /\
    let v := ratio * yp in
    (x = nnan /\ (forall t y, at_ X 0 <= t <= R1 -> chord_value X Y t y -> y < v + s * h + 35 * u64 * M) \/
     double x /\ at_ X 0 <= dval x <= R1 /\ exists y, chord_value X Y (dval x) y /\
       (dval x = at_ X 0 /\ v - s * h - 35 * u64 * M <= y \/
        Rabs (y - v) <= s * h + 70 * u64 * M /\ forall t y', at_ X 0 <= t <= dval x -> chord_value X Y t y' -> y' < v + s * h + 35 * u64 * M)).
  Proof.
    intros h. destruct frac_fair as (x & yp & H1 & H2 & H3). exists x, yp. split; auto. split; auto. cbv zeta in H3 |- *. destruct H3 as [H3|(A & _ & B & C)]; auto.
  Qed.
End Fraction.

Lemma frac_missing (mk : kind -> list f64 -> list f64 -> result (f64 -> f64)) (xs ys : list f64) (rp ep f fe : f64) err rerr k num :
  let X := map dval xs in let P := dval rp * dval ep in
  (1 <= length xs)%nat -> Forall double xs -> increasing X -> 0 <= at_ X 0 -> double rp -> double ep -> moderate P -> (1 + 2 * u64) * end_of X < P ->
  fraction_to_r mk f xs ys rp err rerr ep fe k num = Ok (nnan, nnan).
Proof.
  intros X P One Dx Inc X0 Dr De MP Out. pose proof u64_val as U. pose proof (moderate_sized _ MP) as SP. assert (Lx : length X = length xs) by (unfold X; apply map_length).
  destruct (d_mul rp ep Dr De) as [A B]; [fold P; apply (sized_small 200); auto; lia|]. fold P in B.
  destruct (sized_rel 200 P ltac:(lia) SP) as (d & Hd & E). apply abs_both in Hd.
  assert (Ex : exists x0 xt, xs = x0 :: xt) by (clear - One; destruct xs as [|x0 xt]; [cbn in One; lia|eauto]). destruct Ex as (x0 & xt & Exs).
  assert (Mx : pymax xs = Ok (last xs n0)). { rewrite Exs. cbn [pymax]. f_equal. apply high_end; rewrite <- Exs; auto. }
  assert (Vh : dval (last xs n0) = end_of X). { unfold end_of. rewrite Lx. unfold X. rewrite dval_at. f_equal. apply last_nth. lia. }
  assert (Dh : double (last xs n0)). { rewrite Forall_forall in Dx. apply Dx. rewrite last_nth by lia. apply nth_In. lia. }
  assert (E0 : 0 <= end_of X). { unfold end_of. destruct (Nat.eq_dec (length X - 1) 0) as [->|N]; auto. apply Rle_trans with (at_ X 0); auto. apply Rlt_le, inc_lt; auto; lia. }
  unfold fraction_to_r. rewrite Mx. cbn [bind]. rewrite d_ltb by auto. rewrite Vh, B, E.
  assert (L : end_of X < P * (1 + d)); [|now rewrite Rltb_true].
  apply Rlt_le_trans with (P * (1 - u64)); [|apply Rmult_le_compat_l; [|lra]; apply Rlt_le, Rle_lt_trans with ((1 + 2 * u64) * end_of X); auto; apply Rmult_le_pos; lra].
  apply Rle_lt_trans with ((1 + 2 * u64) * end_of X * (1 - u64)); [|apply Rmult_lt_compat_r; lra].
  replace ((1 + 2 * u64) * end_of X * (1 - u64)) with (end_of X + end_of X * (u64 * (1 - 2 * u64))) by ring.
  assert (0 <= end_of X * (u64 * (1 - 2 * u64))); [|lra]. repeat apply Rmult_le_pos; lra.
Qed.
