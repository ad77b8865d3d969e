(** The Petrosian radius found along chords in double precision. *)
From Coq Require Import SpecFloat ZArith Reals Lra Lia.
From Flocq Require Import Core BinarySingleNaN.
From Verif Require Import Base Num Numpy M_Utils M_Petrosian M_Interp M_Kinds S_Petrosian L_Petrosian L_PetroR S_Kinds S_Double S_Sums S_Grid L_Double L_Double2 L_Double3 L_Double4 L_Grid L_Grid2.
From Verif Require L_Conv2.
Local Open Scope R_scope.

(** ** chords of bounded slope *)
Section Slope.
  Variables (X Y : list R) (s : R).
  Hypotheses (Inc : increasing X) (Slope : forall i, (S i < length X)%nat -> Rabs (at_ Y (S i) - at_ Y i) <= s * (at_ X (S i) - at_ X i)).
  Lemma on_piece i x y : (S i < length X)%nat -> at_ X i <= x <= at_ X (S i) -> (y - at_ Y i) * (at_ X (S i) - at_ X i) = (at_ Y (S i) - at_ Y i) * (x - at_ X i) ->
    exists m, Rabs m <= s /\ y = at_ Y i + m * (x - at_ X i) /\ at_ Y (S i) = at_ Y i + m * (at_ X (S i) - at_ X i).
  Proof.
    intros Hi Hx E. assert (L : at_ X i < at_ X (S i)) by (apply Inc; lia). exists ((at_ Y (S i) - at_ Y i) / (at_ X (S i) - at_ X i)). split; [|split].
    - unfold Rdiv. rewrite Rabs_mult, (Rabs_pos_eq (/ _)) by (apply Rlt_le, Rinv_0_lt_compat; lra).
      apply Rmult_le_reg_r with (at_ X (S i) - at_ X i); [lra|]. rewrite Rmult_assoc, Rinv_l by lra. rewrite Rmult_1_r. now apply Slope.
    - apply Rmult_eq_reg_r with (at_ X (S i) - at_ X i); [|lra]. unfold Rdiv. field_simplify; [|lra]. lra.
    - field. lra.
  Qed.
  Lemma step_le m d : Rabs m <= s -> 0 <= d -> Rabs (m * d) <= s * d.
  Proof. intros H D. rewrite Rabs_mult, (Rabs_pos_eq d) by auto. now apply Rmult_le_compat_r. Qed.
  Lemma samples_le i : forall k, (i + k < length X)%nat -> Rabs (at_ Y (i + k) - at_ Y i) <= s * (at_ X (i + k) - at_ X i).
  Proof.
    induction k as [|k IH]; intros Hk; [rewrite Nat.add_0_r, !Rminus_eq_0, Rabs_R0; lra|]. specialize (IH ltac:(lia)). replace (i + S k)%nat with (S (i + k)) in * by lia.
    specialize (Slope (i + k)%nat Hk). replace (at_ Y (S (i + k)) - at_ Y i) with ((at_ Y (S (i + k)) - at_ Y (i + k)) + (at_ Y (i + k) - at_ Y i)) by ring.
    eapply Rle_trans; [apply Rabs_triang|]. lra.
  Qed.
  Lemma chord_le a b ya yb : a <= b -> chord_value X Y a ya -> chord_value X Y b yb -> Rabs (yb - ya) <= s * (b - a).
  Proof.
    intros Hab (i & Hi & Ai & Ei) (j & Hj & Bj & Ej). destruct (on_piece i a ya Hi Ai Ei) as (m & M1 & M2 & M3). destruct (on_piece j b yb Hj Bj Ej) as (m' & N1 & N2 & N3).
    destruct (Nat.lt_total i j) as [L|[E|L]].
    - pose proof (samples_le (S i) (j - S i) ltac:(lia)) as Q. replace (S i + (j - S i))%nat with j in Q by lia.
      pose proof (step_le m (at_ X (S i) - a) M1 ltac:(lra)) as Q1. pose proof (step_le m' (b - at_ X j) N1 ltac:(lra)) as Q2.
      replace (yb - ya) with (m' * (b - at_ X j) + (at_ Y j - at_ Y (S i)) + m * (at_ X (S i) - a)) by (rewrite N2, M2, M3; ring).
      eapply Rle_trans; [apply Rabs_triang|]. pose proof (Rabs_triang (m' * (b - at_ X j)) (at_ Y j - at_ Y (S i))). lra.
    - subst j. assert (m' = m). { assert (L : at_ X i < at_ X (S i)) by (apply Inc; lia). apply Rmult_eq_reg_r with (at_ X (S i) - at_ X i); lra. } subst m'.
      replace (yb - ya) with (m * (b - a)) by (rewrite N2, M2; ring). apply step_le; auto; lra.
    - assert (E : i = S j). { destruct (Nat.eq_dec i (S j)); auto. exfalso. pose proof (inc_lt X (S j) i Inc ltac:(lia) ltac:(lia)). lra. }
      subst i. assert (Eq : a = at_ X (S j) /\ b = at_ X (S j)) by lra. destruct Eq as [Ea Eb].
      assert (Y1 : ya = at_ Y (S j)) by (rewrite M2, Ea; ring). assert (Y2 : yb = at_ Y (S j)) by (rewrite N2, N3, Eb; ring).
      rewrite Y1, Y2, Rminus_eq_0, Rabs_R0. rewrite Ea, Eb. lra.
  Qed.
End Slope.

Lemma petro_chords (other : kind -> list f64 -> list f64 -> result (f64 -> f64)) k r p0 p eta num M s :
  let X := 0 :: map dval (tl r) in let Y := 1 :: map dval p in let n := Nat.max num (length r) in let R := end_of X in
  chordal k -> length r = S (length p) -> (1 <= length p)%nat -> Forall double (tl r) -> Forall double p -> double eta ->
  Forall fair X -> Forall fair Y -> fair (dval eta) -> Forall (fun y => Rabs y <= M) Y -> increasing X -> / 2 ^ 100 <= R ->
  (Z.of_nat n <= 2 ^ 49)%Z -> (forall i, (S i < length X)%nat -> Rabs (at_ Y (S i) - at_ Y i) <= s * (at_ X (S i) - at_ X i)) ->
  M <= 2 ^ 200 -> dval eta < 1 - 14 * u64 * M ->
  let h := R / INR (n - 1) + 10 * u64 * R in
  exists x, calculate_petrosian_r (mk_scipy other) r (p0 :: p) None eta (Some k) num = Ok (x, nnan) /\
    (x = nnan /\ (forall t y, 0 <= t <= R -> chord_value X Y t y -> dval eta - s * h - 14 * u64 * M < y) \/
     double x /\ 0 <= dval x <= R /\ (exists y, chord_value X Y (dval x) y /\ Rabs (y - dval eta) <= s * h + 50 * u64 * M) /\
     forall t y, 0 <= t <= dval x -> chord_value X Y t y -> dval eta - s * h - 14 * u64 * M < y).
Proof.
  intros X Y n R Hk Lr Lp Dr Dp De FX FY Fe BM Inc Wide Few Slope MB Low h. destruct r as [|r0 rt]; [discriminate|]. cbn [tl] in *.
  destruct one_double as [O1 O2]. destruct (ofZ_double 0 ltac:(lia)) as [Z1 Z2].
  assert (EX : map dval (n0 :: rt) = X) by reflexivity. assert (EY : map dval (n1 :: p) = Y) by (unfold Y; cbn [map]; now rewrite O2).
  cbn [length] in Lr. assert (Ln : (2 <= n)%nat) by (unfold n; cbn [length]; lia). assert (X0 : at_ X 0 = 0) by reflexivity.
  pose proof u64_val as U. assert (W0 : 0 < / 2 ^ 100) by (apply Rinv_0_lt_compat, pow_lt; lra). assert (Rp : 0 < R) by lra.
  assert (Pn : 0 < INR (n - 1)) by (apply (lt_INR 0); lia).
  destruct (resampled other k (n0 :: rt) (n1 :: p) num M) as (gx & gy & G1 & G2 & G3 & G4 & G5 & G6 & G7 & G8 & G9 & G10); rewrite ?EX, ?EY; auto; cbn [length]; try lia.
  { rewrite X0. lra. } { fold R. rewrite X0. lra. } { unfold n in Few. cbn [length] in Few. lia. }
  { unfold resolved. fold R. rewrite X0, Rminus_0_r. replace (Nat.max num (S (length rt))) with n by reflexivity.
    apply Rmult_lt_reg_r with (INR (n - 1)); auto. unfold Rdiv. rewrite (Rmult_assoc R), Rinv_l, Rmult_1_r by lra.
    assert (Nn : INR (n - 1) <= 2 ^ 49). { rewrite INR_IZR_INZ. apply Rle_trans with (IZR (2 ^ 49)); [apply IZR_le; lia|]. right. symmetry. exact (pow_IZR 2 49). }
    assert (Q : 10 * u64 * INR (n - 1) < 1). { unfold u64. assert (10 * / 2 ^ 53 * INR (n - 1) <= 10 * / 2 ^ 53 * 2 ^ 49) by (apply Rmult_le_compat_l; lra). assert (2 ^ 53 = 16 * 2 ^ 49) by lra. assert (0 < 2 ^ 49) by lra.
      assert (10 * / 2 ^ 53 * 2 ^ 49 = 10 / 16) by (rewrite H0; field; lra). lra. }
    replace (10 * u64 * R * INR (n - 1)) with ((10 * u64 * INR (n - 1)) * R) by ring. rewrite <- (Rmult_1_l R) at 2. now apply Rmult_lt_compat_r. }
  rewrite ?EX, ?EY in *. change (Nat.max num (length (n0 :: rt))) with n in *. rewrite X0 in *. fold R in G8, G9. unfold even_point in G9. rewrite Rminus_0_r in G9.
  set (GX := map dval gx) in *. set (GY := map dval gy) in *. assert (LX : length GX = n) by (unfold GX; now rewrite map_length). assert (LY : length GY = n) by (unfold GY; now rewrite map_length).
  assert (M1 : 1 <= M). { rewrite Forall_forall in BM. specialize (BM 1 (or_introl eq_refl)). rewrite Rabs_R1 in BM. lra. }
  assert (Sp : 0 <= s).
  { specialize (Slope 0%nat). cbn [length] in Slope. unfold X in Slope. cbn [length] in Slope. rewrite map_length in Slope. specialize (Slope ltac:(lia)).
    assert (L : at_ X 0 < at_ X 1) by (apply Inc; unfold X; cbn [length]; rewrite map_length; lia). fold X in Slope.
    pose proof (Rabs_pos (at_ Y 1 - at_ Y 0)). apply Rmult_le_reg_r with (at_ X 1 - at_ X 0); lra. }
  assert (Hstep : forall i, (S i < n)%nat -> 0 < at_ GX (S i) - at_ GX i <= h).
  { intros i Hi. assert (L : at_ GX i < at_ GX (S i)) by (apply G6; lia). split; [lra|].
    pose proof (G9 i ltac:(lia)) as A1. pose proof (G9 (S i) Hi) as A2. apply abs_both in A1. apply abs_both in A2. rewrite S_INR in A2. unfold h. lra. }
  assert (Hp : 0 < h) by (specialize (Hstep 0%nat ltac:(lia)); lra).
  (* the curve above eta at the grid points before c stays above it, up to the resolution *)
  assert (Above : forall c, (c < n)%nat -> (forall j, (j < c)%nat -> dval eta < at_ GY j) -> forall t y, 0 <= t -> t <= at_ GX c /\ (0 < c)%nat -> chord_value X Y t y ->
     dval eta - s * h - 14 * u64 * M < y).
  { intros c Hc Hj t y Ht Htc Cy. destruct Htc as [Htc c0].
    destruct (L_Conv2.find_step GX t) as (i & I1 & I2); [lia| |].
    { rewrite G7. unfold S_Conv.last_of. rewrite LX. split; auto. assert (at_ GX c <= at_ GX (n - 1)); [|lra].
      destruct (Nat.eq_dec c (n - 1)) as [->|N]; [lra|]. apply Rlt_le, inc_lt; auto; lia. }
    rewrite LX in I1. assert (exists j, (j < c)%nat /\ at_ GX j <= t <= at_ GX (S j)) as (j & J1 & J2).
    { destruct (Nat.lt_ge_cases i c) as [L|L]; [eauto|]. exists (c - 1)%nat. replace (S (c - 1)) with c by lia.
      assert (at_ GX c <= at_ GX i). { destruct (Nat.eq_dec c i) as [->|N]; [lra|]. apply Rlt_le, inc_lt; auto; lia. }
      assert (at_ GX (c - 1) < at_ GX c) by (apply inc_lt; auto; lia). split; [lia|]. lra. }
    destruct (G10 j ltac:(lia)) as (yj & Cj & Bj). pose proof (chord_le X Y s Inc Slope (at_ GX j) t yj y ltac:(lra) Cj Cy) as Q. specialize (Hj j J1).
    apply abs_both in Bj. apply abs_both in Q. specialize (Hstep j ltac:(lia)). assert (s * (t - at_ GX j) <= s * h) by (apply Rmult_le_compat_l; lra). lra. }
  assert (Bw : bpow radix2 1000 = 2 ^ 1000).
  { rewrite bpow_powerRZ. change (powerRZ (IZR radix2) 1000) with (2 ^ Pos.to_nat 1000). f_equal. }
  assert (Pw : 2 ^ 200 * 16 <= 2 ^ 1000). { assert (E : 2 ^ 1000 = 2 ^ 200 * (2 ^ 796 * 16)) by (replace 1000%nat with (200 + (796 + 4))%nat by reflexivity; rewrite !pow_add; lra). rewrite E.
    assert (1 <= 2 ^ 796) by (apply pow_R1_Rle; lra). assert (0 < 2 ^ 200) by (apply pow_lt; lra). apply Rmult_le_compat_l; lra. }
  assert (FB : forall z, fair z -> Rabs z <= 2 ^ 200). { intros z [->|[_ H]]; auto. rewrite Rabs_R0. apply Rlt_le, pow_lt. lra. }
  assert (Be : Rabs (dval eta) <= bpow radix2 1000) by (rewrite Bw; specialize (FB _ Fe); assert (0 < 2 ^ 200) by (apply pow_lt; lra); lra).
  assert (YB : forall t y, chord_value X Y t y -> Rabs y <= M).
  { intros t y (i & I1 & I2 & I3). assert (L : at_ X i < at_ X (S i)) by (apply Inc; lia).
    assert (LXY : length Y = length X) by (unfold X, Y; cbn [length]; rewrite !map_length; lia).
    assert (B1 : Rabs (at_ Y i) <= M) by (rewrite Forall_forall in BM; apply BM; unfold at_; apply nth_In; lia).
    assert (B2 : Rabs (at_ Y (S i)) <= M) by (rewrite Forall_forall in BM; apply BM; unfold at_; apply nth_In; lia).
    apply abs_both in B1. apply abs_both in B2. apply Rabs_le. split; apply Rmult_le_reg_r with (at_ X (S i) - at_ X i); try lra; nra. }
  assert (Bq : forall x, In x gy -> Rabs (dval x) <= bpow radix2 1000).
  { intros x Hx. apply (In_nth _ _ dz) in Hx. destruct Hx as (i & Hi & <-). assert (Hi' : (i < n)%nat) by (rewrite <- G3; exact Hi). destruct (G10 i Hi') as (y & Cy & By). unfold GY in By. rewrite dval_at in By.
    specialize (YB _ _ Cy). apply abs_both in By. apply abs_both in YB. rewrite Bw. change (Rabs (dval (@nth f64 i gy dz)) <= 2 ^ 1000). apply Rabs_le. assert (14 * u64 * M <= 1 * M) by (apply Rmult_le_compat_r; lra). set (w := 2 ^ 200) in *. set (v := 2 ^ 1000) in *. clearbody w v. set (uM := 14 * u64 * M) in *. clearbody uM. lra. }
  unfold calculate_petrosian_r. cbn [set0 bind]. rewrite G1. cbn [bind fst snd].
  destruct (closest_value_index eta gy false) as [i|] eqn:E.
  - destruct (search_some eta gy false De G5 Be Bq i E) as (c & (C1 & C2 & C3) & Hic & Hnear & _). fold GY in C1, C2, C3, Hnear. rewrite LY in C1. unfold past in C2, C3.
    change (nth c GY 0) with (at_ GY c) in C2. assert (C3' : forall j, (j < c)%nat -> dval eta < at_ GY j) by (intros j Hj; specialize (C3 j Hj); apply Rnot_le_lt; exact C3).
    assert (c0 : (0 < c)%nat).
    { destruct c; [|lia]. exfalso. destruct (G10 0%nat ltac:(lia)) as (y & Cy & By). rewrite G7 in Cy.
      assert (y = 1). { destruct Cy as (j & J1 & J2 & J3). assert (j = 0%nat). { destruct j; auto. exfalso. pose proof (inc_lt X 0 (S j) Inc ltac:(lia) ltac:(lia)). rewrite X0 in H. lra. }
        subst j. change (at_ Y 0) with 1 in J3. rewrite X0 in J3. assert (at_ X 0 < at_ X 1) by (apply Inc; lia). rewrite X0 in H.
        apply Rmult_eq_reg_r with (at_ X 1 - 0); [|lra]. lra. }
      subst y. apply abs_both in By. lra. }
    assert (Hi : (i < n)%nat) by lia. exists (nth i gx dz). split.
    { cbn [pick]. unfold index. assert (Ne : nth_error gx i = Some (nth i gx dz)) by (apply nth_error_nth'; rewrite G2; exact Hi). rewrite Ne. reflexivity. }
    right. split; [rewrite Forall_forall in G4; apply G4, nth_In; rewrite G2; exact Hi|]. rewrite <- dval_at. fold GX.
    assert (Rg : 0 <= at_ GX i <= R).
    { split; [destruct i; [lra|rewrite <- G7; apply Rlt_le, inc_lt; auto; lia]|]. destruct (Nat.eq_dec i (n - 1)) as [->|N]; [lra|]. rewrite <- G8. apply Rlt_le, inc_lt; auto; lia. }
    split; auto. split.
    + destruct (G10 i Hi) as (yi & Ci & Bi). exists yi. split; auto. destruct (G10 c C1) as (yc & Cc & Bc). destruct (G10 (c - 1)%nat ltac:(lia)) as (yd & Cd & Bd).
      specialize (Hnear c (le_n c)). specialize (C3' (c - 1)%nat ltac:(lia)). pose proof (Hstep (c - 1)%nat ltac:(lia)) as St. replace (S (c - 1)) with c in St by lia.
      pose proof (chord_le X Y s Inc Slope (at_ GX (c - 1)) (at_ GX c) yd yc ltac:(lra) Cd Cc) as Q. assert (Sh : s * (at_ GX c - at_ GX (c - 1)) <= s * h) by (apply Rmult_le_compat_l; lra).
      pose proof (YB _ _ Cc) as Yc. pose proof (YB _ _ Cd) as Yd. 
      apply abs_both in Bi. apply abs_both in Bc. apply abs_both in Bd. apply abs_both in Q. apply abs_both in Yc. apply abs_both in Yd.
      assert (Ab : Rabs (at_ GY c - dval eta) = dval eta - at_ GY c) by (rewrite Rabs_left1; lra). rewrite Ab in Hnear.
      assert (um : 0 <= u64 * M <= M / 100) by (split; [apply Rmult_le_pos; lra|apply Rmult_le_reg_r with 1; nra]).
      assert (D1 : dval eta - at_ GY c <= s * h + 28 * (u64 * M)) by lra. assert (D2 : dval eta - at_ GY c <= 2 * M + 28 * (u64 * M)) by lra.
      assert (D3 : 3 * u64 * (dval eta - at_ GY c) <= 3 * u64 * (5 / 2 * M)) by (apply Rmult_le_compat_l; lra).
      apply abs_both in Hnear. apply Rabs_le. lra.
    + intros t y Ht Cy. apply (Above c C1 C3' t y); auto; [lra|]. split; auto.
      assert (at_ GX i <= at_ GX c); [|lra]. destruct (Nat.eq_dec i c) as [->|N]; [lra|]. apply Rlt_le, inc_lt; auto; lia.
  - exists nnan. split; [reflexivity|]. left. split; auto. intros t y Ht Cy.
    assert (All : forall j, (j < n)%nat -> dval eta < at_ GY j).
    { intros j Hj. apply Rnot_le_lt. unfold GY. rewrite dval_at. apply (proj1 (search_none eta gy false De G5 Bq) E). apply nth_In. rewrite G3. exact Hj. }
    apply (Above (n - 1)%nat ltac:(lia)) with (t := t); auto; [intros j Hj; apply All; lia|lra|]. rewrite G8. split; [lra|lia].
Qed.
