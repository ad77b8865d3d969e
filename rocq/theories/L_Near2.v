(** np.std in double precision. *)
From Coq Require Import SpecFloat ZArith Reals Lra Lia.
From Flocq Require Import Core BinarySingleNaN Relative.
From Verif Require Import Base Num Numpy M_Utils M_Petrosian M_Correction S_Petrosian S_Correction S_Double S_Sums L_Double L_Double2 L_Double3 L_Double4 L_Sums L_Sums3 L_Grid L_Grid4 L_Near.
Local Open Scope R_scope.
Notation sum := S_Sums.total.

Lemma sums l : S_Correction.total l = sum l.
Proof. induction l as [|x l IH]; [reflexivity|]. cbn [S_Correction.total]. rewrite IH. reflexivity. Qed.
Lemma sum_app_le l (f g : R -> R) : (forall x, In x l -> f x <= g x) -> sum (map f l) <= sum (map g l).
Proof. unfold sum. induction l as [|x l IH]; intros H; cbn [map fold_right]; [lra|]. apply Rplus_le_compat; [apply H; now left|apply IH; intros; apply H; now right]. Qed.
Lemma sum_lin l (f : R -> R) a b : sum (map (fun x => a * f x + b) l) = a * sum (map f l) + INR (length l) * b.
Proof. unfold sum. induction l as [|x l IH]; cbn [map fold_right length]; [cbn; ring|]. rewrite IH, S_INR. ring. Qed.
Lemma sum_pos l (f : R -> R) : (forall x, 0 <= f x) -> 0 <= sum (map f l).
Proof. intros H. unfold sum. induction l as [|x l IH]; cbn [map fold_right]; [lra|]. specialize (H x). lra. Qed.
Lemma sum_abs l (f g : R -> R) : (forall x, In x l -> Rabs (f x) <= g x) -> Rabs (sum (map f l)) <= sum (map g l).
Proof. unfold sum. induction l as [|x l IH]; intros H; cbn [map fold_right]; [rewrite Rabs_R0; lra|]. eapply Rle_trans; [apply Rabs_triang|]. apply Rplus_le_compat; [apply H; now left|apply IH; intros; apply H; now right]. Qed.
(** the mean square about [m] *)
Lemma about l m : (1 <= length l)%nat -> let a := sum l / INR (length l) in
  sum (map (fun x => (x - m) * (x - m)) l) / INR (length l) = sum (map (fun x => (x - a) * (x - a)) l) / INR (length l) + (m - a) * (m - a).
Proof.
  intros L a. assert (N : 0 < INR (length l)) by (apply (lt_INR 0); lia).
  assert (E : forall k, sum (map (fun x => (x - m) * (x - m)) k) = sum (map (fun x => (x - a) * (x - a)) k) + 2 * (a - m) * (sum k - INR (length k) * a) + INR (length k) * ((a - m) * (a - m))).
  { intros k. unfold sum at 1 2 3. induction k as [|x k IH]; cbn [map fold_right length]; [cbn; ring|]. rewrite IH, S_INR. ring. }
  rewrite E. replace (sum l - INR (length l) * a) with 0 by (unfold a; field; lra). field. lra.
Qed.
Lemma root_near v V g h : 0 <= v -> 0 <= V -> 0 <= g < 1 -> 0 <= h -> Rabs (v - V) <= g * V + h * h -> Rabs (sqrt v - sqrt V) <= g * sqrt V + h.
Proof.
  intros Hv HV Hg Hh H. apply abs_both in H. pose proof (sqrt_pos v) as P. pose proof (sqrt_pos V) as Q. assert (gQ : 0 <= g * sqrt V) by (apply Rmult_le_pos; lra). apply Rabs_le. 
  assert (S1 : sqrt v * sqrt v = v) by now apply sqrt_sqrt. assert (S2 : sqrt V * sqrt V = V) by now apply sqrt_sqrt. set (p := sqrt v) in *. set (q := sqrt V) in *.
  assert (gg : 0 <= g * (q * q)) by (rewrite S2; apply Rmult_le_pos; lra).
  split.
  - apply Rnot_lt_le. intros C. assert (C' : p + h < (1 - g) * q) by lra.
    assert (K : (p + h) * (p + h) < (1 - g) * q * ((1 - g) * q)) by (apply Rmult_le_0_lt_compat; lra).
    assert (ph : 0 <= p * h) by (apply Rmult_le_pos; lra). assert (g2 : g * (g * (q * q)) <= 1 * (g * (q * q))) by (apply Rmult_le_compat_r; lra). rewrite <- S1, <- S2 in H. lra.
  - apply Rnot_lt_le. intros C. assert (C' : (1 + g) * q + h < p) by lra.
    assert (K : ((1 + g) * q + h) * ((1 + g) * q + h) < p * p) by (apply Rmult_le_0_lt_compat; lra).
    assert (ph : 0 <= (1 + g) * q * h) by (apply Rmult_le_pos; lra). assert (g2 : 0 <= g * (g * (q * q))) by (apply Rmult_le_pos; lra). rewrite <- S1, <- S2 in H. lra.
Qed.

Section Std.
  Variable l : list f64.
  Let X := map dval l.
  Let n := length l.
  Let N := INR n.
  Let A := sum (map Rabs X) / N.
  Let a := sum X / N.
  Let t := bpow radix2 (-1000).
  Hypotheses (Dl : Forall double l) (Bl : Forall (fun x => Rabs x <= 2 ^ 100) X) (L1 : (1 <= n)%nat) (Few : INR (n + 5) * u64 <= / 4).

  Lemma n_pos : 0 < N.
  Proof. unfold N. apply (lt_INR 0). lia. Qed.
  Lemma n_53 : N <= bpow radix2 51.
  Proof.
    unfold N. pose proof u64_val as U. rewrite plus_INR in Few. apply Rmult_le_reg_r with u64; [lra|]. rewrite u64_bpow at 2. rewrite <- bpow_plus. change (bpow radix2 (51 + -53)) with (/ 4).
    assert (0 <= INR 5 * u64) by (apply Rmult_le_pos; [apply pos_INR|lra]). lra.
  Qed.
  Lemma len_double : double (nlen l) /\ dval (nlen l) = N.
  Proof.
    unfold nlen, nofnat. cbn [nofZ F64num]. fold n. assert (H : (Z.abs (Z.of_nat n) <= 2 ^ 53)%Z).
    { rewrite Z.abs_eq by lia. apply le_IZR. rewrite <- INR_IZR_INZ. pose proof n_53 as K. unfold N in K. eapply Rle_trans; [exact K|]. change (IZR (2 ^ 53)) with (bpow radix2 53). apply bpow_le. lia. }
    destruct (ofZ_double _ H) as [D V]. split; auto. rewrite V. unfold N. symmetry. apply INR_IZR_INZ.
  Qed.
  Lemma grow_1 : grow (n + 5) <= / 2.
  Proof.
    assert (G : forall k, (k <= n + 5)%nat -> grow k <= 2 * (INR k * u64)).
    { intros k Hk. pose proof u64_val as U. induction k as [|k IH]; [unfold grow; cbn; lra|]. rewrite grow_S, S_INR. specialize (IH ltac:(lia)).
      assert (K : INR k * u64 <= / 4). { eapply Rle_trans; [|exact Few]. apply Rmult_le_compat_r; [lra|]. apply le_INR. lia. }
      assert (u64 * grow k <= u64 * 1) by (apply Rmult_le_compat_l; lra). lra. }
    specialize (G (n + 5)%nat (le_n _)). lra.
  Qed.
  Lemma t_pos : 0 < t /\ t <= / 1000000.
  Proof. split; [apply bpow_gt_0|]. apply Rle_trans with (bpow radix2 (-20)); [apply bpow_le; lia|]. change (bpow radix2 (-20)) with (/ 1048576). lra. Qed.
  Lemma pow100 : bpow radix2 100 = 2 ^ 100.
  Proof. rewrite bpow_powerRZ. change (powerRZ (IZR radix2) 100) with (2 ^ Pos.to_nat 100). f_equal. Qed.
  Lemma A_le : 0 <= A <= bpow radix2 100.
  Proof.
    pose proof n_pos as P. unfold A. split; [apply Rmult_le_pos; [apply sum_pos; intros; apply Rabs_pos|apply Rlt_le, Rinv_0_lt_compat; auto]|].
    apply Rmult_le_reg_r with N; auto. unfold Rdiv. rewrite Rmult_assoc, Rinv_l, Rmult_1_r by lra. eapply Rle_trans.
    - apply (sum_app_le X Rabs (fun x => 0 * Rabs x + bpow radix2 100)). intros x Hx. rewrite Forall_forall in Bl. specialize (Bl x Hx). rewrite pow100. lra.
    - rewrite sum_lin. unfold X. rewrite map_length. fold n N. lra.
  Qed.
  Lemma sum_double (k : list f64) b : length k = n -> Forall double k -> (forall x, In x k -> Rabs (dval x) <= bpow radix2 b) -> (b <= 500)%Z ->
    double (nsum k) /\ Rabs (dval (nsum k) - sum (map dval k)) <= grow n * sum (map Rabs (map dval k)) /\ sum (map Rabs (map dval k)) <= N * bpow radix2 b.
  Proof.
    intros Lk Dk Bk Hb. pose proof u64_val as U. destruct zero_ok as [Z1 Z2].
    assert (Sb : sum (map Rabs (map dval k)) <= N * bpow radix2 b).
    { eapply Rle_trans; [apply (sum_app_le (map dval k) Rabs (fun x => 0 * Rabs x + bpow radix2 b))|].
      - intros x Hx. apply in_map_iff in Hx. destruct Hx as (y & <- & Hy). specialize (Bk y Hy). lra.
      - rewrite sum_lin, map_length, Lk. fold N. lra. }
    assert (Nb : N * bpow radix2 b <= 2 ^ 1000).
    { rewrite <- pow1000. apply Rle_trans with (bpow radix2 51 * bpow radix2 b); [apply Rmult_le_compat_r; [apply bpow_ge_0|apply n_53]|]. rewrite <- bpow_plus. apply bpow_le. lia. }
    destruct (added_error (n0 :: k) (nsum k) (nsum_added k)) as [H1 H2].
    - constructor; auto.
    - cbn [map]. rewrite Z2, Rabs_R0. unfold sum in *. cbn [fold_right]. lra.
    - cbn [length]. rewrite Lk. eapply Rle_trans with (/ 4); [|lra]. eapply Rle_trans; [|exact Few]. apply Rmult_le_compat_r; [lra|]. apply le_INR. lia.
    - split; auto. split; auto. cbn [map length] in H2. rewrite Z2, Rabs_R0, Lk in H2. unfold sum in *. cbn [fold_right Nat.sub] in H2. rewrite !Rplus_0_l, Nat.sub_0_r in H2. exact H2.
  Qed.
  Lemma mean_double : double (mean l) /\ Rabs (dval (mean l) - a) <= grow (n + 1) * A + t /\ Rabs (dval (mean l)) <= bpow radix2 102.
  Proof.
    pose proof u64_val as U. pose proof n_pos as P. pose proof t_pos as T. pose proof A_le as AA. destruct len_double as [N1 N2].
    destruct (sum_double l 100 eq_refl Dl) as (S1 & S2 & S3); [|lia|].
    { intros x Hx. rewrite Forall_forall in Bl. rewrite pow100. apply Bl. unfold X. now apply in_map. }
    fold X in S2, S3. set (S := nsum l) in *. assert (Q : Rabs (dval S / N - a) <= grow n * A).
    { unfold a, A. replace (dval S / N - sum X / N) with ((dval S - sum X) * / N) by (unfold Rdiv; ring). rewrite Rabs_mult, (Rabs_pos_eq (/ N)) by (apply Rlt_le, Rinv_0_lt_compat; auto).
      unfold Rdiv. rewrite <- Rmult_assoc. apply Rmult_le_compat_r; auto. apply Rlt_le, Rinv_0_lt_compat; auto. }
    assert (aA : Rabs a <= A).
    { unfold a, A, Rdiv. rewrite Rabs_mult, (Rabs_pos_eq (/ N)) by (apply Rlt_le, Rinv_0_lt_compat; auto). apply Rmult_le_compat_r; [apply Rlt_le, Rinv_0_lt_compat; auto|].
      pose proof (sum_abs X (fun x => x) Rabs) as K. rewrite map_id in K. apply K. intros; lra. }
    pose proof grow_1 as G. assert (Gn : grow n <= / 2) by (eapply Rle_trans; [apply (grow_le n (n + 5)); lia|exact G]). pose proof (grow_0 n) as G0.
    assert (gA : grow n * A <= / 2 * A) by (apply Rmult_le_compat_r; lra).
    assert (Qb : Rabs (dval S / N) <= (1 + grow n) * A). { replace (dval S / N) with ((dval S / N - a) + a) by ring. eapply Rle_trans; [apply Rabs_triang|]. lra. }
    assert (B2 : bpow radix2 102 = 4 * bpow radix2 100) by (change 102%Z with (2 + 100)%Z; rewrite bpow_plus; reflexivity). assert (B1 : 1 <= bpow radix2 100) by (change 1 with (bpow radix2 0); apply bpow_le; lia).
    unfold mean. fold S. destruct (d_div S (nlen l) S1 N1) as [M1 M2]; rewrite N2 in *; [lra|apply rnd_small; apply Rle_trans with (bpow radix2 102); [lra|apply bpow_le; lia]|].
    split; auto. pose proof (rnd_any (dval S / N)) as RA. rewrite <- M2 in RA. fold t in RA.
    assert (F : Rabs (dval (ndiv S (nlen l)) - a) <= grow (n + 1) * A + t).
    { replace (dval (ndiv S (nlen l)) - a) with ((dval (ndiv S (nlen l)) - dval S / N) + (dval S / N - a)) by ring. eapply Rle_trans; [apply Rabs_triang|].
      assert (u64 * Rabs (dval S / N) <= u64 * ((1 + grow n) * A)) by (apply Rmult_le_compat_l; lra). rewrite Nat.add_1_r, grow_S. lra. }
    split; auto. assert (g1 : grow (n + 1) * A <= / 2 * A). { apply Rmult_le_compat_r; [lra|]. eapply Rle_trans; [apply (grow_le (n + 1) (n + 5)); lia|exact G]. }
    replace (dval (ndiv S (nlen l))) with ((dval (ndiv S (nlen l)) - a) + a) by ring. eapply Rle_trans; [apply Rabs_triang|]. lra.
  Qed.

  Lemma square_any x : In x l -> let m := mean l in let q := nmul (nsub x m) (nsub x m) in let w := (dval x - dval m) * (dval x - dval m) in
    double q /\ 0 <= dval q /\ Rabs (dval q) <= bpow radix2 220 /\ Rabs (dval q - w) <= grow 3 * w + t.
  Proof.
    intros Hx m q w. pose proof u64_val as U. pose proof t_pos as T. destruct mean_double as (M1 & _ & M3). fold m in M1, M3.
    rewrite Forall_forall in Dl, Bl. specialize (Dl x Hx). assert (Bx : Rabs (dval x) <= bpow radix2 102). { apply Rle_trans with (bpow radix2 100); [rewrite pow100; apply Bl; unfold X; now apply in_map|apply bpow_le; lia]. }
    destruct (dd_sub 102 x m) as (E1 & d & E2 & E3); auto; [lia|]. set (e := nsub x m) in *. apply abs_both in E2.
    assert (Be : Rabs (dval e) <= bpow radix2 104).
    { rewrite E3, Rabs_mult, (Rabs_pos_eq (1 + d)) by lra. assert (Rabs (dval x - dval m) <= 2 * bpow radix2 102). { replace (dval x - dval m) with (dval x + - dval m) by ring. eapply Rle_trans; [apply Rabs_triang|]. rewrite Rabs_Ropp. lra. }
      replace (bpow radix2 104) with (2 * bpow radix2 102 * 2) by (change 104%Z with (1 + (102 + 1))%Z; rewrite !bpow_plus; change (bpow radix2 1) with 2; ring). apply Rmult_le_compat; try lra. apply Rabs_pos. }
    assert (Be2 : Rabs (dval e * dval e) <= bpow radix2 208). { rewrite Rabs_mult. change 208%Z with (104 + 104)%Z. rewrite bpow_plus. apply Rmult_le_compat; auto; apply Rabs_pos. }
    destruct (d_mul e e E1 E1) as [Q1 Q2]; [apply rnd_small; apply Rle_trans with (1 := Be2); apply bpow_le; lia|]. fold q in Q1, Q2. pose proof (rnd_any (dval e * dval e)) as RA. rewrite <- Q2 in RA. fold t in RA.
    assert (P2 : 0 <= dval e * dval e) by apply Rle_0_sqr. rewrite Rabs_pos_eq in Be2 by auto. rewrite (Rabs_pos_eq (dval e * dval e)) in RA by auto.
    split; auto. split; [rewrite Q2, <- rnd_0; now apply rnd_mono|]. split.
    - apply abs_both in RA. assert (u64 * (dval e * dval e) <= 1 * (dval e * dval e)) by (apply Rmult_le_compat_r; lra).
      assert (bpow radix2 220 = 4096 * bpow radix2 208) by (change 220%Z with (12 + 208)%Z; rewrite bpow_plus; reflexivity). assert (1 <= bpow radix2 208) by (change 1 with (bpow radix2 0); apply bpow_le; lia). apply Rabs_le. lra.
    - assert (W : 0 <= w) by apply Rle_0_sqr. assert (E : dval e * dval e = w * ((1 + d) * (1 + d))) by (rewrite E3; unfold w; ring). set (c := (1 + d) * (1 + d)) in *.
      assert (C1 : c <= (1 + u64) * (1 + u64)) by (apply Rmult_le_compat; lra). assert (C2 : (1 - u64) * (1 - u64) <= c) by (apply Rmult_le_compat; lra).
      rewrite E in RA. replace (dval q - w) with ((dval q - w * c) + w * (c - 1)) by ring. eapply Rle_trans; [apply Rabs_triang|]. rewrite Rabs_mult, (Rabs_pos_eq w) by auto.
      assert (AC : Rabs (c - 1) <= (1 + u64) * (1 + u64) - 1) by (apply Rabs_le; split; nra).
      assert (w * Rabs (c - 1) <= w * ((1 + u64) * (1 + u64) - 1)) by (apply Rmult_le_compat_l; auto).
      assert (u64 * (w * c) <= u64 * (w * ((1 + u64) * (1 + u64)))) by (apply Rmult_le_compat_l; [lra|apply Rmult_le_compat_l; auto]).
      replace (grow 3) with ((1 + u64) * (1 + u64) * (1 + u64) - 1) by (unfold grow; ring). lra.
  Qed.
  Lemma deviation_eq : deviation X = sqrt (sum (map (fun x => (x - a) * (x - a)) X) / N).
  Proof. unfold deviation, average. rewrite !sums, map_length. unfold a, N, n, X. rewrite map_length. reflexivity. Qed.
  Theorem std_double : double (std l) /\ Rabs (dval (std l) - deviation X) <= grow (n + 5) * (deviation X + 2 * average (map Rabs X)) + / 2 ^ 400.
  Proof.
    pose proof u64_val as U. pose proof n_pos as P. pose proof t_pos as T. pose proof A_le as AA. destruct len_double as [N1 N2]. destruct mean_double as (M1 & M2 & _). pose proof square_any as SA. cbv zeta in SA.
    set (m := mean l) in *. set (f := fun x : f64 => nmul (nsub x m) (nsub x m)) in *. set (K := map f l). set (M := dval m) in *.
    set (w := fun x : R => (x - M) * (x - M)). set (W := sum (map w X)). set (V := W / N). pose proof grow_1 as G.
    assert (Dk : Forall double K). { apply Forall_forall. intros y Hy. apply in_map_iff in Hy. destruct Hy as (x & <- & Hx). apply (SA x Hx). }
    destruct (sum_double K 220) as (S1 & S2 & _); [apply map_length|auto| |lia|].
    { intros y Hy. apply in_map_iff in Hy. destruct Hy as (x & <- & Hx). apply (SA x Hx). }
    assert (Kp : map Rabs (map dval K) = map dval K).
    { rewrite map_map. apply map_ext_in. intros y Hy. apply in_map_iff in Hy. destruct Hy as (x & <- & Hx). apply Rabs_pos_eq. apply (SA x Hx). }
    rewrite Kp in S2. set (Q := sum (map dval K)) in *.
    assert (W0 : 0 <= W) by (apply sum_pos; intros; apply Rle_0_sqr).
    assert (QW : Rabs (Q - W) <= grow 3 * W + N * t).
    { assert (G2 : forall k, (forall x, In x k -> In x l) -> Rabs (sum (map dval (map f k)) - sum (map w (map dval k))) <= grow 3 * sum (map w (map dval k)) + INR (length k) * t).
      { unfold sum. induction k as [|x k IH]; intros H; cbn [map fold_right length].
        - rewrite Rminus_0_r, Rabs_R0. cbn. lra.
        - destruct (SA x (H x (or_introl eq_refl))) as (_ & _ & _ & B). change (Rabs (dval (f x) - w (dval x)) <= grow 3 * w (dval x) + t) in B. specialize (IH (fun y Hy => H y (or_intror Hy))). rewrite S_INR.
          replace (dval (f x) + fold_right Rplus 0 (map dval (map f k)) - (w (dval x) + fold_right Rplus 0 (map w (map dval k)))) with ((dval (f x) - w (dval x)) + (fold_right Rplus 0 (map dval (map f k)) - fold_right Rplus 0 (map w (map dval k)))) by ring.
          eapply Rle_trans; [apply Rabs_triang|]. lra. }
      apply (G2 l). auto. }
    assert (Q0 : 0 <= Q). { assert (Q = sum (map Rabs (map dval K))) as -> by now rewrite Kp. apply sum_pos. apply Rabs_pos. }
    pose proof (grow_0 n) as G0. assert (Gn : grow n <= / 2) by (eapply Rle_trans; [apply (grow_le n (n + 5)); lia|exact G]).
    assert (G3 : 0 <= grow 3) by apply grow_0. set (S := nsum K) in *. apply abs_both in S2 as S3.
    assert (S0 : 0 <= dval S). { assert (grow n * Q <= / 2 * Q) by (apply Rmult_le_compat_r; auto). lra. }
    assert (SW : Rabs (dval S - W) <= grow (n + 3) * W + 2 * N * t).
    { replace (dval S - W) with ((dval S - Q) + (Q - W)) by ring. eapply Rle_trans; [apply Rabs_triang|]. apply abs_both in QW as QW'.
      assert (grow n * Q <= grow n * ((1 + grow 3) * W + N * t)) by (apply Rmult_le_compat_l; lra). assert (Nt : 0 <= N * t) by (apply Rmult_le_pos; lra). assert (grow n * (N * t) <= / 2 * (N * t)) by (apply Rmult_le_compat_r; auto).
      rewrite Nat.add_comm, grow_add. lra. }
    assert (SV : Rabs (dval S / N - V) <= grow (n + 3) * V + 2 * t).
    { unfold V. replace (dval S / N - W / N) with ((dval S - W) * / N) by (unfold Rdiv; ring). rewrite Rabs_mult, (Rabs_pos_eq (/ N)) by (apply Rlt_le, Rinv_0_lt_compat; auto).
      replace (grow (n + 3) * (W / N) + 2 * t) with ((grow (n + 3) * W + 2 * N * t) * / N) by (field; lra). apply Rmult_le_compat_r; auto. apply Rlt_le, Rinv_0_lt_compat; auto. }
    assert (V0 : 0 <= V) by (apply Rmult_le_pos; [auto|apply Rlt_le, Rinv_0_lt_compat; auto]). assert (SN0 : 0 <= dval S / N) by (apply Rmult_le_pos; [auto|apply Rlt_le, Rinv_0_lt_compat; auto]).
    assert (Small : Rabs (dval S / N) <= bpow radix2 1000).
    { rewrite Rabs_pos_eq by auto. assert (QB : Q <= N * bpow radix2 220).
      { unfold Q. rewrite <- Kp. destruct (sum_double K 220) as (_ & _ & S4); auto; [apply map_length| |lia]. intros y Hy. apply in_map_iff in Hy. destruct Hy as (x & <- & Hx). apply (SA x Hx). }
      assert (grow n * Q <= / 2 * Q) by (apply Rmult_le_compat_r; auto). apply Rmult_le_reg_r with N; auto. unfold Rdiv. rewrite Rmult_assoc, Rinv_l, Rmult_1_r by lra.
      assert (B5 : 2 * bpow radix2 220 <= bpow radix2 1000). { change 2 with (bpow radix2 1) at 1. rewrite <- bpow_plus. apply bpow_le. lia. }
      assert (N * (2 * bpow radix2 220) <= N * bpow radix2 1000) by (apply Rmult_le_compat_l; lra). lra. }
    destruct (d_div S (nlen l) S1 N1) as [D1 D2]; rewrite N2 in *; [lra|apply rnd_small; apply Rle_trans with (1 := Small); apply bpow_le; lia|].
    pose proof (rnd_any (dval S / N)) as RA. rewrite <- D2 in RA. fold t in RA. rewrite (Rabs_pos_eq (dval S / N)) in RA by auto. set (v := ndiv S (nlen l)) in *.
    assert (v0 : 0 <= dval v). { rewrite D2, <- rnd_0. now apply rnd_mono. }
    assert (VV : Rabs (dval v - V) <= grow (n + 4) * V + 4 * t).
    { replace (dval v - V) with ((dval v - dval S / N) + (dval S / N - V)) by ring. eapply Rle_trans; [apply Rabs_triang|]. apply abs_both in SV as SV'.
      assert (u64 * (dval S / N) <= u64 * ((1 + grow (n + 3)) * V + 2 * t)) by (apply Rmult_le_compat_l; lra). assert (u64 * t <= / 4 * t) by (apply Rmult_le_compat_r; lra).
      replace (n + 4)%nat with (Datatypes.S (n + 3)) by lia. rewrite grow_S. lra. }
    set (h := bpow radix2 (-499)). assert (hh : h * h = 4 * t). { unfold h, t. rewrite <- bpow_plus. change (-499 + -499)%Z with (2 + -1000)%Z. rewrite bpow_plus. reflexivity. }
    assert (h0 : 0 < h) by apply bpow_gt_0. rewrite <- hh in VV. pose proof (grow_0 (n + 4)) as G40. assert (G4 : grow (n + 4) <= / 2) by (eapply Rle_trans; [apply (grow_le (n + 4) (n + 5)); lia|exact G]).
    pose proof (root_near (dval v) V (grow (n + 4)) h v0 V0 ltac:(lra) ltac:(lra) VV) as RN.
    destruct (d_sqrt v D1 v0) as [Q1 Q2]. change (std l) with (nsqrt v). split; auto. pose proof (rnd_any (sqrt (dval v))) as RB. rewrite <- Q2 in RB. fold t in RB. rewrite (Rabs_pos_eq (sqrt (dval v))) in RB by apply sqrt_pos.
    set (r := dval (nsqrt v)) in *. set (p := sqrt (dval v)) in *. pose proof (sqrt_pos V) as q0. set (q := sqrt V) in *.
    assert (F1 : Rabs (r - q) <= grow (n + 5) * q + 2 * h + t).
    { replace (r - q) with ((r - p) + (p - q)) by ring. eapply Rle_trans; [apply Rabs_triang|]. apply abs_both in RN as RN'. assert (u64 * p <= u64 * ((1 + grow (n + 4)) * q + h)) by (apply Rmult_le_compat_l; lra). assert (u64 * h <= 1 * h) by (apply Rmult_le_compat_r; lra).
      replace (n + 5)%nat with (Datatypes.S (n + 4)) by lia. rewrite grow_S. lra. }
    pose proof deviation_eq as DE. set (s2 := sum (map (fun x => (x - a) * (x - a)) X) / N) in *. set (D := deviation X) in *.
    assert (s20 : 0 <= s2). { apply Rmult_le_pos; [apply sum_pos; intros; apply Rle_0_sqr|apply Rlt_le, Rinv_0_lt_compat; auto]. }
    assert (D0 : 0 <= D) by (rewrite DE; apply sqrt_pos). assert (DD : D * D = s2) by (rewrite DE; now apply sqrt_sqrt).
    assert (AB : V = D * D + (M - a) * (M - a)).
    { pose proof (about X M) as H. assert (LX : length X = n) by (unfold X; now rewrite map_length). rewrite LX in H. specialize (H L1). cbv zeta in H. rewrite DD. exact H. }
    assert (qq : q * q = V) by (now apply sqrt_sqrt). pose proof (Rabs_pos (M - a)) as c0. assert (cc : Rabs (M - a) * Rabs (M - a) = (M - a) * (M - a)) by (rewrite <- Rabs_mult; apply Rabs_pos_eq, Rle_0_sqr). set (c := Rabs (M - a)) in *.
    assert (q1 : D <= q) by nra. assert (q2 : q <= D + c) by nra.
    assert (EA : average (map Rabs X) = A). { unfold average, A, N, n. rewrite sums, map_length. unfold X. now rewrite map_length. }
    rewrite EA. assert (Gp : 0 <= grow (n + 5)) by apply grow_0. assert (c1 : c <= grow (n + 5) * A + t). { eapply Rle_trans; [exact M2|]. apply Rplus_le_compat_r, Rmult_le_compat_r; [lra|]. apply grow_le. lia. }
    assert (hs : 2 * h + 4 * t <= / 2 ^ 400).
    { assert (t <= h) by (apply bpow_le; lia). assert (E4 : / 2 ^ 400 = bpow radix2 (-400)). { change (-400)%Z with (- (400))%Z. rewrite bpow_opp. f_equal. rewrite bpow_powerRZ. change (powerRZ (IZR radix2) 400) with (2 ^ Pos.to_nat 400). f_equal. }
      rewrite E4. assert (8 * h <= bpow radix2 (-400)); [|lra]. change 8 with (bpow radix2 3). unfold h. rewrite <- bpow_plus. apply bpow_le. lia. }
    set (g := grow (n + 5)) in *. apply abs_both in F1. assert (g * q <= g * (D + c)) by (apply Rmult_le_compat_l; auto). assert (g * c <= / 2 * c) by (apply Rmult_le_compat_r; auto). assert (0 <= g * A) by (apply Rmult_le_pos; lra). apply Rabs_le. lra.
  Qed.
End Std.
