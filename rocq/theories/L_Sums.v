(** Sums in double precision. *)
From Coq Require Import SpecFloat ZArith Reals Lra Lia Permutation.
From Flocq Require Import Core BinarySingleNaN.
From Verif Require Import Base Num Numpy M_Utils M_Photometry S_Petrosian S_Double S_Sums L_Double L_Double2 L_Double3 L_Double4.
Local Open Scope R_scope.

Lemma total_app l m : total (l ++ m) = total l + total m.
Proof. unfold total. induction l as [|x l IH]; cbn; [lra|]. rewrite IH. lra. Qed.
Lemma total_perm l m : Permutation l m -> total l = total m.
Proof. unfold total. induction 1; cbn; lra. Qed.
Lemma total_abs_nonneg l : 0 <= total (map Rabs l).
Proof. unfold total. induction l as [|x l IH]; cbn; [lra|]. pose proof (Rabs_pos x). lra. Qed.
Lemma total_abs l : Rabs (total l) <= total (map Rabs l).
Proof. unfold total. induction l as [|x l IH]; cbn; [rewrite Rabs_R0; lra|]. eapply Rle_trans; [apply Rabs_triang|]. lra. Qed.
Lemma added_nonempty l s : added l s -> (1 <= length l)%nat.
Proof. induction 1; cbn; auto. - rewrite app_length. lia. - apply Permutation_length in H. lia. Qed.

Definition grow (n : nat) : R := (1 + u64) ^ n - 1.
Lemma grow_0 n : 0 <= grow n.
Proof. unfold grow. pose proof u64_val. assert (1 <= (1 + u64) ^ n) by (apply pow_R1_Rle; lra). lra. Qed.
Lemma grow_le n m : (n <= m)%nat -> grow n <= grow m.
Proof. intros H. unfold grow. pose proof u64_val. assert ((1 + u64) ^ n <= (1 + u64) ^ m) by (apply Rle_pow; [lra|auto]). lra. Qed.
Lemma grow_S n : grow (S n) = (1 + u64) * grow n + u64.
Proof. unfold grow. cbn. ring. Qed.
Lemma grow_small n : INR n * u64 <= 1 -> grow n <= 2.
Proof.
  intros H. unfold grow. pose proof u64_val as U. assert (E : (1 + u64) ^ n <= exp (INR n * u64)).
  { rewrite <- (exp_ln (1 + u64)) by lra. rewrite <- Rpower_pow by apply exp_pos. unfold Rpower. rewrite ln_exp. 
    destruct (Req_dec (INR n * ln (1 + u64)) (INR n * u64)) as [->|N]; [lra|]. apply Rlt_le, exp_increasing.
    assert (L : ln (1 + u64) <= u64). { apply Rnot_lt_le. intros K. apply exp_increasing in K. rewrite exp_ln in K by lra. pose proof (exp_ineq1 u64). lra. }
    assert (INR n * ln (1 + u64) <= INR n * u64) by (apply Rmult_le_compat_l; [apply pos_INR|exact L]). lra. }
  assert (exp (INR n * u64) <= 3). { destruct (Req_dec (INR n * u64) 1) as [->|N]; [apply exp_le_3|]. apply Rle_trans with (exp 1); [apply Rlt_le, exp_increasing; lra|apply exp_le_3]. }
  lra.
Qed.

Lemma added_error l s : added l s -> Forall double l -> total (map Rabs (map dval l)) <= 2 ^ 1000 -> INR (length l) * u64 <= 1 ->
  double s /\ Rabs (dval s - total (map dval l)) <= grow (length l - 1) * total (map Rabs (map dval l)).
Proof.
  induction 1 as [x|l m a b Ha IHa Hb IHb|l m a P Ha IHa]; intros D B N.
  - inversion D; subst. split; auto. unfold total. cbn. rewrite Rplus_0_r, Rminus_diag_eq, Rabs_R0 by auto. unfold grow. cbn. lra.
  - apply Forall_app in D. destruct D as [Dl Dm]. rewrite !map_app, total_app in B. rewrite !map_app, !total_app. rewrite app_length in *.
    pose proof (added_nonempty _ _ Ha) as Nl. pose proof (added_nonempty _ _ Hb) as Nm. pose proof u64_val as U.
    pose proof (total_abs_nonneg (map dval l)) as Tl. pose proof (total_abs_nonneg (map dval m)) as Tm.
    rewrite plus_INR in N. pose proof (pos_INR (length l)) as Il. pose proof (pos_INR (length m)) as Im.
    assert (N1 : INR (length l) * u64 <= 1) by nra. assert (N2 : INR (length m) * u64 <= 1) by nra.
    destruct (IHa Dl) as [Da Ea]; [lra|auto|]. destruct (IHb Dm) as [Db Eb]; [lra|auto|].
    set (SA := total (map Rabs (map dval l))) in *. set (SB := total (map Rabs (map dval m))) in *.
    set (A := total (map dval l)) in *. set (B0 := total (map dval m)) in *.
    set (G := grow (length l + length m - 2)).
    assert (G0 : 0 <= G) by apply grow_0.
    assert (Ga : Rabs (dval a - A) <= G * SA). { eapply Rle_trans; [exact Ea|]. apply Rmult_le_compat_r; auto. apply grow_le. lia. }
    assert (Gb : Rabs (dval b - B0) <= G * SB). { eapply Rle_trans; [exact Eb|]. apply Rmult_le_compat_r; auto. apply grow_le. lia. }
    assert (HA : Rabs A <= SA) by apply total_abs. assert (HB : Rabs B0 <= SB) by apply total_abs.
    assert (G2 : G <= 2). { apply grow_small. rewrite minus_INR by lia. rewrite plus_INR. simpl (INR 2). nra. }
    assert (Big : Rabs (dval a + dval b) <= bpow radix2 1023).
    { replace (dval a + dval b) with ((dval a - A) + (dval b - B0) + A + B0) by ring. 
      eapply Rle_trans; [apply Rabs_triang|]. eapply Rle_trans; [apply Rplus_le_compat_r, Rabs_triang|]. eapply Rle_trans; [apply Rplus_le_compat_r, Rplus_le_compat_r, Rabs_triang|].
      apply Rle_trans with (3 * (SA + SB)); [nra|]. apply Rle_trans with (3 * 2 ^ 1000); [lra|].
      replace (bpow radix2 1023) with (2 ^ 1023) by (rewrite bpow_powerRZ; change (powerRZ (IZR radix2) 1023) with (2 ^ Pos.to_nat 1023); f_equal).
      replace 1023%nat with (2 + (21 + 1000))%nat by reflexivity. rewrite pow_add, (pow_add _ 21). assert (0 < 2 ^ 1000) by (apply pow_lt; lra).
      assert (1 <= 2 ^ 21) by (apply pow_R1_Rle; lra). set (t := 2 ^ 1000) in *. set (v := 2 ^ 21) in *. replace (2 ^ 2) with 4 by ring. nra. }
    destruct (d_add a b Da Db) as [Ds Es]; [now apply rnd_small|]. split; auto. rewrite Es.
    destruct (rnd_sum_rel (dval a) (dval b) (double_format a Da) (double_format b Db)) as (d & Hd & ->).
    replace (length l + length m - 1)%nat with (S (length l + length m - 2)) by lia. rewrite grow_S. fold G.
    replace ((dval a + dval b) * (1 + d) - (A + B0)) with (((dval a - A) + (dval b - B0)) * (1 + d) + d * (A + B0)) by ring.
    eapply Rle_trans; [apply Rabs_triang|]. rewrite !Rabs_mult.
    assert (X : Rabs ((dval a - A) + (dval b - B0)) <= G * (SA + SB)). { eapply Rle_trans; [apply Rabs_triang|]. lra. }
    assert (Y : Rabs (A + B0) <= SA + SB). { eapply Rle_trans; [apply Rabs_triang|]. lra. }
    assert (Z : Rabs (1 + d) <= 1 + u64). { eapply Rle_trans; [apply Rabs_triang|]. rewrite Rabs_R1. lra. }
    replace (((1 + u64) * G + u64) * (SA + SB)) with (G * (SA + SB) * (1 + u64) + u64 * (SA + SB)) by ring.
    apply Rplus_le_compat; apply Rmult_le_compat; auto; apply Rabs_pos.
  - assert (Dl : Forall double l) by (eapply Permutation_Forall; [apply Permutation_sym; exact P|exact D]).
    rewrite <- (Permutation_length P) in *. rewrite <- (total_perm _ _ (Permutation_map dval P)).
    rewrite <- (total_perm _ _ (Permutation_map Rabs (Permutation_map dval P))) in *. auto.
Qed.

(** numpy's sum as modelled adds up from the left, starting with 0 *)
Lemma fold_added (l : list f64) : forall m a, added m a -> added (m ++ l) (fold_left nadd l a).
Proof.
  induction l as [|x l IH]; intros m a H; cbn; [now rewrite app_nil_r|].
  replace (m ++ x :: l) with ((m ++ [x]) ++ l) by now rewrite <- app_assoc. apply IH. apply added_two; auto. constructor.
Qed.
Lemma nsum_added (l : list f64) : added (n0 :: l) (nsum l).
Proof. unfold nsum. apply (fold_added l [n0] n0). constructor. Qed.
Lemma zero_ok : double (n0 : f64) /\ dval (n0 : f64) = 0.
Proof. split; [split; [reflexivity|exact I]|reflexivity]. Qed.

(** any two orders *)
Lemma orders l s t : added l s -> added l t -> Forall double l -> total (map Rabs (map dval l)) <= 2 ^ 1000 -> INR (length l) * u64 <= 1 ->
  Rabs (dval s - dval t) <= 2 * grow (length l - 1) * total (map Rabs (map dval l)).
Proof.
  intros H1 H2 D B N. destruct (added_error _ _ H1 D B N) as [_ E1]. destruct (added_error _ _ H2 D B N) as [_ E2].
  replace (dval s - dval t) with ((dval s - total (map dval l)) + - (dval t - total (map dval l))) by ring.
  eapply Rle_trans; [apply Rabs_triang|]. rewrite Rabs_Ropp. lra.
Qed.

(** ** whole numbers *)
Lemma whole_format z : (Z.abs z <= 2 ^ 53)%Z -> rnd (IZR z) = IZR z.
Proof. intros H. apply rnd_id. destruct (ofZ_double z H) as [D V]. rewrite <- V. now apply double_format. Qed.
Lemma added_whole l s : added l s -> Forall double l -> Forall whole (map dval l) -> total (map Rabs (map dval l)) <= 2 ^ 53 ->
  double s /\ dval s = total (map dval l) /\ whole (dval s).
Proof.
  induction 1 as [x|l m a b Ha IHa Hb IHb|l m a P Ha IHa]; intros D W B.
  - inversion D; subst. inversion W; subst. split; auto. split; auto. unfold total. cbn. ring.
  - apply Forall_app in D. destruct D as [Dl Dm]. rewrite map_app in W. apply Forall_app in W. destruct W as [Wl Wm].
    rewrite !map_app, total_app in B. pose proof (total_abs_nonneg (map dval l)) as Tl. pose proof (total_abs_nonneg (map dval m)) as Tm.
    destruct (IHa Dl Wl) as (Da & Ea & za & Za); [lra|]. destruct (IHb Dm Wm) as (Db & Eb & zb & Zb); [lra|].
    pose proof (total_abs (map dval l)) as Al. pose proof (total_abs (map dval m)) as Am.
    assert (S : Rabs (dval a + dval b) <= 2 ^ 53). { rewrite Ea, Eb. eapply Rle_trans; [apply Rabs_triang|]. lra. }
    assert (Sz : (Z.abs (za + zb) <= 2 ^ 53)%Z).
    { apply le_IZR. rewrite abs_IZR, plus_IZR, <- Za, <- Zb. replace (IZR (2 ^ 53)) with (2 ^ 53); [auto|exact (pow_IZR 2 53)]. }
    assert (R : rnd (dval a + dval b) = dval a + dval b). { rewrite Za, Zb, <- plus_IZR. now apply whole_format. }
    destruct (d_add a b Da Db) as [Ds Es].
    { rewrite R. eapply Rle_lt_trans; [exact S|]. replace (2 ^ 53) with (bpow radix2 53); [apply bpow_lt; lia|]. rewrite bpow_powerRZ. reflexivity. }
    split; auto. rewrite Es, R, map_app, total_app, Ea, Eb. split; auto. rewrite <- Ea, <- Eb. exists (za + zb)%Z. rewrite plus_IZR. lra.
  - assert (Dl : Forall double l) by (eapply Permutation_Forall; [apply Permutation_sym; exact P|exact D]).
    assert (Wl : Forall whole (map dval l)) by (eapply Permutation_Forall; [apply Permutation_map, Permutation_sym; exact P|exact W]).
    rewrite <- (total_perm _ _ (Permutation_map Rabs (Permutation_map dval P))) in B. rewrite <- (total_perm _ _ (Permutation_map dval P)). auto.
Qed.
