(** Rounding errors of the Petrosian profile. *)
From Coq Require Import SpecFloat ZArith Reals Lra Lia.
From Flocq Require Import Core BinarySingleNaN.
From Verif Require Import Base Num Numpy M_Utils M_Petrosian S_Petrosian S_Double L_Double.
Local Open Scope R_scope.

(** ** sizes *)
Definition sized (k : Z) (x : R) : Prop := bpow radix2 (- k) <= Rabs x <= bpow radix2 k.
Lemma bpow_fmt k : (-1022 <= k <= 1023)%Z -> generic_format radix2 fexp64 (bpow radix2 k).
Proof. intros H. apply generic_format_bpow. unfold SpecFloat.fexp, emin. lia. Qed.
Lemma sized_rnd k x : (0 <= k <= 1022)%Z -> sized k x -> sized k (rnd x).
Proof.
  intros K [H1 H2]. unfold sized. rewrite rnd_abs. split.
  - rewrite <- (rnd_id (bpow radix2 (- k))) by (apply bpow_fmt; lia). now apply rnd_mono.
  - rewrite <- (rnd_id (bpow radix2 k)) by (apply bpow_fmt; lia). now apply rnd_mono.
Qed.
Lemma sized_le j k x : (j <= k)%Z -> sized j x -> sized k x.
Proof.
  intros K [H1 H2]. split; [eapply Rle_trans; [|exact H1]|eapply Rle_trans; [exact H2|]]; apply bpow_le; lia.
Qed.
Lemma sized_nz k x : sized k x -> x <> 0.
Proof. intros [H _] ->. rewrite Rabs_R0 in H. pose proof (bpow_gt_0 radix2 (- k)). lra. Qed.
Lemma sized_mul j k x y : sized j x -> sized k y -> sized (j + k) (x * y).
Proof.
  intros [H1 H2] [H3 H4]. unfold sized. rewrite Rabs_mult. replace (- (j + k))%Z with (- j + - k)%Z by lia. rewrite !bpow_plus.
  pose proof (bpow_gt_0 radix2 (- j)). pose proof (bpow_gt_0 radix2 (- k)). split; apply Rmult_le_compat; auto; try lra; apply Rabs_pos.
Qed.
Lemma sized_inv k x : sized k x -> sized k (/ x).
Proof.
  intros H. pose proof (sized_nz _ _ H) as N0. destruct H as [H1 H2]. unfold sized. rewrite Rabs_inv. rewrite bpow_opp in *.
  pose proof (bpow_gt_0 radix2 k) as P. assert (0 < Rabs x) by now apply Rabs_pos_lt.
  split; [apply Rinv_le; auto|]. rewrite <- (Rinv_inv (bpow radix2 k)). apply Rinv_le; auto. now apply Rinv_0_lt_compat.
Qed.
Lemma sized_div j k x y : sized j x -> sized k y -> sized (j + k) (x / y).
Proof. intros H1 H2. apply sized_mul; auto. now apply sized_inv. Qed.
Lemma sized_rel k x : (0 <= k <= 1022)%Z -> sized k x -> exists d, Rabs d <= u64 /\ rnd x = x * (1 + d).
Proof. intros K [H _]. apply rnd_rel. eapply Rle_trans; [|exact H]. apply bpow_le. lia. Qed.
Lemma sized_small k x : (0 <= k <= 1022)%Z -> sized k x -> Rabs (rnd x) < bpow radix2 1024.
Proof. intros K [_ H]. apply rnd_small. eapply Rle_trans; [exact H|]. apply bpow_le. lia. Qed.

Lemma moderate_sized x : moderate x -> sized 200 x.
Proof.
  unfold moderate, sized. rewrite !bpow_powerRZ. change (IZR radix2) with 2. rewrite powerRZ_neg' by lra.
  change (powerRZ 2 200) with (2 ^ Pos.to_nat 200). now replace (Pos.to_nat 200) with 200%nat by reflexivity.
Qed.

(** ** operations *)
Lemma dd_div j k x y : (0 <= j + k <= 1022)%Z -> double x -> double y -> sized j (dval x) -> sized k (dval y) ->
  double (ndiv x y) /\ sized (j + k) (dval (ndiv x y)) /\ exists d, Rabs d <= u64 /\ dval (ndiv x y) = dval x / dval y * (1 + d).
Proof.
  intros K Hx Hy Sx Sy. pose proof (sized_div _ _ _ _ Sx Sy) as S. destruct (d_div x y Hx Hy (sized_nz _ _ Sy)) as [H1 H2].
  { now apply sized_small with (j + k)%Z. }
  split; auto. rewrite H2. split; [now apply sized_rnd|]. now apply sized_rel with (j + k)%Z.
Qed.
Lemma dd_div0 x y : double x -> double y -> dval x = 0 -> dval y <> 0 -> double (ndiv x y) /\ dval (ndiv x y) = 0.
Proof.
  intros Hx Hy H0 Hn. assert (E : dval x / dval y = 0) by (rewrite H0; unfold Rdiv; ring).
  destruct (d_div x y Hx Hy Hn) as [H1 H2]; rewrite E, rnd_0 in *; auto. rewrite Rabs_R0. apply bpow_gt_0.
Qed.
Lemma dd_sub k x y : (0 <= k <= 1022)%Z -> double x -> double y -> Rabs (dval x) <= bpow radix2 k -> Rabs (dval y) <= bpow radix2 k ->
  double (nsub x y) /\ exists d, Rabs d <= u64 /\ dval (nsub x y) = (dval x - dval y) * (1 + d).
Proof.
  intros K Hx Hy Sx Sy. destruct (d_sub x y Hx Hy) as [H1 H2].
  { apply rnd_small. replace (dval x - dval y) with (dval x + - dval y) by ring. eapply Rle_trans; [apply Rabs_triang|]. rewrite Rabs_Ropp.
    apply Rle_trans with (bpow radix2 (k + 1)); [|apply bpow_le; lia]. rewrite bpow_plus. change (bpow radix2 1) with 2. lra. }
  split; auto. rewrite H2. unfold Rminus. apply rnd_sum_rel; [now apply double_format|]. apply generic_format_opp. now apply double_format.
Qed.
(** doubles of moderate size lie on a common grid *)
Lemma on_grid k x : double x -> sized k (dval x) -> (k <= 900)%Z -> exists m : Z, dval x = IZR m * bpow radix2 (- k - 53).
Proof.
  intros Hx S K. pose proof (double_format x Hx) as F. pose proof (sized_nz _ _ S) as N0. destruct S as [S _].
  red in F. unfold F2R in F. simpl in F. set (mm := Ztrunc _) in F. set (e := cexp _ _ _) in F.
  assert (E : (- k - 53 <= e)%Z).
  { unfold e, cexp, SpecFloat.fexp, emin. pose proof (mag_ge_bpow radix2 (dval x) (- k + 1)) as M. replace (- k + 1 - 1)%Z with (- k)%Z in M by lia.
    specialize (M S). lia. }
  exists (mm * 2 ^ (e - (- k - 53)))%Z. rewrite F at 1. rewrite mult_IZR. rewrite (IZR_Zpower radix2) by lia.
  rewrite Rmult_assoc, <- bpow_plus. do 2 f_equal. lia.
Qed.
Lemma gap k x y : double x -> double y -> sized k (dval x) -> sized k (dval y) -> (0 <= k <= 900)%Z -> dval x <> dval y ->
  sized (k + 53) (dval x - dval y).
Proof.
  intros Hx Hy Sx Sy K D. destruct (on_grid k x Hx Sx) as [m E]; [lia|]. destruct (on_grid k y Hy Sy) as [n E']; [lia|]. split.
  - rewrite E, E'. replace (IZR m * bpow radix2 (- k - 53) - IZR n * bpow radix2 (- k - 53)) with (IZR (m - n) * bpow radix2 (- k - 53)).
    2:{ rewrite minus_IZR. ring. }
    rewrite Rabs_mult, (Rabs_pos_eq (bpow _ _)) by apply bpow_ge_0. replace (- (k + 53))%Z with (- k - 53)%Z by lia.
    assert (H : (m - n <> 0)%Z). { intros H. apply D. rewrite E, E'. now replace m with n by lia. }
    rewrite <- (Rmult_1_l (bpow radix2 (- k - 53))) at 1. apply Rmult_le_compat_r; [apply bpow_ge_0|].
    rewrite <- abs_IZR. apply IZR_le. lia.
  - destruct Sx as [_ Sx]. destruct Sy as [_ Sy]. replace (dval x - dval y) with (dval x + - dval y) by ring.
    eapply Rle_trans; [apply Rabs_triang|]. rewrite Rabs_Ropp. apply Rle_trans with (bpow radix2 (k + 1)); [|apply bpow_le; lia].
    rewrite bpow_plus. change (bpow radix2 1) with 2. lra.
Qed.
Lemma dd_gap k x y : (0 <= k <= 900)%Z -> double x -> double y -> sized k (dval x) -> sized k (dval y) -> dval x <> dval y ->
  double (nsub x y) /\ sized (k + 53) (dval (nsub x y)) /\ exists d, Rabs d <= u64 /\ dval (nsub x y) = (dval x - dval y) * (1 + d).
Proof.
  intros K Hx Hy Sx Sy D. pose proof (gap k x y Hx Hy Sx Sy K D) as G.
  destruct (dd_sub k x y) as [H1 (d & H2 & H3)]; auto; [lia|apply Sx|apply Sy|].
  split; auto. split; [|eauto]. destruct (d_sub x y Hx Hy) as [_ E].
  - apply sized_small with (k + 53)%Z; auto; lia.
  - rewrite E. apply sized_rnd; auto; lia.
Qed.

(** ** accumulated errors *)
Lemma abs_both a u : Rabs a <= u -> - u <= a <= u.
Proof. intros H. apply Rabs_le_inv in H. exact H. Qed.
Lemma five_errors u d1 d2 d3 d4 d5 : 0 < u <= / 100 -> Rabs d1 <= u -> Rabs d2 <= u -> Rabs d3 <= u -> Rabs d4 <= u -> Rabs d5 <= u ->
  Rabs ((1 + d1) * (1 + d3) * (1 + d5) / ((1 + d2) * (1 + d4)) - 1) <= 6 * u.
Proof.
  intros U H1 H2 H3 H4 H5. apply abs_both in H1. apply abs_both in H2. apply abs_both in H3. apply abs_both in H4. apply abs_both in H5.
  set (X := (1 + d1) * (1 + d3) * (1 + d5)). set (Y := (1 + d2) * (1 + d4)).
  assert (Xu : (1 - u) * (1 - u) * (1 - u) <= X <= (1 + u) * (1 + u) * (1 + u)).
  { unfold X. split; (apply Rmult_le_compat; [try apply Rmult_le_pos; lra|lra| |lra]; apply Rmult_le_compat; lra). }
  assert (Yu : (1 - u) * (1 - u) <= Y <= (1 + u) * (1 + u)).
  { unfold Y. split; apply Rmult_le_compat; lra. }
  clearbody X Y. assert (Y0 : 0 < Y) by nra. apply Rabs_le.
  assert (L1 : (1 + u) * (1 + u) * (1 + u) <= (1 + 6 * u) * ((1 - u) * (1 - u))) by nra.
  assert (L2 : (1 - 6 * u) * ((1 + u) * (1 + u)) <= (1 - u) * (1 - u) * (1 - u)) by nra.
  assert (M1 : X <= (1 + 6 * u) * Y). { eapply Rle_trans; [apply Xu|]. eapply Rle_trans; [exact L1|]. apply Rmult_le_compat_l; lra. }
  assert (M2 : (1 - 6 * u) * Y <= X). { eapply Rle_trans; [|apply Xu]. eapply Rle_trans; [|exact L2]. apply Rmult_le_compat_l; lra. }
  split.
  - apply Rmult_le_reg_r with Y; auto. unfold Rdiv. rewrite Rmult_minus_distr_r, Rmult_assoc, Rinv_l by lra. lra.
  - apply Rmult_le_reg_r with Y; auto. unfold Rdiv. rewrite Rmult_minus_distr_r, Rmult_assoc, Rinv_l by lra. lra.
Qed.

(** ** the profile *)
Notation dz := (S754_zero false).
Lemma diff_at (d : f64) (l : list f64) : forall i, (S i < length l)%nat -> nth_error (diff l) i = Some (nsub (nth (S i) l d) (nth i l d)).
Proof.
  induction l as [|x [|y l] IH]; intros i Hi; simpl in Hi; try lia. destruct i as [|i]; [reflexivity|].
  cbn [diff]. cbn [nth_error]. rewrite IH by (simpl; lia). reflexivity.
Qed.
Lemma diff_len (l : list f64) : length (diff l) = (length l - 1)%nat.
Proof. induction l as [|x [|y l] IH]; auto. cbn [diff length] in *. lia. Qed.
Lemma map2_nth {A B C} (f : A -> B -> C) l : forall m i a b, nth_error l i = Some a -> nth_error m i = Some b -> nth_error (map2 f l m) i = Some (f a b).
Proof.
  induction l as [|x l IH]; intros [|y m] [|i] a b; cbn; try discriminate.
  - now intros [= ->] [= ->].
  - auto.
Qed.
Lemma map2_len3 {A B C} (f : A -> B -> C) l : forall m, length (map2 f l m) = Nat.min (length l) (length m).
Proof. induction l; intros [|y m]; cbn; auto. Qed.
Lemma tl_at (d : f64) (l : list f64) i : (S i < length l)%nat -> nth_error (tl l) i = Some (nth (S i) l d).
Proof. destruct l as [|x l]; simpl; [lia|]. intros H. apply nth_error_nth'. lia. Qed.
Lemma ranks_id (l : list f64) : forall p k, Forall double (p :: l) -> increasing (map dval (p :: l)) -> ranks_from p k l = seq (S k) (length l).
Proof.
  induction l as [|x l IH]; intros p k D I; auto. cbn [ranks_from length seq].
  inversion D as [|? ? Dp D']; subst. inversion D' as [|? ? Dx D'']; subst.
  assert (Lt : dval p < dval x). { apply (I 0%nat). simpl. lia. }
  rewrite d_eqb by auto. rewrite Reqb_false by lra. f_equal. apply IH; auto.
  intros i Hi. apply (I (S i)). simpl in *. lia.
Qed.
Lemma mapM_ok {A B} (f : A -> result B) (l : list A) : forall (m : list B), length m = length l ->
  (forall i a b, nth_error l i = Some a -> nth_error m i = Some b -> f a = Ok b) -> mapM f l = Ok m.
Proof.
  induction l as [|a l IH]; intros [|b m] E H; simpl in E; try discriminate; auto.
  cbn. rewrite (H 0%nat a b) by reflexivity. cbn. rewrite (IH m); auto. intros i. apply (H (S i)).
Qed.
Lemma gather_id (l : list f64) n : n = length l -> gather l (seq 0 n) = Ok l.
Proof.
  intros ->. unfold gather. apply mapM_ok; [now rewrite seq_length|]. intros i a b H1 H2.
  assert (Hi : (i < length l)%nat) by (apply nth_error_Some; congruence).
  pose proof (nth_error_nth _ _ 0%nat H1) as E. rewrite seq_nth in E by auto. subst a. cbn. now rewrite H2.
Qed.
Lemma dval_at (l : list f64) i : at_ (map dval l) i = dval (nth i l dz).
Proof. unfold at_. change 0 with (dval dz). apply map_nth. Qed.

Section Profile.
  Variables A L : list f64.
  Hypotheses (Len : length L = length A) (Long : (2 < length A)%nat) (DA : Forall double A) (DL : Forall double L)
    (MA : Forall moderate (map dval A)) (ML : Forall moderate (map dval L)) (IA : increasing (map dval A)).

  Lemma all_at (P : f64 -> Prop) l i : Forall P l -> (i < length l)%nat -> P (nth i l dz).
  Proof. intros H Hi. rewrite Forall_forall in H. apply H. now apply nth_In. Qed.
  Lemma all_mod l i : Forall moderate (map dval l) -> (i < length l)%nat -> sized 200 (dval (nth i l dz)).
  Proof.
    intros H Hi. rewrite Forall_forall in H. apply moderate_sized. apply H. apply in_map. now apply nth_In.
  Qed.
  Lemma area_step i : (S i < length A)%nat -> double (nsub (nth (S i) A dz) (nth i A dz)) /\ 0 < dval (nsub (nth (S i) A dz) (nth i A dz)) /\
    sized 253 (dval (nsub (nth (S i) A dz) (nth i A dz))) /\
    exists d, Rabs d <= u64 /\ dval (nsub (nth (S i) A dz) (nth i A dz)) = (dval (nth (S i) A dz) - dval (nth i A dz)) * (1 + d).
  Proof.
    intros Hi. pose proof (IA i) as I. rewrite map_length, !dval_at in I. specialize (I Hi).
    destruct (dd_gap 200 (nth (S i) A dz) (nth i A dz)) as (H1 & H2 & d & H3 & H4); try lia; try (apply all_at; auto; lia); try (apply all_mod; auto; lia); try lra.
    split; auto. split; [|split; eauto]. rewrite H4. apply Rmult_lt_0_compat; [lra|]. apply abs_both in H3. pose proof u64_val. lra.
  Qed.
  Definition entry (i : nat) : f64 :=
    ndiv (ndiv (nsub (nth (S i) L dz) (nth i L dz)) (nsub (nth (S i) A dz) (nth i A dz))) (ndiv (nth (S i) L dz) (nth (S i) A dz)).
  Lemma entry_ok i : (S i < length A)%nat -> double (entry i) /\ Rabs (dval (entry i)) <= bpow radix2 1000 /\
    within 6 (petro_ratio (map dval A) (map dval L) (S i)) (dval (entry i)).
  Proof.
    intros Hi. destruct (area_step i Hi) as (Da & _ & Sa & d2 & E2 & Va).
    assert (D1 : double (nth (S i) L dz)) by (apply all_at; auto; lia). assert (D2 : double (nth (S i) A dz)) by (apply all_at; auto; lia).
    assert (S1 : sized 200 (dval (nth (S i) L dz))) by (apply all_mod; auto; lia). assert (S2 : sized 200 (dval (nth (S i) A dz))) by (apply all_mod; auto; lia).
    destruct (dd_div 200 200 (nth (S i) L dz) (nth (S i) A dz)) as (Dm & Sm & d4 & E4 & Vm); auto; try lia.
    assert (D0 : double (nth i L dz)) by (apply all_at; auto; lia). assert (S0 : sized 200 (dval (nth i L dz))) by (apply all_mod; auto; lia).
    pose proof (IA i) as I. rewrite map_length, !dval_at in I. specialize (I Hi).
    unfold within, petro_ratio, local_sb, mean_sb. rewrite !dval_at. replace (S i - 1)%nat with i by lia. unfold entry.
    set (l1 := nth (S i) L dz) in *. set (l0 := nth i L dz) in *. set (a1 := nth (S i) A dz) in *. set (a0 := nth i A dz) in *.
    pose proof (sized_nz _ _ S1) as Nl. pose proof (sized_nz _ _ S2) as Na. pose proof (sized_nz _ _ Sa) as Nd. pose proof (sized_nz _ _ Sm) as Nm.
    pose proof u64_val as U. destruct (Req_dec (dval l1) (dval l0)) as [Z|NZ].
    - destruct (dd_sub 200 l1 l0) as [Ds (d & _ & Es)]; auto; try lia; [apply S1|apply S0|].
      rewrite Z, Rminus_diag_eq, Rmult_0_l in Es by auto. destruct (dd_div0 _ _ Ds Da Es Nd) as [Df Ef].
      destruct (dd_div0 _ _ Df Dm Ef Nm) as [Dg Eg]. split; auto. split; [rewrite Eg, Rabs_R0; apply bpow_ge_0|]. rewrite Eg, Z.
      replace ((dval l0 - dval l0) / (dval a1 - dval a0) / (dval l0 / dval a1)) with 0 by (unfold Rdiv; ring).
      rewrite Rminus_0_r, Rabs_R0. apply Req_le. ring.
    - destruct (dd_gap 200 l1 l0) as (Ds & Ss & d1 & E1 & Vs); auto; try lia.
      destruct (dd_div 253 253 _ _ ltac:(lia) Ds Da Ss Sa) as (Df & Sf & d3 & E3 & Vf).
      destruct (dd_div 506 400 _ _ ltac:(lia) Df Dm Sf Sm) as (Dg & Sg & d5 & E5 & Vg).
      split; auto. split; [eapply Rle_trans; [apply Sg|apply bpow_le; lia]|]. rewrite Vg, Vf, Vs, Va, Vm.
      pose proof (five_errors u64 d1 d2 d3 d4 d5 ltac:(lra) E1 E2 E3 E4 E5) as F.
      apply abs_both in E2. apply abs_both in E4. set (p := (dval l1 - dval l0) / (dval a1 - dval a0) / (dval l1 / dval a1)).
      replace ((dval l1 - dval l0) * (1 + d1) / ((dval a1 - dval a0) * (1 + d2)) * (1 + d3) / (dval l1 / dval a1 * (1 + d4)) * (1 + d5) - p)
        with (p * ((1 + d1) * (1 + d3) * (1 + d5) / ((1 + d2) * (1 + d4)) - 1)).
      2:{ unfold p. field. repeat split; try assumption; lra. }
      rewrite Rabs_mult, (Rmult_comm (6 * u64)). apply Rmult_le_compat_l; [apply Rabs_pos|]. exact F.
  Qed.
  Lemma profile_run : calculate_petrosian DFloat A L None None = Ok (nnan :: map entry (seq 0 (length A - 1)), None).
  Proof.
    unfold calculate_petrosian. rewrite Len, Nat.eqb_refl. cbn [assert_]. replace (Nat.ltb 2 (length A)) with true by (symmetry; now apply Nat.ltb_lt). cbn [assert_].
    assert (F : forallb (fun x : f64 => nleb n0 x) (diff A) = true).
    { apply forallb_forall. intros x Hx. apply In_nth_error in Hx. destruct Hx as [i Hx].
      assert (Hi : (S i < length A)%nat). { assert (i < length (diff A))%nat by (apply nth_error_Some; congruence). rewrite diff_len in H. lia. }
      rewrite (diff_at dz) in Hx by auto. injection Hx as <-. destruct (area_step i Hi) as (Da & P & _).
      rewrite d_leb; auto; [|split; [reflexivity|exact I]]. apply Rleb_true. apply Rlt_le; exact P. }
    rewrite F. cbn [assert_].
    assert (R : ranks A = seq 0 (length A)).
    { destruct A as [|x l]; [simpl in Long; lia|]. unfold ranks. rewrite ranks_id by auto. reflexivity. }
    rewrite R. assert (E : map2 ndiv (I_at DFloat A L) (I_avg A L) = map entry (seq 0 (length A - 1))).
    { apply nth_error_ext. intros i. destruct (Nat.lt_ge_cases i (length A - 1)) as [Hi|Hi].
      - rewrite (map2_nth ndiv _ _ i (ndiv (nsub (nth (S i) L dz) (nth i L dz)) (nsub (nth (S i) A dz) (nth i A dz))) (ndiv (nth (S i) L dz) (nth (S i) A dz))).
        + rewrite nth_error_map. rewrite (nth_error_nth' _ 0%nat) by (rewrite seq_length; lia). rewrite seq_nth by lia. reflexivity.
        + unfold I_at. rewrite (map2_nth _ _ _ i (nsub (nth (S i) L dz) (nth i L dz)) (nsub (nth (S i) A dz) (nth i A dz))) by (apply diff_at; lia).
          destruct (area_step i) as (Da & P & _); [lia|]. rewrite d_ltb; auto; [|split; [reflexivity|exact I]]. rewrite Rltb_true; auto.
        + unfold I_avg. apply map2_nth; apply tl_at; lia.
      - assert (N1 : nth_error (map2 ndiv (I_at DFloat A L) (I_avg A L)) i = None).
        { apply nth_error_None. rewrite map2_len3. unfold I_at, I_avg. rewrite !map2_len3, !diff_len. lia. }
        rewrite N1. symmetry. apply nth_error_None. rewrite map_length, seq_length. lia. }
    rewrite E. rewrite gather_id by (cbn [length]; rewrite map_length, seq_length; lia). reflexivity.
  Qed.
  Lemma profile_double : exists P, calculate_petrosian DFloat A L None None = Ok (P, None) /\ length P = length A /\ nth_error P 0 = Some nnan /\
    forall i, (1 <= i < length A)%nat -> exists p, nth_error P i = Some p /\ double p /\ within 6 (petro_ratio (map dval A) (map dval L) i) (dval p).
  Proof.
    eexists. split; [apply profile_run|]. split; [cbn [length]; rewrite map_length, seq_length; lia|]. split; [reflexivity|]. intros [|i] Hi; [lia|].
    exists (entry i). split; [|split; apply entry_ok; lia]. cbn [nth_error]. rewrite nth_error_map. rewrite (nth_error_nth' _ 0%nat) by (rewrite seq_length; lia).
    rewrite seq_nth by lia. reflexivity.
  Qed.
End Profile.
