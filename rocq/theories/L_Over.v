(** Oversampled images in double precision. *)
From Coq Require Import String SpecFloat ZArith Reals Lra Lia.
From Flocq Require Import Core BinarySingleNaN.
From Verif Require Import Base Num Numpy M_Utils M_Petrosian M_Correction M_PSF S_Petrosian S_Photometry S_PSF S_Double S_Sums L_Double L_Double2 L_Double3 L_Double4 L_Sums L_Sums3 L_Grid L_Grid4 L_Flux6 L_Near L_Near2 S_Near L_Near3 L_PSF S_Over.
Local Open Scope R_scope.
Notation sum := S_Sums.total.

Lemma trunc_whole x z : double x -> dval x = IZR z -> f64_trunc x = Some z.
Proof.
  intros [_ D] E. destruct x as [s|s| |s m e]; try contradiction.
  - cbn in *. f_equal. apply eq_IZR in E. lia.
  - cbn [f64_trunc]. f_equal. assert (A : f64_absZ_floor m e = Z.abs z).
    { assert (P : IZR (Zpos m) * powerRZ 2 e = IZR (Z.abs z)).
      { rewrite abs_IZR, <- E. unfold dval. assert (0 < powerRZ 2 e) by (apply powerRZ_lt; lra). assert (0 < IZR (Zpos m)) by (apply IZR_lt; lia).
        rewrite !Rabs_mult, (Rabs_pos_eq (powerRZ 2 e)), (Rabs_pos_eq (IZR (Zpos m))) by lra. destruct s; [rewrite Rabs_left by lra|rewrite Rabs_pos_eq by lra]; ring. }
      unfold f64_absZ_floor. destruct (Z.leb_spec 0 e) as [H|H].
      - apply eq_IZR. rewrite mult_IZR, <- P. f_equal. rewrite <- (Z2Nat.id e) by auto. rewrite <- pow_IZR, <- pow_powerRZ. reflexivity.
      - assert (Q : Zpos m = (Z.abs z * 2 ^ (- e))%Z).
        { apply eq_IZR. rewrite mult_IZR, <- P. assert (K : IZR (2 ^ (- e)) = powerRZ 2 (- e)) by (rewrite <- (Z2Nat.id (- e)) by lia; rewrite <- pow_IZR, <- pow_powerRZ; reflexivity).
          rewrite K, Rmult_assoc, <- powerRZ_add by lra. replace (e + - e)%Z with 0%Z by lia. cbn. ring. }
        rewrite Q. apply Z.div_mul. apply Z.pow_nonzero; lia. }
    rewrite A. unfold dval in E. assert (0 < powerRZ 2 e) by (apply powerRZ_lt; lra). assert (0 < IZR (Zpos m)) by (apply IZR_lt; lia).
    assert (0 < IZR (Zpos m) * powerRZ 2 e) by (apply Rmult_lt_0_compat; auto). destruct s.
    + assert (IZR z < 0) by (rewrite <- E; lra). apply lt_IZR in H2. lia.
    + assert (0 < IZR z) by (rewrite <- E; lra). apply lt_IZR in H2. lia.
Qed.
Lemma index_whole a b : (Z.abs a <= 2 ^ 40)%Z -> (Z.abs b <= 2 ^ 40)%Z -> to_int (nsub (f64_ofZ a) (f64_ofZ b)) = Ok (a - b)%Z.
Proof.
  intros Ha Hb. destruct (ofZ_double a ltac:(lia)) as [A1 A2]. destruct (ofZ_double b ltac:(lia)) as [B1 B2]. destruct (ofZ_double (a - b) ltac:(lia)) as [C1 C2].
  assert (R : rnd (dval (f64_ofZ a) - dval (f64_ofZ b)) = IZR (a - b)). { rewrite A2, B2, <- minus_IZR, <- C2. apply rnd_id. now apply double_format. }
  destruct (d_sub _ _ A1 B1) as [D1 D2]. { rewrite R. change (bpow radix2 1024) with (bpow radix2 (60 + 964)). apply Rle_lt_trans with (bpow radix2 60); [|apply bpow_lt; lia]. rewrite <- abs_IZR. change (bpow radix2 60) with (IZR (2 ^ 60)). apply IZR_le. lia. }
  rewrite R in D2. unfold to_int. cbn [ntrunc F64num]. now rewrite (trunc_whole _ _ D1 D2).
Qed.
Lemma min_whole zs : (1 <= length zs)%nat -> Forall (fun z => (Z.abs z <= 2 ^ 40)%Z) zs -> exists m, pymin (map f64_ofZ zs) = Ok (f64_ofZ m) /\ In m zs /\ forall z, In z zs -> (m <= z)%Z.
Proof.
  intros L F. destruct zs as [|z zs]; [cbn in L; lia|]. cbn [map pymin]. inversion F as [|? ? Fz Fs]; subst. clear F L.
  assert (G : forall l z, (Z.abs z <= 2 ^ 40)%Z -> Forall (fun z => (Z.abs z <= 2 ^ 40)%Z) l -> exists m, pymin_from (f64_ofZ z) (map f64_ofZ l) = f64_ofZ m /\ (m = z \/ In m l) /\ (m <= z)%Z /\ forall x, In x l -> (m <= x)%Z).
  { unfold pymin_from. induction l as [|x l IH]; intros y Hy Hl; cbn [map fold_left].
    - exists y. repeat split; auto; [lia|intros ? []].
    - inversion Hl; subst. destruct (ofZ_double x ltac:(lia)) as [X1 X2]. destruct (ofZ_double y ltac:(lia)) as [Y1 Y2]. rewrite d_ltb by auto. rewrite X2, Y2. destruct (Rlt_le_dec (IZR x) (IZR y)) as [C|C].
      + rewrite Rltb_true by auto. apply lt_IZR in C. destruct (IH x) as (m & M1 & M2 & M3 & M4); auto. exists m. repeat split; auto; [destruct M2; [right; left|right; right]; auto|lia|intros w [<-|Hw]; auto].
      + rewrite Rltb_false by lra. apply le_IZR in C. destruct (IH y) as (m & M1 & M2 & M3 & M4); auto. exists m. repeat split; auto; [destruct M2; [left|right; right]; auto|intros w [<-|Hw]; [lia|auto]]. }
  destruct (G zs z Fz Fs) as (m & M1 & M2 & M3 & M4). exists m. rewrite M1. split; auto. split; [destruct M2; [left|right]; auto|]. intros w [<-|Hw]; auto.
Qed.
Lemma max_some (zs : list Z) : (1 <= length zs)%nat -> exists m, pymax (map f64_ofZ zs) = Ok m.
Proof. destruct zs; cbn; [lia|]. intros _. eauto. Qed.

(** rounding a number of size up to [M] *)
Lemma rnd_upto x M : / 2 <= M -> Rabs x <= M -> Rabs (rnd x - x) <= 2 * u64 * M.
Proof.
  intros HM Hx. pose proof u64_val as U. pose proof (rnd_any x) as R. assert (T : bpow radix2 (-1000) <= u64 * / 2).
  { rewrite u64_bpow. change (/ 2) with (bpow radix2 (-1)). rewrite <- bpow_plus. apply bpow_le. lia. }
  assert (u64 * Rabs x <= u64 * M) by (apply Rmult_le_compat_l; lra). assert (u64 * / 2 <= u64 * M) by (apply Rmult_le_compat_l; lra). lra.
Qed.
Lemma upto_small x : Rabs x <= 2 ^ 60 -> Rabs (rnd x) < bpow radix2 1024.
Proof. intros H. apply rnd_small. apply Rle_trans with (1 := H). change (2 ^ 60) with (IZR 2 ^ 60). rewrite pow_IZR. change (IZR (2 ^ Z.of_nat 60)) with (bpow radix2 60). apply bpow_le. lia. Qed.

Section Coordinate.
  Variables (A : R) (o : Z) (F k : nat).
  Hypotheses (A1 : 1 <= A <= 2 ^ 30) (Ho : Rabs (IZR o) <= A) (F1 : (1 <= F)%nat) (F2 : (Z.of_nat F <= 2 ^ 20)%Z) (Hk : gx 0 F k <= 2 * A + 1 / 2).
  Lemma coordinate_double : let c := grid_coord (f64_ofZ o) (Z.of_nat F) k in double c /\ Rabs (dval c - gx (IZR o) F k) <= 32 * u64 * A.
  Proof.
    intros c. pose proof u64_val as U. assert (P30 : 2 ^ 30 = 1073741824) by ring. assert (P60 : 2 ^ 60 = 1152921504606846976) by ring. rewrite P30 in *.
    assert (NF : 1 <= INR F) by (apply (le_INR 1); auto). assert (NF2 : INR F <= 1048576). { rewrite INR_IZR_INZ. change 1048576 with (IZR (2 ^ 20)). now apply IZR_le. }
    pose proof (pos_INR k) as K0. assert (Hq : (INR k + / 2) / INR F <= 2 * A + 1). { unfold gx in Hk. replace ((INR k + / 2) / INR F) with ((1 / 2 + INR k) / INR F) by (field; lra). lra. }
    assert (KB : INR k + / 2 <= (2 * A + 1) * INR F). { replace (INR k + / 2) with ((INR k + / 2) / INR F * INR F) by (field; lra). apply Rmult_le_compat_r; lra. }
    assert (KB2 : INR k + / 2 <= 2252349569499137). { eapply Rle_trans; [exact KB|]. apply Rle_trans with ((2 * 1073741824 + 1) * 1048576); [apply Rmult_le_compat; lra|lra]. }
    assert (Kz : (Z.abs (Z.of_nat k) <= 2 ^ 53)%Z). { rewrite Z.abs_eq by lia. apply le_IZR. rewrite <- INR_IZR_INZ. change (IZR (2 ^ 53)) with 9007199254740992. lra. }
    assert (Oz : (Z.abs o <= 2 ^ 53)%Z). { apply le_IZR. rewrite abs_IZR. change (IZR (2 ^ 53)) with 9007199254740992. lra. }
    destruct (ofZ_double _ Kz) as [k1 k2]. rewrite <- INR_IZR_INZ in k2. destruct (ofZ_double o Oz) as [o1 o2]. destruct (ofZ_double (Z.of_nat F) ltac:(lia)) as [f1 f2]. rewrite <- INR_IZR_INZ in f2.
    destruct half_double as [h1 h2]. change (M_Petrosian.half : f64) with (M_PSF.half : f64) in h1, h2. assert (uA : 0 < u64 * A <= / 1000000). { split; [apply Rmult_lt_0_compat; lra|]. apply Rle_trans with (/ 9007199254740992 * 1073741824); [apply Rmult_le_compat; lra|lra]. }
    unfold c, grid_coord, nofnat. cbn [nofZ F64num].
    (* half + k *)
    assert (Q0 : Rabs (rnd (/ 2 + INR k) - (/ 2 + INR k)) <= 2 * u64 * (INR k + / 2)) by (apply rnd_upto; [lra|rewrite Rabs_pos_eq; lra]).
    destruct (d_add _ _ h1 k1) as [a1 a2]; rewrite h2, k2 in *; [apply upto_small; rewrite P60, Rabs_pos_eq; lra|]. rewrite <- a2 in Q0. set (a := nadd (M_PSF.half : f64) (f64_ofZ (Z.of_nat k))) in *.
    assert (W : Rabs (dval a / INR F - (INR k + / 2) / INR F) <= 2 * u64 * (2 * A + 1)).
    { replace (dval a / INR F - (INR k + / 2) / INR F) with ((dval a - (/ 2 + INR k)) * / INR F) by (field; lra). rewrite Rabs_mult, (Rabs_pos_eq (/ INR F)) by (apply Rlt_le, Rinv_0_lt_compat; lra).
      apply Rle_trans with (2 * u64 * (INR k + / 2) * / INR F); [apply Rmult_le_compat_r; auto; apply Rlt_le, Rinv_0_lt_compat; lra|]. rewrite Rmult_assoc. apply Rmult_le_compat_l; [lra|exact Hq]. }
    assert (q0 : 0 <= (INR k + / 2) / INR F) by (apply Rmult_le_pos; [lra|apply Rlt_le, Rinv_0_lt_compat; lra]). set (q := (INR k + / 2) / INR F) in *. apply abs_both in W.
    (* / F *)
    assert (Q1 : Rabs (rnd (dval a / INR F) - dval a / INR F) <= 2 * u64 * (2 * A + 2)) by (apply rnd_upto; [lra|apply Rabs_le; lra]).
    destruct (d_div a (f64_ofZ (Z.of_nat F)) a1 f1) as [b1 b2]; rewrite f2 in *; [lra|apply upto_small; rewrite P60; apply Rabs_le; lra|]. rewrite <- b2 in Q1. set (b := ndiv a (f64_ofZ (Z.of_nat F))) in *. apply abs_both in Q1.
    (* - half *)
    assert (Q2 : Rabs (rnd (dval b - / 2) - (dval b - / 2)) <= 2 * u64 * (2 * A + 2)) by (apply rnd_upto; [lra|apply Rabs_le; lra]).
    destruct (d_sub b _ b1 h1) as [c1 c2]; rewrite h2 in *; [apply upto_small; rewrite P60; apply Rabs_le; lra|]. rewrite <- c2 in Q2. set (cc := nsub b (M_PSF.half : f64)) in *. apply abs_both in Q2.
    (* + o *)
    apply abs_both in Ho. assert (Q3 : Rabs (rnd (dval cc + IZR o) - (dval cc + IZR o)) <= 2 * u64 * (3 * A + 2)) by (apply rnd_upto; [lra|apply Rabs_le; lra]).
    destruct (d_add cc _ c1 o1) as [e1 e2]; rewrite o2 in *; [apply upto_small; rewrite P60; apply Rabs_le; lra|]. rewrite <- e2 in Q3. apply abs_both in Q3. split; [exact e1|].
    unfold gx. replace ((1 / 2 + INR k) / INR F) with q by (unfold q; field; lra). apply Rabs_le. assert (u64 <= u64 * A) by (rewrite <- (Rmult_1_r u64) at 1; apply Rmult_le_compat_l; lra). lra.
  Qed.
End Coordinate.

Lemma sum_seq (h : nat -> R) n : sum (map h (seq 0 n)) = sum_to n h.
Proof. induction n as [|n IH]; [reflexivity|]. rewrite seq_S, map_app, total_app, IH. cbn. lra. Qed.
Lemma sum_flat (h : nat -> nat -> f64) m n : sum (map dval (flat_map (fun a => map (h a) (seq 0 m)) (seq 0 n))) = sum2 n m (fun a b => dval (h a b)).
Proof.
  unfold sum2. rewrite <- sum_seq. generalize (seq 0 n) as l. induction l as [|a l IH]; [reflexivity|]. cbn [flat_map map]. rewrite map_app, total_app, IH, map_map, sum_seq. reflexivity.
Qed.
Lemma flat_length (h : nat -> nat -> f64) m n : length (flat_map (fun a => map (h a) (seq 0 m)) (seq 0 n)) = (n * m)%nat.
Proof.
  rewrite <- (seq_length n 0) at 2. generalize (seq 0 n) as l. induction l as [|a l IH]; [reflexivity|]. cbn [flat_map length]. rewrite app_length, IH, map_length, seq_length. reflexivity.
Qed.
Lemma sum_close n h h' e : (forall i, (i < n)%nat -> Rabs (h i - h' i) <= e) -> Rabs (sum_to n h - sum_to n h') <= INR n * e.
Proof.
  induction n as [|n IH]; intros H; [cbn; rewrite Rminus_0_r, Rabs_R0; lra|]. cbn [sum_to]. rewrite S_INR. replace (sum_to n h + h n - (sum_to n h' + h' n)) with ((sum_to n h - sum_to n h') + (h n - h' n)) by ring.
  eapply Rle_trans; [apply Rabs_triang|]. specialize (IH (fun i Hi => H i (Nat.lt_lt_succ_r _ _ Hi))). specialize (H n (Nat.lt_succ_diag_r n)). lra.
Qed.
Lemma sum2_close n m h h' e : (forall i j, (i < n)%nat -> (j < m)%nat -> Rabs (h i j - h' i j) <= e) -> Rabs (sum2 n m h - sum2 n m h') <= INR n * (INR m * e).
Proof. intros H. apply sum_close. intros i Hi. apply sum_close. auto. Qed.

Section Pixel.
  Variables (f : f64 -> f64 -> f64) (g : R -> R -> R) (A B delta lip : R) (ox oy : Z) (F I J : nat).
  Hypotheses (Dr : draws f g A B delta lip) (A1 : 1 <= A <= 2 ^ 30) (Lip : 0 <= lip) (Bd : B + delta <= 2 ^ 100) (Hox : Rabs (IZR ox) <= A) (Hoy : Rabs (IZR oy) <= A)
    (F1 : (1 <= F)%nat) (F2 : (Z.of_nat F <= 2 ^ 20)%Z) (HI : Rabs (IZR ox + INR I) <= A) (HJ : Rabs (IZR oy + INR J) <= A).
  Let cx k := grid_coord (f64_ofZ ox) (Z.of_nat F) k.
  Let cy k := grid_coord (f64_ofZ oy) (Z.of_nat F) k.
  Let e := delta + lip * (64 * u64 * A).

  Lemma coord_at o K b : Rabs (IZR o) <= A -> Rabs (IZR o + INR K) <= A -> (b < F)%nat ->
    let c := grid_coord (f64_ofZ o) (Z.of_nat F) (K * F + b) in let t := IZR o + INR K - 1 / 2 + (INR b + 1 / 2) / INR F in
    double c /\ Rabs (dval c - t) <= 32 * u64 * A /\ Rabs t <= 2 * A /\ Rabs (dval c) <= 2 * A.
  Proof.
    intros Ho HK Hb c t. pose proof u64_val as U. assert (NF : 1 <= INR F) by (apply (le_INR 1); auto).
    assert (T : gx (IZR o) F (K * F + b) = t) by (unfold t; apply gx_split; lia).
    assert (q : 0 <= (INR b + 1 / 2) / INR F <= 1). { pose proof (pos_INR b). assert (INR b + 1 <= INR F) by (rewrite <- S_INR; apply le_INR; lia). split; [apply Rmult_le_pos; [lra|apply Rlt_le, Rinv_0_lt_compat; lra]|].
      apply Rmult_le_reg_r with (INR F); [lra|]. unfold Rdiv. rewrite Rmult_assoc, Rinv_l by lra. lra. }
    apply abs_both in Ho as Ho'. apply abs_both in HK as HK'.
    destruct (coordinate_double A o F (K * F + b) A1 Ho F1 F2) as [C1 C2]. { rewrite gx_split by lia. lra. }
    fold c in C1, C2. rewrite T in C2. assert (Tb : Rabs t <= A + 1 / 2) by (apply Rabs_le; unfold t; lra). split; auto. split; auto. split; [lra|]. apply abs_both in C2. apply abs_both in Tb.
    assert (32 * u64 * A <= / 4 * A) by (apply Rmult_le_compat_r; lra). apply Rabs_le. lra.
  Qed.
  Lemma sample a b : (a < F)%nat -> (b < F)%nat -> let v := f (cx (I * F + b)) (cy (J * F + a)) in
    double v /\ Rabs (dval v) <= B + delta /\ Rabs (dval v - g (IZR ox + INR I - 1 / 2 + (INR b + 1 / 2) / INR F) (IZR oy + INR J - 1 / 2 + (INR a + 1 / 2) / INR F)) <= e.
  Proof.
    intros Ha Hb v. destruct (coord_at ox I b Hox HI Hb) as (X1 & X2 & X3 & X4). destruct (coord_at oy J a Hoy HJ Ha) as (Y1 & Y2 & Y3 & Y4). destruct Dr as (D1 & D2 & D3).
    fold (cx (I * F + b)) in X1, X2, X4. fold (cy (J * F + a)) in Y1, Y2, Y4. destruct (D1 _ _ X1 Y1 X4 Y4) as [V1 V2]. fold v in V1, V2. split; auto. specialize (D2 _ _ X4 Y4). set (gc := g (dval (cx (I * F + b))) (dval (cy (J * F + a)))) in *. split.
    - replace (dval v) with ((dval v - gc) + gc) by ring. eapply Rle_trans; [apply Rabs_triang|]. lra.
    - specialize (D3 _ _ _ _ X4 Y4 X3 Y3). fold gc in D3. set (gt := g (IZR ox + _ - _ + _) _) in *. replace (dval v - gt) with ((dval v - gc) + (gc - gt)) by ring. eapply Rle_trans; [apply Rabs_triang|]. unfold e.
      eapply Rle_trans; [apply Rplus_le_compat; [exact V2|exact D3]|]. apply Rplus_le_compat_l, Rmult_le_compat_l; auto. lra.
  Qed.
  Definition block := flat_map (fun a => map (fun b => f (cx (I * F + b)) (cy (J * F + a))) (seq 0 F)) (seq 0 F).
  Lemma in_block v : In v block -> exists a b, (a < F)%nat /\ (b < F)%nat /\ v = f (cx (I * F + b)) (cy (J * F + a)).
  Proof. intros H. apply in_flat_map in H. destruct H as (a & Ha & H). apply in_map_iff in H. destruct H as (b & <- & Hb). apply in_seq in Ha, Hb. exists a, b. repeat split; lia. Qed.
  Lemma pixel_mean : let p := ndiv (nsum block) (nofZ (Z.of_nat (F * F))) in
    double p /\ Rabs (dval p - mean_samples g F (IZR ox + INR I) (IZR oy + INR J)) <= e + mean_error (F * F) (B + delta).
  Proof.
    intros p. pose proof u64_val as U. assert (Lb : length block = (F * F)%nat) by apply (flat_length (fun a b => f (cx (I * F + b)) (cy (J * F + a)))).
    assert (FF : (1 <= F * F)%nat) by (apply (Nat.mul_le_mono 1 F 1 F); auto). assert (NF : 1 <= INR F) by (apply (le_INR 1); auto).
    assert (Few : INR (length block + 5) * u64 <= / 4). { apply few. rewrite Lb, Nat2Z.inj_mul. change (2 ^ 40)%Z with (2 ^ 20 * 2 ^ 20)%Z. apply Z.mul_le_mono_nonneg; lia. }
    assert (Db : Forall double block). { apply Forall_forall. intros v Hv. apply in_block in Hv. destruct Hv as (a & b & Ha & Hb & ->). apply (sample a b Ha Hb). }
    assert (Bb : Forall (fun x => Rabs x <= B + delta) (map dval block)). { apply Forall_forall. intros r Hr. apply in_map_iff in Hr. destruct Hr as (v & <- & Hv). apply in_block in Hv. destruct Hv as (a & b & Ha & Hb & ->). apply (sample a b Ha Hb). }
    assert (Lx : length (map dval block) = (F * F)%nat) by (rewrite map_length; exact Lb).
    destruct (mean_double block) as (M1 & M2 & _); auto; [eapply Forall_impl; [|exact Bb]; cbv beta; intros; lra|rewrite Lb; auto|].
    assert (Ep : p = mean block). { unfold p, mean, nlen, nofnat. rewrite Lb. reflexivity. } rewrite Ep. split; auto.
    rewrite Lb in M2. set (N := INR (F * F)) in *. assert (N1 : 1 <= N) by (apply (le_INR 1); auto). assert (EN : N = INR F * INR F) by apply mult_INR.
    assert (Av : sum (map Rabs (map dval block)) / N <= B + delta).
    { apply Rmult_le_reg_r with N; [lra|]. unfold Rdiv. rewrite Rmult_assoc, Rinv_l, Rmult_1_r by lra. eapply Rle_trans; [apply (sum_app_le (map dval block) Rabs (fun x => 0 * Rabs x + (B + delta)))|].
      - intros x Hx. rewrite Forall_forall in Bb. specialize (Bb x Hx). lra.
      - rewrite sum_lin, Lx. fold N. lra. }
    assert (Sm : Rabs (sum (map dval block) / N - mean_samples g F (IZR ox + INR I) (IZR oy + INR J)) <= e).
    { unfold block. rewrite (sum_flat (fun a b => f (cx (I * F + b)) (cy (J * F + a)))). unfold mean_samples. rewrite <- EN. match goal with |- Rabs (?a / N - ?b / N) <= _ => replace (a / N - b / N) with ((a - b) * / N) by (unfold Rdiv; ring) end.
      rewrite Rabs_mult, (Rabs_pos_eq (/ N)) by (apply Rlt_le, Rinv_0_lt_compat; lra). apply Rle_trans with (INR F * (INR F * e) * / N); [|rewrite EN; right; field; lra].
      apply Rmult_le_compat_r; [apply Rlt_le, Rinv_0_lt_compat; lra|]. apply sum2_close. intros a b Ha Hb. apply (sample a b Ha Hb). }
    assert (T : bpow radix2 (-1000) <= / 2 ^ 900). { assert (E9 : / 2 ^ 900 = bpow radix2 (-900)). { change (-900)%Z with (- (900))%Z. rewrite bpow_opp. f_equal. rewrite bpow_powerRZ. change (powerRZ (IZR radix2) 900) with (2 ^ Pos.to_nat 900). f_equal. } rewrite E9. apply bpow_le. lia. }
    unfold mean_error. change ((1 + u64) ^ (F * F + 1) - 1) with (grow (F * F + 1)). pose proof (grow_0 (F * F + 1)) as G0.
    assert (grow (F * F + 1) * (sum (map Rabs (map dval block)) / N) <= grow (F * F + 1) * (B + delta)) by (apply Rmult_le_compat_l; auto).
    match goal with |- Rabs (?a - ?b) <= _ => replace (a - b) with ((a - sum (map dval block) / N) + (sum (map dval block) / N - b)) by ring end. eapply Rle_trans; [apply Rabs_triang|]. lra.
  Qed.
End Pixel.
