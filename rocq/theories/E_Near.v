(** A concrete correction grid of two rows and a measurement near its first row, in double precision. *)
From Coq Require Import SpecFloat ZArith Lia.
From Verif Require Import Base Num Numpy M_Utils M_Petrosian M_Correction S_Petrosian S_Correction S_Double L_Double L_Double4 S_Near.
Local Open Scope R_scope.

Definition colX := map f64_ofZ [1; 3]%Z.
Definition colY := map f64_ofZ [2; 4]%Z.
Definition colZ := map f64_ofZ [3; 7]%Z.
Definition gridN (t : table f64) : @correction f64 := mkcor t false colX colY colZ.
Lemma runs t : closest_row (gridN t) (f64_ofZ 1) (f64_ofZ 2) (f64_ofZ 4) = Ok 0%nat /\ closest_row (gridN t) (f64_ofZ 3) (f64_ofZ 4) (f64_ofZ 7) = Ok 1%nat.
Proof. split; vm_compute; reflexivity. Qed.
Lemma plain_Z z : (Z.abs z <= 2 ^ 53)%Z -> plain (IZR z).
Proof.
  intros H. destruct (Z.eq_dec z 0) as [->|N]; [now left|right]. rewrite <- abs_IZR. split.
  - apply Rle_trans with 1; [|apply IZR_le; lia]. rewrite <- Rinv_1. apply Rinv_le_contravar; [lra|]. apply pow_R1_Rle. lra.
  - apply Rle_trans with (IZR (2 ^ 53)); [now apply IZR_le|]. change (2 ^ 53)%Z with (Z.pow 2 (Z.of_nat 53)). rewrite <- pow_IZR. apply Rle_pow; [lra|lia].
Qed.
Lemma value_Z z : (Z.abs z <= 2 ^ 53)%Z -> good_value (f64_ofZ z).
Proof. intros H. destruct (ofZ_double z H) as [D V]. split; auto. rewrite V. now apply plain_Z. Qed.
Lemma spread2 a b : 0 < b -> average [a; a + 2 * b] = a + b /\ deviation [a; a + 2 * b] = b.
Proof.
  intros B. assert (A : average [a; a + 2 * b] = a + b) by (unfold average; cbn [total length INR]; field). split; auto. unfold deviation. rewrite A. unfold average. cbn [map total length INR].
  replace (((a - (a + b)) * (a - (a + b)) + ((a + 2 * b - (a + b)) * (a + 2 * b - (a + b)) + 0)) / (1 + 1)) with (b * b) by field. apply sqrt_square. lra.
Qed.
Lemma column2 p q : (0 < p < q)%Z -> (q <= 100)%Z -> good_column (/ 1000) (map f64_ofZ [p; q]).
Proof.
  intros H Q. destruct (ofZ_double p ltac:(lia)) as [D1 V1]. destruct (ofZ_double q ltac:(lia)) as [D2 V2]. cbn [map]. unfold good_column, spread_error. cbn [map]. rewrite V1, V2. pose proof u64_val as U.
  assert (Pp : 1 <= IZR p) by (apply IZR_le; lia). assert (Pq : IZR p + 1 <= IZR q <= 100) by (split; [rewrite <- plus_IZR; apply IZR_le; lia|apply IZR_le; lia]). set (b := (IZR q - IZR p) / 2). assert (Eq : IZR q = IZR p + 2 * b) by (unfold b; field).
  assert (B : / 2 <= b <= 50) by (unfold b; lra). split; [constructor; [exact D1|constructor; [exact D2|constructor]]|]. split; [constructor; [|constructor; [|constructor]]; apply plain_Z; lia|]. rewrite (Rabs_pos_eq (IZR p)), (Rabs_pos_eq (IZR q)) by lra.
  rewrite Eq in *. destruct (spread2 (IZR p) b) as [A1 A2]; [lra|]. rewrite A1, A2. cbn [length Nat.add].
  assert (P99 : 2 ^ 10 <= 2 ^ 99) by (apply Rle_pow; [lra|lia]). assert (I99 : / 2 ^ 99 <= / 2 ^ 10) by (apply Rinv_le_contravar; [apply pow_lt; lra|auto]). assert (I400 : / 2 ^ 400 <= / 2 ^ 20) by (apply Rinv_le_contravar; [apply pow_lt; lra|apply Rle_pow; [lra|lia]]).
  assert (T10 : 2 ^ 10 = 1024) by ring. assert (T20 : 2 ^ 20 = 1048576) by ring. rewrite T10 in *. rewrite T20 in *. split; [lra|].
  assert (G : (1 + u64) ^ 7 - 1 <= / 100000000). { cbn [pow]. nra. }
  assert (G0 : 0 <= (1 + u64) ^ 7 - 1) by (assert (1 <= (1 + u64) ^ 7) by (apply pow_R1_Rle; lra); lra).
  assert (((1 + u64) ^ 7 - 1) * (b + 2 * (IZR p + b)) <= / 100000000 * (b + 2 * (IZR p + b))) by (apply Rmult_le_compat_r; lra). lra.
Qed.
Lemma good_N : good_column (/ 1000) colX /\ good_column (/ 1000) colY /\ good_column (/ 1000) colZ /\ good_value (f64_ofZ 1) /\ good_value (f64_ofZ 2) /\ good_value (f64_ofZ 4).
Proof. repeat split; try (apply column2; lia); apply value_Z; lia. Qed.
