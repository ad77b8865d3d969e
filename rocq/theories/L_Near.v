(** The nearest row of the correction grid in double precision. *)
From Coq Require Import SpecFloat ZArith Reals Lra Lia.
From Flocq Require Import Core BinarySingleNaN Relative.
From Verif Require Import Base Num Numpy M_Utils M_Petrosian M_Correction S_Petrosian S_Double S_Sums L_Double L_Double2 L_Double3 L_Double4 L_Sums L_Sums3 L_Grid.
Local Open Scope R_scope.

Definition near (n : nat) (x y : R) : Prop := Rabs (y - x) <= grow n * Rabs x.
Lemma grow_add m n : grow (m + n) = grow m + grow n * (1 + grow m).
Proof. unfold grow. rewrite pow_add. ring. Qed.
Lemma near_abs n x y : near n x y -> Rabs y <= (1 + grow n) * Rabs x.
Proof. intros H. replace y with ((y - x) + x) by ring. eapply Rle_trans; [apply Rabs_triang|]. unfold near in H. lra. Qed.
Lemma near_trans m n x y z : near m x y -> near n y z -> near (m + n) x z.
Proof.
  intros A B. pose proof (near_abs _ _ _ A) as C. unfold near in *. replace (z - x) with ((z - y) + (y - x)) by ring. eapply Rle_trans; [apply Rabs_triang|]. rewrite grow_add.
  pose proof (grow_0 n). assert (grow n * Rabs y <= grow n * ((1 + grow m) * Rabs x)) by (apply Rmult_le_compat_l; auto). lra.
Qed.
Lemma near_mul m n a b a' b' : near m a a' -> near n b b' -> near (m + n) (a * b) (a' * b').
Proof.
  intros A B. apply near_trans with (a' * b); unfold near in *.
  - replace (a' * b - a * b) with ((a' - a) * b) by ring. rewrite !Rabs_mult, <- Rmult_assoc. apply Rmult_le_compat_r; auto. apply Rabs_pos.
  - replace (a' * b' - a' * b) with (a' * (b' - b)) by ring. rewrite !Rabs_mult. replace (grow n * (Rabs a' * Rabs b)) with (Rabs a' * (grow n * Rabs b)) by ring. apply Rmult_le_compat_l; auto. apply Rabs_pos.
Qed.
Lemma near_div n a a' b : near n a a' -> near n (a / b) (a' / b).
Proof.
  intros A. unfold near in *. replace (a' / b - a / b) with ((a' - a) * / b) by (unfold Rdiv; ring). unfold Rdiv. rewrite !Rabs_mult, <- Rmult_assoc. apply Rmult_le_compat_r; auto. apply Rabs_pos.
Qed.
Lemma near_add n a b a' b' : 0 <= a -> 0 <= b -> near n a a' -> near n b b' -> near n (a + b) (a' + b').
Proof.
  intros Ha Hb A B. unfold near in *. rewrite (Rabs_pos_eq a) in A by auto. rewrite (Rabs_pos_eq b) in B by auto. rewrite (Rabs_pos_eq (a + b)) by lra. replace (a' + b' - (a + b)) with ((a' - a) + (b' - b)) by ring. eapply Rle_trans; [apply Rabs_triang|]. lra.
Qed.
Lemma near_one x d : Rabs d <= u64 -> near 1 x (x * (1 + d)).
Proof.
  intros D. unfold near. replace (x * (1 + d) - x) with (d * x) by ring. rewrite Rabs_mult. apply Rmult_le_compat_r; [apply Rabs_pos|]. unfold grow. cbn. lra.
Qed.
Lemma near_le m n x y : (m <= n)%nat -> near m x y -> near n x y.
Proof. intros L H. unfold near in *. eapply Rle_trans; [exact H|]. apply Rmult_le_compat_r; [apply Rabs_pos|now apply grow_le]. Qed.

(** one coordinate: 100 (v - v0) / s *)
Lemma coordinate v v0 s : double v -> double v0 -> double s -> fairk 100 (dval v) -> fairk 100 (dval v0) -> sized 100 (dval s) ->
  let d := ndiv (nmul (nofZ 100) (nsub v v0)) s in double d /\ fairk 306 (dval d) /\ near 3 (100 * ((dval v - dval v0) / dval s)) (dval d).
Proof.
  intros Dv D0 Ds Fv F0 Ss d. destruct (fd_sub 100 v v0) as (A1 & A2 & e1 & A3 & A4); auto; try lia.
  destruct (ofZ_double 100 ltac:(lia)) as [H1 H2]. change (f64_ofZ 100) with (nofZ 100 : f64) in H1, H2.
  destruct (fd_mul 53 153 (nofZ 100) (nsub v v0)) as (B1 & B2 & e2 & B3 & B4); auto; try lia. { right. rewrite H2. apply sized_Z. lia. }
  destruct (fd_div 206 100 (nmul (nofZ 100) (nsub v v0)) s) as (C1 & C2 & e3 & C3 & C4); auto; try lia.
  split; auto. split; auto. unfold d. rewrite C4, B4, H2, A4.
  replace (100 * ((dval v - dval v0) / dval s)) with (100 * (dval v - dval v0) / dval s) by (unfold Rdiv; ring).
  apply (near_trans 2 1) with (100 * ((dval v - dval v0) * (1 + e1)) * (1 + e2) / dval s); [|now apply near_one]. apply near_div.
  apply (near_trans 1 1) with (100 * ((dval v - dval v0) * (1 + e1))); [|now apply near_one]. rewrite <- Rmult_assoc. now apply near_one.
Qed.
(** its square *)
Lemma squared t d : double d -> fairk 306 (dval d) -> near 3 t (dval d) -> double (nmul d d) /\ fairk 612 (dval (nmul d d)) /\ 0 <= dval (nmul d d) /\ near 7 (t * t) (dval (nmul d d)).
Proof.
  intros D F N. destruct (fd_mul 306 306 d d) as (A1 & A2 & e & A3 & A4); auto; try lia. split; auto. split; auto. rewrite A4. pose proof u64_val as U. apply abs_both in A3 as A5. split.
  - apply Rmult_le_pos; [apply Rle_0_sqr|lra].
  - apply (near_trans 6 1) with (dval d * dval d); [now apply (near_mul 3 3)|now apply near_one].
Qed.
Lemma fairk_sum j x y d : (0 <= j)%Z -> Rabs d <= u64 -> 0 <= x -> 0 <= y -> fairk j x -> fairk j y -> fairk (j + 2) ((x + y) * (1 + d)).
Proof.
  intros J D Hx Hy Fx Fy. pose proof u64_val as U. apply abs_both in D. destruct (Req_dec (x + y) 0) as [Z|Z]; [left; rewrite Z; ring|]. right.
  assert (Up : x + y <= 2 * bpow radix2 j). { apply fairk_abs in Fx. apply fairk_abs in Fy. rewrite Rabs_pos_eq in Fx, Fy by auto. lra. }
  assert (Lo : bpow radix2 (- j) <= x + y).
  { destruct Fx as [->|[Fx _]]; [destruct Fy as [->|[Fy _]]; [lra|rewrite Rabs_pos_eq in Fy by auto; lra]|rewrite Rabs_pos_eq in Fx by auto; lra]. }
  unfold sized. replace (- (j + 2))%Z with (- j + -2)%Z by ring. rewrite !bpow_plus. change (bpow radix2 2) with 4. change (bpow radix2 (-2)) with (/ 4).
  pose proof (bpow_gt_0 radix2 (- j)). pose proof (bpow_gt_0 radix2 j).
  assert (P : / 2 * (x + y) <= (x + y) * (1 + d) <= 2 * (x + y)). { split; [rewrite (Rmult_comm (x + y))|rewrite (Rmult_comm 2)]; [apply Rmult_le_compat_r|apply Rmult_le_compat_l]; lra. }
  rewrite Rabs_pos_eq by lra. lra.
Qed.
(** the distance of a row *)
Lemma distance_double x x0 sx y y0 sy z z0 sz :
  (double x /\ double x0 /\ double sx /\ fairk 100 (dval x) /\ fairk 100 (dval x0) /\ sized 100 (dval sx)) ->
  (double y /\ double y0 /\ double sy /\ fairk 100 (dval y) /\ fairk 100 (dval y0) /\ sized 100 (dval sy)) ->
  (double z /\ double z0 /\ double sz /\ fairk 100 (dval z) /\ fairk 100 (dval z0) /\ sized 100 (dval sz)) ->
  let d (v v0 s : f64) := ndiv (nmul (nofZ 100) (nsub v v0)) s in let q v v0 s := (dval v - dval v0) / dval s in
  let D := q x x0 sx * q x x0 sx + q y y0 sy * q y y0 sy + q z z0 sz * q z z0 sz in
  let r := nsqrt (nadd (nadd (nmul (d x x0 sx) (d x x0 sx)) (nmul (d y y0 sy) (d y y0 sy))) (nmul (d z z0 sz) (d z z0 sz))) in
  double r /\ Rabs (dval r - 100 * sqrt D) <= grow 10 * (100 * sqrt D).
Proof.
  intros (X1 & X2 & X3 & X4 & X5 & X6) (Y1 & Y2 & Y3 & Y4 & Y5 & Y6) (Z1 & Z2 & Z3 & Z4 & Z5 & Z6) d q D r.
  destruct (coordinate x x0 sx) as (A1 & A2 & A3); auto. destruct (coordinate y y0 sy) as (B1 & B2 & B3); auto. destruct (coordinate z z0 sz) as (C1 & C2 & C3); auto.
  fold (d x x0 sx) in A1, A2, A3. fold (d y y0 sy) in B1, B2, B3. fold (d z z0 sz) in C1, C2, C3. fold (q x x0 sx) in A3. fold (q y y0 sy) in B3. fold (q z z0 sz) in C3.
  destruct (squared _ _ A1 A2 A3) as (A4 & A5 & A6 & A7). destruct (squared _ _ B1 B2 B3) as (B4 & B5 & B6 & B7). destruct (squared _ _ C1 C2 C3) as (C4 & C5 & C6 & C7).
  set (a := nmul (d x x0 sx) (d x x0 sx)) in *. set (b := nmul (d y y0 sy) (d y y0 sy)) in *. set (c := nmul (d z z0 sz) (d z z0 sz)) in *.
  destruct (fd_add 612 a b) as (E1 & e & E2 & E3); auto; try lia. assert (E4 : fairk 614 (dval (nadd a b))) by (rewrite E3; apply (fairk_sum 612); auto; lia).
  destruct (fd_add 614 (nadd a b) c) as (F1 & e' & F2 & F3); auto; try lia. { apply fairk_le with 612%Z; auto; lia. }
  set (qx := q x x0 sx) in *. set (qy := q y y0 sy) in *. set (qz := q z z0 sz) in *. pose proof (Rle_0_sqr (100 * qx)) as Px. pose proof (Rle_0_sqr (100 * qy)) as Py. pose proof (Rle_0_sqr (100 * qz)) as Pz. unfold Rsqr in *.
  assert (N : near 9 (100 * qx * (100 * qx) + 100 * qy * (100 * qy) + 100 * qz * (100 * qz)) (dval (nadd (nadd a b) c))).
  { rewrite F3. apply (near_trans 8 1) with (dval (nadd a b) + dval c); [|now apply near_one]. apply near_add; auto; [lra| |now apply (near_le 7); [lia|]].
    rewrite E3. apply (near_trans 7 1) with (dval a + dval b); [|now apply near_one]. now apply near_add. }
  assert (Eq : 100 * qx * (100 * qx) + 100 * qy * (100 * qy) + 100 * qz * (100 * qz) = 100 * 100 * D) by (unfold D; ring). rewrite Eq in N.
  assert (D0 : 0 <= D) by lra. unfold near in N. rewrite (Rabs_pos_eq (100 * 100 * D)) in N by lra. pose proof u64_val as U.
  assert (G : grow 9 < 1). { pose proof (grow_half 9) as G. assert (I9 : INR 9 * u64 <= / 2) by (simpl; lra). specialize (G I9). lra. }
  destruct (root_error (nadd (nadd a b) c) (100 * 100 * D) (grow 9) F1) as [R1 R2]; auto; [lra|split; [apply grow_0|auto]|].
  rewrite sqrt_mult, sqrt_square in R2 by lra. split; [exact R1|]. replace ((1 + u64) * (1 + grow 9) - 1) with (grow 10) in R2 by (rewrite grow_S; ring). exact R2.
Qed.
