(** The nearest row of the correction grid in double precision. *)
From Coq Require Import SpecFloat ZArith Reals Lra Lia.
From Flocq Require Import Core BinarySingleNaN.
From Verif Require Import Base Num Numpy M_Utils M_Petrosian M_Correction S_Petrosian S_Correction S_Double S_Sums L_Double L_Double2 L_Double3 L_Double4 L_Sums L_Sums3 L_Grid L_Grid4 S_Near L_Near L_Near2.
Local Open Scope R_scope.

Lemma pow99 : bpow radix2 99 = 2 ^ 99.
Proof. rewrite bpow_powerRZ. change (powerRZ (IZR radix2) 99) with (2 ^ Pos.to_nat 99). f_equal. Qed.
Lemma plain_fairk x : plain x -> fairk 100 x.
Proof. intros [H|H]; [now left|right]. unfold sized. rewrite bpow_opp, pow100. exact H. Qed.
Lemma plain_abs x : plain x -> Rabs x <= 2 ^ 100.
Proof. intros [->|H]; [rewrite Rabs_R0; apply pow_le; lra|apply H]. Qed.
Lemma few n : (Z.of_nat n <= 2 ^ 40)%Z -> INR (n + 5) * u64 <= / 4.
Proof.
  intros H. rewrite INR_IZR_INZ, u64_bpow. apply IZR_le in H. rewrite Nat2Z.inj_add, plus_IZR. change (IZR (2 ^ 40)) with (bpow radix2 40) in H. change (IZR (Z.of_nat 5)) with 5.
  assert (5 <= bpow radix2 40) by (change (bpow radix2 40) with (IZR (2 ^ 40)); apply IZR_le; lia).
  apply Rle_trans with (2 * bpow radix2 40 * bpow radix2 (-53)); [apply Rmult_le_compat_r; [apply bpow_ge_0|lra]|]. rewrite Rmult_assoc, <- bpow_plus. change (bpow radix2 (40 + -53)) with (/ 8192). lra.
Qed.
Theorem std_spread l : Forall double l -> Forall plain (map dval l) -> (1 <= length l)%nat -> (Z.of_nat (length l) <= 2 ^ 40)%Z ->
  double (std l) /\ Rabs (dval (std l) - deviation (map dval l)) <= spread_error (map dval l).
Proof.
  intros D P L Z. unfold spread_error. rewrite map_length. apply std_double; auto; [|now apply few].
  eapply Forall_impl; [|exact P]. intros x. apply plain_abs.
Qed.
Lemma std_sized rho l : 0 <= rho <= / 100 -> (1 <= length l)%nat -> (Z.of_nat (length l) <= 2 ^ 40)%Z -> good_column rho l ->
  double (std l) /\ sized 100 (dval (std l)) /\ 0 < deviation (map dval l) /\ (1 - rho) * deviation (map dval l) <= dval (std l) <= (1 + rho) * deviation (map dval l).
Proof.
  intros Rh L Z (D & P & S & E). destruct (std_spread l D P L Z) as [A B]. set (s := dval (std l)) in *. set (v := deviation (map dval l)) in *. assert (C : Rabs (s - v) <= rho * v) by lra. apply abs_both in C.
  assert (V : 0 < v). { assert (0 < / 2 ^ 99) by (apply Rinv_0_lt_compat, pow_lt; lra). lra. } assert (rho * v <= / 100 * v) by (apply Rmult_le_compat_r; lra).
  split; auto. split; [|split; [auto|lra]]. unfold sized. rewrite Rabs_pos_eq by lra. rewrite <- pow99 in S. rewrite <- bpow_opp in S.
  assert (bpow radix2 100 = 2 * bpow radix2 99) by (change 100%Z with (1 + 99)%Z; rewrite bpow_plus; reflexivity). assert (bpow radix2 (- (99)) = 2 * bpow radix2 (- (100))) by (change (- (99))%Z with (1 + - (100))%Z; rewrite bpow_plus; reflexivity). lra.
Qed.
Lemma ratio_sq d v s rho : 0 <= rho <= / 100 -> 0 < v -> (1 - rho) * v <= s <= (1 + rho) * v ->
  (1 - rho) * (1 - rho) * (d / s * (d / s)) <= d / v * (d / v) <= (1 + rho) * (1 + rho) * (d / s * (d / s)).
Proof.
  intros Rh V S. assert (S0 : 0 < s). { assert (0 < (1 - rho) * v) by (apply Rmult_lt_0_compat; lra). lra. }
  assert (Q0 : 0 <= d / s * (d / s)) by apply Rle_0_sqr. assert (E : d / v * (d / v) = s / v * (s / v) * (d / s * (d / s))) by (field; lra). rewrite E.
  assert (R1 : 1 - rho <= s / v). { apply Rmult_le_reg_r with v; auto. unfold Rdiv. rewrite Rmult_assoc, Rinv_l; lra. }
  assert (R2 : s / v <= 1 + rho). { apply Rmult_le_reg_r with v; auto. unfold Rdiv. rewrite Rmult_assoc, Rinv_l; lra. }
  split; apply Rmult_le_compat_r; auto; apply Rmult_le_compat; lra.
Qed.

Section Nearest.
  Variables (c : @correction f64) (x0 y0 z0 : f64) (rho : R) (n : nat).
  Hypotheses (Rh : 0 <= rho <= / 100) (L1 : (1 <= n)%nat) (Ln : (Z.of_nat n <= 2 ^ 40)%Z) (LX : length (c_x c) = n) (LY : length (c_y c) = n) (LZ : length (c_z c) = n)
    (GX : good_column rho (c_x c)) (GY : good_column rho (c_y c)) (GZ : good_column rho (c_z c)) (Gx : good_value x0) (Gy : good_value y0) (Gz : good_value z0).
  Let dist := row_distance (map dval (c_x c)) (map dval (c_y c)) (map dval (c_z c)) (dval x0) (dval y0) (dval z0).

  Lemma dr_length : length (dr c x0 y0 z0) = n.
  Proof.
    assert (M2 : forall A B C (f : A -> B -> C) l m, length l = n -> length m = n -> length (map2 f l m) = n).
    { clear. induction n as [|k IH]; intros A B C f [|a l] [|b m]; cbn; try discriminate; auto. }
    unfold dr. apply M2; [apply M2|]; rewrite map_length; auto.
  Qed.
  Lemma row_double i : (i < n)%nat -> exists D, double (nth i (dr c x0 y0 z0) dz) /\ 0 <= D /\ Rabs (dval (nth i (dr c x0 y0 z0) dz) - 100 * sqrt D) <= grow 10 * (100 * sqrt D) /\
    (1 - rho) * (1 - rho) * D <= dist i <= (1 + rho) * (1 + rho) * D.
  Proof.
    intros Hi. destruct (std_sized rho (c_x c) Rh) as (X1 & X2 & X3 & X4); auto; try (rewrite LX; assumption). destruct (std_sized rho (c_y c) Rh) as (Y1 & Y2 & Y3 & Y4); auto; try (rewrite LY; assumption). destruct (std_sized rho (c_z c) Rh) as (Z1 & Z2 & Z3 & Z4); auto; try (rewrite LZ; assumption).
    assert (At : forall l, length l = n -> good_column rho l -> nth_error l i = Some (nth i l dz) /\ double (nth i l dz) /\ fairk 100 (dval (nth i l dz))).
    { intros l Ll (D & P & _). assert (Hl : (i < length l)%nat) by (rewrite Ll; exact Hi). split; [now apply nth_error_nth'|]. split; [rewrite Forall_forall in D; apply D; now apply nth_In|].
      apply plain_fairk. rewrite Forall_forall in P. apply P. apply in_map. now apply nth_In. }
    destruct (At _ LX GX) as (AX & DX & FX). destruct (At _ LY GY) as (AY & DY & FY). destruct (At _ LZ GZ) as (AZ & DZ & FZ). destruct Gx as [gx1 gx2]. destruct Gy as [gy1 gy2]. destruct Gz as [gz1 gz2]. apply plain_fairk in gx2, gy2, gz2.
    pose proof (distance_double (nth i (c_x c) dz) x0 (std (c_x c)) (nth i (c_y c) dz) y0 (std (c_y c)) (nth i (c_z c) dz) z0 (std (c_z c)) ltac:(auto 10) ltac:(auto 10) ltac:(auto 10)) as DD. cbv zeta beta in DD.
    assert (E : nth i (dr c x0 y0 z0) dz = nsqrt (nadd (nadd (nmul (ndiv (nmul (nofZ 100) (nsub (nth i (c_x c) dz) x0)) (std (c_x c))) (ndiv (nmul (nofZ 100) (nsub (nth i (c_x c) dz) x0)) (std (c_x c))))
      (nmul (ndiv (nmul (nofZ 100) (nsub (nth i (c_y c) dz) y0)) (std (c_y c))) (ndiv (nmul (nofZ 100) (nsub (nth i (c_y c) dz) y0)) (std (c_y c)))))
      (nmul (ndiv (nmul (nofZ 100) (nsub (nth i (c_z c) dz) z0)) (std (c_z c))) (ndiv (nmul (nofZ 100) (nsub (nth i (c_z c) dz) z0)) (std (c_z c)))))).
    { apply nth_error_nth. unfold dr. erewrite map2_nth; [|erewrite map2_nth; [reflexivity| |]|]; [|rewrite nth_error_map, AX; reflexivity|rewrite nth_error_map, AY; reflexivity|rewrite nth_error_map, AZ; reflexivity]. reflexivity. }
    rewrite <- E in DD. destruct DD as [D1 D2].
    match type of D2 with context [sqrt ?d] => exists d end. split; auto. split; [|split; [exact D2|]].
    - apply Rplus_le_le_0_compat; [apply Rplus_le_le_0_compat|]; apply Rle_0_sqr.
    - unfold dist, row_distance. rewrite !dval_at.
      pose proof (ratio_sq (dval (nth i (c_x c) dz) - dval x0) _ _ rho Rh X3 X4). pose proof (ratio_sq (dval (nth i (c_y c) dz) - dval y0) _ _ rho Rh Y3 Y4). pose proof (ratio_sq (dval (nth i (c_z c) dz) - dval z0) _ _ rho Rh Z3 Z4). lra.
  Qed.
  Lemma dr_double : Forall double (dr c x0 y0 z0).
  Proof. apply Forall_forall. intros x Hx. apply (In_nth _ _ dz) in Hx. destruct Hx as (i & Hi & <-). assert (Hn : (i < n)%nat) by (rewrite <- dr_length; exact Hi). destruct (row_double i Hn) as (D & H & _). exact H. Qed.
  Theorem nearest_row k : closest_row c x0 y0 z0 = Ok k -> (k < n)%nat /\ forall j, (j < n)%nat -> dist k <= (1 + 5 * rho + 60 * u64) * dist j.
  Proof.
    unfold closest_row. intros H. destruct (if c_enforce c then validate_input c x0 y0 z0 else Ok tt); [cbn [bind] in H|discriminate]. destruct (argmin (dr c x0 y0 z0)) as [i|] eqn:A; [|discriminate]. injection H as <-.
    destruct (argmin_least _ _ dr_double A) as (B1 & B2 & _). assert (Bn : (i < n)%nat) by (rewrite <- dr_length; exact B1). clear B1. rename Bn into B1. split; auto. intros j Hj. specialize (B2 j ltac:(rewrite <- dr_length in Hj; exact Hj)).
    destruct (row_double i B1) as (P & _ & P0 & P1 & P2). destruct (row_double j Hj) as (Q & _ & Q0 & Q1 & Q2). apply abs_both in P1, Q1. pose proof u64_val as U. pose proof (sqrt_pos P) as p0. pose proof (sqrt_pos Q) as q0.
    assert (G : grow 10 <= 11 * u64). { unfold grow. cbn [pow]. assert (0 <= u64 <= / 1000000000000) by lra. clear - H. nra. }
    pose proof (grow_0 10) as G0. assert (sP : sqrt P * sqrt P = P) by now apply sqrt_sqrt. assert (sQ : sqrt Q * sqrt Q = Q) by now apply sqrt_sqrt. set (p := sqrt P) in *. set (q := sqrt Q) in *. set (g := grow 10) in *.
    assert (pq : p <= (1 + 23 * u64) * q).
    { assert (g * p <= 11 * u64 * p) by (apply Rmult_le_compat_r; lra). assert (g * q <= 11 * u64 * q) by (apply Rmult_le_compat_r; lra). assert (K : (1 - 11 * u64) * p <= (1 + 11 * u64) * q) by lra.
      apply Rmult_le_reg_l with (1 - 11 * u64); [lra|]. eapply Rle_trans; [exact K|]. rewrite <- Rmult_assoc. apply Rmult_le_compat_r; auto. nra. }
    assert (PQ : P <= (1 + 47 * u64) * Q).
    { rewrite <- sP, <- sQ. apply Rle_trans with ((1 + 23 * u64) * q * ((1 + 23 * u64) * q)); [apply Rmult_le_compat; lra|]. replace ((1 + 23 * u64) * q * ((1 + 23 * u64) * q)) with ((1 + 23 * u64) * (1 + 23 * u64) * (q * q)) by ring. apply Rmult_le_compat_r; [apply Rle_0_sqr|]. nra. }
    assert (F : (1 - rho) * (1 - rho) * dist i <= (1 - rho) * (1 - rho) * ((1 + 5 * rho + 60 * u64) * dist j)); [|apply Rmult_le_reg_l with ((1 - rho) * (1 - rho)); auto; apply Rmult_lt_0_compat; lra].
    assert (J0 : 0 <= dist j) by (eapply Rle_trans; [|apply Q2]; apply Rmult_le_pos; auto; apply Rle_0_sqr).
    apply Rle_trans with ((1 + rho) * (1 + rho) * (1 + 47 * u64) * dist j).
    - apply Rle_trans with ((1 - rho) * (1 - rho) * ((1 + rho) * (1 + rho) * ((1 + 47 * u64) * Q))); [apply Rmult_le_compat_l; [apply Rle_0_sqr|]; eapply Rle_trans; [apply P2|]; apply Rmult_le_compat_l; auto; apply Rle_0_sqr|].
      replace ((1 - rho) * (1 - rho) * ((1 + rho) * (1 + rho) * ((1 + 47 * u64) * Q))) with ((1 + rho) * (1 + rho) * (1 + 47 * u64) * ((1 - rho) * (1 - rho) * Q)) by ring.
      apply Rmult_le_compat_l; [|apply Q2]. apply Rmult_le_pos; [apply Rle_0_sqr|lra].
    - rewrite <- Rmult_assoc. apply Rmult_le_compat_r; auto.
      replace ((1 + rho) * (1 + rho) * (1 + 47 * u64)) with ((1 + 2 * rho + rho * rho) + 47 * u64 * ((1 + rho) * (1 + rho))) by ring.
      replace ((1 - rho) * (1 - rho) * (1 + 5 * rho + 60 * u64)) with ((1 - 2 * rho + rho * rho) * (1 + 5 * rho) + 60 * u64 * ((1 - rho) * (1 - rho))) by ring.
      apply Rplus_le_compat.
      + assert (0 <= rho * (1 - 10 * rho + 5 * rho * rho)); [apply Rmult_le_pos; [lra|]; assert (0 <= rho * rho) by apply Rle_0_sqr; lra|]. lra.
      + rewrite !Rmult_assoc. replace (60 * (u64 * ((1 - rho) * (1 - rho)))) with (u64 * (60 * ((1 - rho) * (1 - rho)))) by ring. replace (47 * (u64 * ((1 + rho) * (1 + rho)))) with (u64 * (47 * ((1 + rho) * (1 + rho)))) by ring. apply Rmult_le_compat_l; [lra|]. nra.
  Qed.
  Theorem nearest_exists : c_enforce c = false -> exists k, closest_row c x0 y0 z0 = Ok k.
  Proof.
    intros E. unfold closest_row. rewrite E. cbn [bind]. destruct (argmin (dr c x0 y0 z0)) as [i|] eqn:A; [now exists i|]. exfalso.
    pose proof dr_length as L. destruct (dr c x0 y0 z0); [cbn in L; lia|]. cbn in A. discriminate.
  Qed.
  Theorem nearest_same k j : closest_row c x0 y0 z0 = Ok k -> (j < n)%nat ->
    dval (nth j (c_x c) dz) = dval x0 -> dval (nth j (c_y c) dz) = dval y0 -> dval (nth j (c_z c) dz) = dval z0 ->
    dval (nth k (c_x c) dz) = dval x0 /\ dval (nth k (c_y c) dz) = dval y0 /\ dval (nth k (c_z c) dz) = dval z0.
  Proof.
    intros H Hj Ex Ey Ez. destruct (nearest_row k H) as [_ B]. specialize (B j Hj). unfold dist, row_distance in B. rewrite !dval_at, Ex, Ey, Ez in B.
    destruct (std_sized rho (c_x c) Rh) as (_ & _ & X3 & _); auto; try (rewrite LX; assumption). destruct (std_sized rho (c_y c) Rh) as (_ & _ & Y3 & _); auto; try (rewrite LY; assumption). destruct (std_sized rho (c_z c) Rh) as (_ & _ & Z3 & _); auto; try (rewrite LZ; assumption).
    assert (Z : forall v s : R, (v - v) / s = 0) by (intros; unfold Rdiv; ring). rewrite !Z in B.
    assert (K : forall a s, 0 < s -> a / s = 0 -> a = 0). { intros a s S A. replace a with (a / s * s) by (field; lra). rewrite A. ring. }
    set (a := (dval (nth k (c_x c) dz) - dval x0) / _) in B. set (b := (dval (nth k (c_y c) dz) - dval y0) / _) in B. set (d := (dval (nth k (c_z c) dz) - dval z0) / _) in B.
    pose proof (Rle_0_sqr a). pose proof (Rle_0_sqr b). pose proof (Rle_0_sqr d). unfold Rsqr in *. assert (Sa : a * a = 0) by lra. assert (Sb : b * b = 0) by lra. assert (Sd : d * d = 0) by lra.
    apply Rsqr_0_uniq in Sa, Sb, Sd. apply K in Sa, Sb, Sd; auto. lra.
  Qed.
  Theorem nearest_row_same k j : closest_row c x0 y0 z0 = Ok k -> (j < n)%nat ->
    let row i := (dval (nth i (c_x c) (S754_zero false)), dval (nth i (c_y c) (S754_zero false)), dval (nth i (c_z c) (S754_zero false))) in
    row j = (dval x0, dval y0, dval z0) -> row k = (dval x0, dval y0, dval z0).
  Proof. intros H Hj row [= Ex Ey Ez]. destruct (nearest_same k j H Hj Ex Ey Ez) as (A & B & D). unfold row. change (S754_zero false) with dz. rewrite A, B, D. reflexivity. Qed.
End Nearest.
