(** The error array of calculate_petrosian in double precision. *)
From Coq Require Import SpecFloat ZArith Reals Lra Lia.
From Flocq Require Import Core BinarySingleNaN Relative.
From Verif Require Import Base Num Numpy M_Utils M_Petrosian S_Petrosian S_Double S_Sums L_Double L_Double2 L_Sums L_Sums3 L_Grid L_Near.
Local Open Scope R_scope.

Lemma near_self n x : near n x x.
Proof. unfold near. rewrite Rminus_diag_eq, Rabs_R0 by auto. apply Rmult_le_pos; [apply grow_0|apply Rabs_pos]. Qed.
Lemma near_Rabs n x y : near n x y -> near n (Rabs x) (Rabs y).
Proof. unfold near. intros H. rewrite Rabs_Rabsolu. eapply Rle_trans; [apply Rabs_triang_inv2|exact H]. Qed.
Lemma lin_grow n : (n <= 1000)%nat -> grow n <= INR n * (2 * u64).
Proof.
  pose proof u64_val as U. induction n as [|n IH]; intros L; [unfold grow; cbn; lra|]. specialize (IH ltac:(lia)). rewrite grow_S, S_INR.
  assert (I : INR n <= 1000) by (replace 1000 with (INR 1000) by (rewrite INR_IZR_INZ; reflexivity); apply le_INR; lia).
  assert (INR n * (2 * u64) <= 1000 * (2 * u64)) by (apply Rmult_le_compat_r; lra). assert (grow n <= 1) by lra. assert (u64 * grow n <= u64 * 1) by (apply Rmult_le_compat_l; lra). lra.
Qed.
Lemma small_grow n : (n <= 1000)%nat -> grow n <= 2000 * u64 /\ grow n <= / 4.
Proof.
  intros L. pose proof u64_val as U. assert (I : INR n <= 1000) by (replace 1000 with (INR 1000) by (rewrite INR_IZR_INZ; reflexivity); now apply le_INR).
  pose proof (lin_grow n L). assert (INR n * (2 * u64) <= 1000 * (2 * u64)) by (apply Rmult_le_compat_r; lra). lra.
Qed.
Lemma first_grow n : (n <= 1000)%nat -> grow n <= INR n * (u64 * (1 + / 1000)).
Proof.
  pose proof u64_val as U. induction n as [|n IH]; intros L; [unfold grow; cbn; lra|]. destruct (small_grow n ltac:(lia)) as [G _]. specialize (IH ltac:(lia)). rewrite grow_S, S_INR.
  assert (u64 * grow n <= u64 * / 1000) by (apply Rmult_le_compat_l; lra). lra.
Qed.
Lemma near_nz n x y : (n <= 1000)%nat -> x <> 0 -> near n x y -> y <> 0.
Proof.
  intros L N H E. subst y. unfold near in H. rewrite Rminus_0_l, Rabs_Ropp in H. pose proof (small_grow n L). pose proof (Rabs_pos_lt x N). 
  assert (grow n * Rabs x <= / 4 * Rabs x) by (apply Rmult_le_compat_r; lra). lra.
Qed.
Lemma near_inv n x y : (n <= 1000)%nat -> x <> 0 -> near n x y -> near (n + n) (/ x) (/ y).
Proof.
  intros L N H. pose proof (near_nz n x y L N H) as Ny. pose proof (small_grow n L) as G. pose proof (grow_0 n) as G0. unfold near in *. pose proof (Rabs_pos_lt x N) as Px. pose proof (Rabs_pos_lt y Ny) as Py.
  replace (/ y - / x) with ((x - y) * / y * / x) by (field; auto). rewrite !Rabs_mult. apply Rmult_le_compat_r; [apply Rabs_pos|]. rewrite Rabs_minus_sym, Rabs_inv.
  assert (Lo : (1 - grow n) * Rabs x <= Rabs y). { pose proof (Rabs_triang (x - y) y) as T. replace (x - y + y) with x in T by ring. rewrite Rabs_minus_sym in T. lra. }
  apply (Rmult_le_reg_r (Rabs y)); auto. rewrite Rmult_assoc, Rinv_l, Rmult_1_r by lra. eapply Rle_trans; [exact H|]. rewrite grow_add. set (g := grow n) in *.
  eapply Rle_trans; [|apply Rmult_le_compat_l; [|exact Lo]]; [|nra]. rewrite <- Rmult_assoc. apply Rmult_le_compat_r; [lra|]. nra.
Qed.
Lemma near_quot m n a b a' b' : (n <= 1000)%nat -> b <> 0 -> near m a a' -> near n b b' -> near (m + (n + n)) (a / b) (a' / b').
Proof. intros L N A B. unfold Rdiv. apply near_mul; auto. now apply near_inv. Qed.
Lemma near_round n x y d : Rabs d <= u64 -> near n x y -> near (n + 1) x (y * (1 + d)).
Proof. intros D H. eapply near_trans; [exact H|now apply near_one]. Qed.
Lemma fairk_near j x y n : (n <= 1000)%nat -> fairk j x -> near n x y -> fairk (j + 1) y.
Proof.
  intros L F H. destruct F as [Z|[F1 F2]].
  - left. subst x. unfold near in H. rewrite Rabs_R0, Rmult_0_r, Rminus_0_r in H. apply abs_both in H. lra.
  - right. destruct (small_grow n L) as [_ G]. pose proof (near_abs _ _ _ H) as Up. unfold near in H. pose proof (Rabs_pos x).
    assert (Lo : (1 - grow n) * Rabs x <= Rabs y). { pose proof (Rabs_triang (x - y) y) as T. replace (x - y + y) with x in T by ring. rewrite Rabs_minus_sym in T. lra. }
    unfold sized. replace (- (j + 1))%Z with (- j + -1)%Z by ring. rewrite !bpow_plus. change (bpow radix2 1) with 2. change (bpow radix2 (-1)) with (/ 2). nra.
Qed.
Lemma near_sqrt n x y : (n <= 1000)%nat -> 0 <= x -> near n x y -> 0 <= y.
Proof.
  intros L X H. pose proof (small_grow n L) as G. unfold near in H. rewrite (Rabs_pos_eq x) in H by auto. apply abs_both in H. assert (grow n * x <= / 4 * x) by (apply Rmult_le_compat_r; lra). lra.
Qed.
(** the root of a number between bounds lies between their roots *)
Lemma root_fairk j x : (0 <= j <= 500)%Z -> double x -> 0 <= dval x -> fairk (2 * j) (dval x) -> fairk j (dval (nsqrt x)).
Proof.
  intros J D P F. destruct (d_sqrt x D P) as [A B]. rewrite B. destruct F as [Z|[F1 F2]]; [left; rewrite Z, sqrt_0; apply rnd_0|]. right.
  rewrite Rabs_pos_eq in F1, F2 by auto.
  assert (S : forall k, sqrt (bpow radix2 (2 * k)) = bpow radix2 k). { intros k. replace (2 * k)%Z with (k + k)%Z by ring. rewrite bpow_plus. apply sqrt_square. apply bpow_ge_0. }
  apply sized_rnd; [lia|]. unfold sized. rewrite Rabs_pos_eq by apply sqrt_pos. split.
  - rewrite <- S. apply sqrt_le_1_alt. replace (2 * - j)%Z with (- (2 * j))%Z by ring. exact F1.
  - rewrite <- S. apply sqrt_le_1_alt. exact F2.
Qed.
Definition H2 (a b : R) : R := sqrt (a * a + b * b).
Lemma hypot_double m j a b (a' b' : f64) : (m <= 400)%nat -> (0 <= j <= 400)%Z -> double a' -> double b' -> fairk j (dval a') -> fairk j (dval b') ->
  near m (Rabs a) (Rabs (dval a')) -> near m (Rabs b) (Rabs (dval b')) ->
  double (hypot2 a' b') /\ fairk (j + 1) (dval (hypot2 a' b')) /\ 0 <= dval (hypot2 a' b') /\ near (m + m + 3) (H2 a b) (dval (hypot2 a' b')).
Proof.
  intros Hm J Da Db Fa Fb Na Nb. unfold hypot2, sq, H2. pose proof u64_val as U.
  assert (Sq : forall x, Rabs x * Rabs x = x * x) by (intros x; rewrite <- Rabs_mult; apply Rabs_pos_eq; nra).
  destruct (fd_mul j j a' a') as (A1 & A2 & d1 & A3 & A4); auto; try lia. destruct (fd_mul j j b' b') as (B1 & B2 & d2 & B3 & B4); auto; try lia.
  assert (NA : near (m + m + 1) (a * a) (dval (nmul a' a'))). { rewrite A4, <- (Sq a), <- (Sq (dval a')). apply near_round; auto. now apply near_mul. }
  assert (NB : near (m + m + 1) (b * b) (dval (nmul b' b'))). { rewrite B4, <- (Sq b), <- (Sq (dval b')). apply near_round; auto. now apply near_mul. }
  assert (Pa : 0 <= dval (nmul a' a')) by (eapply near_sqrt; [|apply Rle_0_sqr|exact NA]; lia).
  assert (Pb : 0 <= dval (nmul b' b')) by (eapply near_sqrt; [|apply Rle_0_sqr|exact NB]; lia).
  destruct (fd_add (j + j) (nmul a' a') (nmul b' b')) as (C1 & d3 & C3 & C4); auto; try lia.
  assert (NC : near (m + m + 1 + 1) (a * a + b * b) (dval (nadd (nmul a' a') (nmul b' b')))). { rewrite C4. apply near_round; auto. apply near_add; auto; apply Rle_0_sqr. }
  assert (P : 0 <= a * a + b * b) by nra. assert (Pc : 0 <= dval (nadd (nmul a' a') (nmul b' b'))) by (eapply near_sqrt; [|exact P|exact NC]; lia).
  assert (G : 0 <= grow (m + m + 1 + 1) < 1). { pose proof (grow_0 (m + m + 1 + 1)). pose proof (small_grow (m + m + 1 + 1) ltac:(lia)). lra. }
  assert (NC' := NC). unfold near in NC'. rewrite (Rabs_pos_eq (a * a + b * b)) in NC' by auto. destruct (root_error _ _ _ C1 P G NC') as [R1 R2].
  split; auto. split; [|split].
  - apply root_fairk; auto; [lia|]. rewrite C4. replace (2 * (j + 1))%Z with (j + j + 2)%Z by ring. apply fairk_sum; auto; lia.
  - destruct (d_sqrt _ C1 Pc) as [_ E]. rewrite E, <- rnd_0. apply rnd_mono. apply sqrt_pos.
  - unfold near. rewrite (Rabs_pos_eq (sqrt (a * a + b * b))) by apply sqrt_pos. replace (m + m + 3)%nat with (S (m + m + 1 + 1)) by lia. rewrite grow_S. replace ((1 + u64) * grow (m + m + 1 + 1) + u64) with ((1 + u64) * (1 + grow (m + m + 1 + 1)) - 1) by ring. exact R2.
Qed.

(** dividing |i| s by i gives s back, up to the sign and two roundings *)
Lemma scaled_back j k s (i s' : f64) n : (0 <= j)%Z -> (0 <= k <= 300)%Z -> (0 <= 2 * j + k <= 1000)%Z -> (n <= 400)%nat -> double i -> double s' -> sized j (dval i) -> fairk k (dval s') -> 0 <= s -> near n s (dval s') ->
  let r := ndiv (nmul (nabs i) s') i in double r /\ fairk (k + 1) (dval r) /\ near (n + 1 + 1) s (Rabs (dval r)).
Proof.
  intros J K JK Hn Di Ds Si Fs S0 N r. destruct (d_abs i Di) as [A1 A2]. pose proof (sized_nz _ _ Si) as Nz.
  destruct (fd_mul j k (nabs i) s') as (B1 & B2 & d1 & B3 & B4); auto; try lia. { right. rewrite A2. unfold sized. rewrite Rabs_Rabsolu. exact Si. }
  destruct (fd_div (j + k) j (nmul (nabs i) s') i) as (C1 & C2 & d2 & C3 & C4); auto; try lia. fold r in C1, C2, C4.
  assert (P0 : 0 <= dval s') by (eapply near_sqrt; [|exact S0|exact N]; lia). pose proof u64_val as U. apply abs_both in B3 as B5. apply abs_both in C3 as C5.
  assert (V : Rabs (dval r) = dval s' * (1 + d1) * (1 + d2)).
  { rewrite C4, B4, A2. unfold Rdiv. rewrite !Rabs_mult, Rabs_Rabsolu, Rabs_inv. rewrite (Rabs_pos_eq (dval s')), (Rabs_pos_eq (1 + d1)), (Rabs_pos_eq (1 + d2)) by lra.
    field. now apply Rabs_no_R0. }
  assert (NR : near (1 + 1) (dval s') (Rabs (dval r))). { rewrite V. apply near_round; auto. now apply near_one. }
  split; auto. split.
  - assert (F : fairk (k + 1) (Rabs (dval r))) by (eapply fairk_near; [|exact Fs|exact NR]; lia). destruct F as [Z|F]; [left|right].
    + destruct (Req_dec (dval r) 0); auto. apply Rabs_no_R0 in H. contradiction.
    + unfold sized in *. rewrite Rabs_Rabsolu in F. exact F.
  - rewrite V. apply near_round; auto. apply near_round; auto.
Qed.
Lemma gap_double x y : double x -> double y -> fairk 100 (dval x) -> fairk 100 (dval y) -> dval x <> dval y ->
  double (nsub x y) /\ sized 153 (dval (nsub x y)) /\ near 1 (dval x - dval y) (dval (nsub x y)).
Proof.
  intros Dx Dy Fx Fy N. destruct (fd_sub 100 x y) as (A & B & d & C & E); auto; try lia. assert (NE : near 1 (dval x - dval y) (dval (nsub x y))) by (rewrite E; now apply near_one).
  split; auto. split; auto. destruct B as [Z|B]; auto. exfalso. revert Z. apply (near_nz 1 (dval x - dval y)); auto; [lia|lra].
Qed.
Lemma near_abs2 n x y : near n x y -> 0 <= x -> 0 <= y -> near n (Rabs x) (Rabs y).
Proof. intros H _ _. now apply near_Rabs. Qed.

Definition err_entry64 (a0 a1 l0 l1 ea0 ea1 el0 el1 : f64) : f64 :=
  let da := nsub a1 a0 in
  let df := nsub l1 l0 in
  let iat := ndiv df da in
  let iavg := ndiv l1 a1 in
  let iaterr := nmul (nabs iat) (hypot2 (ndiv (hypot2 el0 el1) df) (ndiv (hypot2 ea0 ea1) da)) in
  let iavgerr := nmul (nabs iavg) (hypot2 (ndiv el1 l1) (ndiv ea1 a1)) in
  nmul (nabs (ndiv iat iavg)) (hypot2 (ndiv iaterr iat) (ndiv iavgerr iavg)).
Definition spread_of (a0 a1 l0 l1 ea0 ea1 el0 el1 : R) : R :=
  Rabs ((l1 - l0) / (a1 - a0) / (l1 / a1)) * H2 (H2 (H2 el0 el1 / (l1 - l0)) (H2 ea0 ea1 / (a1 - a0))) (H2 (el1 / l1) (ea1 / a1)).
Lemma H2_sq a b : H2 a b * H2 a b = a * a + b * b.
Proof. unfold H2. apply sqrt_sqrt. nra. Qed.
Lemma spread_eq a0 a1 l0 l1 ea0 ea1 el0 el1 : a0 <> a1 -> l0 <> l1 -> l1 <> 0 -> a1 <> 0 ->
  spread_of a0 a1 l0 l1 ea0 ea1 el0 el1 = Rabs ((l1 - l0) / (a1 - a0) / (l1 / a1)) *
    sqrt ((el0^2 + el1^2) / (l1 - l0)^2 + (ea0^2 + ea1^2) / (a1 - a0)^2 + (el1 / l1)^2 + (ea1 / a1)^2).
Proof.
  intros N1 N2 N3 N4. unfold spread_of. f_equal. unfold H2 at 1. f_equal. rewrite !H2_sq.
  replace (H2 el0 el1 / (l1 - l0) * (H2 el0 el1 / (l1 - l0))) with ((H2 el0 el1 * H2 el0 el1) / (l1 - l0)^2) by (field; lra).
  replace (H2 ea0 ea1 / (a1 - a0) * (H2 ea0 ea1 / (a1 - a0))) with ((H2 ea0 ea1 * H2 ea0 ea1) / (a1 - a0)^2) by (field; lra).
  rewrite !H2_sq. field. repeat split; auto; lra.
Qed.
Lemma entry_error a0 a1 l0 l1 ea0 ea1 el0 el1 : double a0 -> double a1 -> double l0 -> double l1 -> double ea0 -> double ea1 -> double el0 -> double el1 ->
  fairk 100 (dval a0) -> sized 100 (dval a1) -> fairk 100 (dval l0) -> sized 100 (dval l1) -> fairk 100 (dval ea0) -> fairk 100 (dval ea1) -> fairk 100 (dval el0) -> fairk 100 (dval el1) ->
  dval a0 <> dval a1 -> dval l0 <> dval l1 ->
  double (err_entry64 a0 a1 l0 l1 ea0 ea1 el0 el1) /\
  near 45 (spread_of (dval a0) (dval a1) (dval l0) (dval l1) (dval ea0) (dval ea1) (dval el0) (dval el1)) (dval (err_entry64 a0 a1 l0 l1 ea0 ea1 el0 el1)).
Proof.
  intros Da0 Da1 Dl0 Dl1 Dea0 Dea1 Del0 Del1 Fa0 Sa1 Fl0 Sl1 Fea0 Fea1 Fel0 Fel1 Na Nl.
  assert (HP : forall a b, 0 <= H2 a b) by (intros; apply sqrt_pos). pose proof (sized_nz _ _ Sa1) as Za1. pose proof (sized_nz _ _ Sl1) as Zl1.
  destruct (gap_double a1 a0) as (A1 & A2 & A3); auto; [now right|]. destruct (gap_double l1 l0) as (L1 & L2 & L3); auto; [now right|].
  unfold err_entry64, spread_of. cbv zeta. set (da := nsub a1 a0) in *. set (df := nsub l1 l0) in *.
  set (xa := dval a1 - dval a0) in *. set (xl := dval l1 - dval l0) in *. assert (Zxa : xa <> 0) by (unfold xa; lra). assert (Zxl : xl <> 0) by (unfold xl; lra).
  destruct (hypot_double 0 100 (dval el0) (dval el1) el0 el1) as (B1 & B2 & B3 & B4); auto; try lia; try apply near_self.
  destruct (hypot_double 0 100 (dval ea0) (dval ea1) ea0 ea1) as (C1 & C2 & C3 & C4); auto; try lia; try apply near_self.
  set (hl := hypot2 el0 el1) in *. set (ha := hypot2 ea0 ea1) in *. set (HL := H2 (dval el0) (dval el1)) in *. set (HA := H2 (dval ea0) (dval ea1)) in *.
  destruct (fd_div (100 + 1) 153 hl df) as (D1 & D2 & d1 & D3 & D4); auto; try lia. destruct (fd_div (100 + 1) 153 ha da) as (E1 & E2 & d2 & E3 & E4); auto; try lia.
  assert (D5 : near 6 (HL / xl) (dval (ndiv hl df))). { rewrite D4. apply (near_round 5); auto. apply (near_quot 3 1); auto; lia. }
  assert (E5 : near 6 (HA / xa) (dval (ndiv ha da))). { rewrite E4. apply (near_round 5); auto. apply (near_quot 3 1); auto; lia. }
  destruct (hypot_double 6 (100 + 1 + 153) (HL / xl) (HA / xa) (ndiv hl df) (ndiv ha da)) as (F1 & F2 & F3 & F4); auto; try lia; try now apply near_Rabs.
  set (s1 := hypot2 (ndiv hl df) (ndiv ha da)) in *. set (S1 := H2 (HL / xl) (HA / xa)) in *.
  destruct (dd_div 153 153 df da) as (G1 & G2 & d3 & G3 & G4); auto; try lia.
  assert (G5 : near 4 (xl / xa) (dval (ndiv df da))). { rewrite G4. apply (near_round 3); auto. apply (near_quot 1 1); auto; lia. }
  set (iat := ndiv df da) in *.
  destruct (dd_div 100 100 l1 a1) as (K1 & K2 & d4 & K3 & K4); auto; try lia. assert (K5 : near 1 (dval l1 / dval a1) (dval (ndiv l1 a1))) by (rewrite K4; now apply near_one).
  set (iavg := ndiv l1 a1) in *.
  destruct (fd_div 100 100 el1 l1) as (M1 & M2 & d5 & M3 & M4); auto; try lia. destruct (fd_div 100 100 ea1 a1) as (N1 & N2 & d6 & N3 & N4); auto; try lia.
  destruct (hypot_double 1 (100 + 100) (dval el1 / dval l1) (dval ea1 / dval a1) (ndiv el1 l1) (ndiv ea1 a1)) as (O1 & O2 & O3 & O4); auto; try lia.
  { apply near_Rabs. rewrite M4. now apply near_one. } { apply near_Rabs. rewrite N4. now apply near_one. }
  set (s2 := hypot2 (ndiv el1 l1) (ndiv ea1 a1)) in *. set (S2 := H2 (dval el1 / dval l1) (dval ea1 / dval a1)) in *.
  destruct (scaled_back (153 + 153) (100 + 1 + 153 + 1) S1 iat s1 15) as (P1 & P2 & P3); auto; try lia; [apply HP|].
  destruct (scaled_back (100 + 100) (100 + 100 + 1) S2 iavg s2 5) as (Q1 & Q2 & Q3); auto; try lia; [apply HP|].
  destruct (hypot_double 17 256 S1 S2 (ndiv (nmul (nabs iat) s1) iat) (ndiv (nmul (nabs iavg) s2) iavg)) as (R1 & R2 & R3 & R4); auto; try lia.
  { eapply fairk_le; [|exact Q2]; lia. } { rewrite (Rabs_pos_eq S1) by apply HP. exact P3. } { rewrite (Rabs_pos_eq S2) by apply HP. apply (near_le 7); [lia|exact Q3]. }
  destruct (dd_div (153 + 153) (100 + 100) iat iavg) as (T1 & T2 & d7 & T3 & T4); auto; try lia.
  assert (Zq : dval l1 / dval a1 <> 0) by (unfold Rdiv; apply Rmult_integral_contrapositive_currified; auto; now apply Rinv_neq_0_compat).
  assert (T5 : near 7 (xl / xa / (dval l1 / dval a1)) (dval (ndiv iat iavg))). { rewrite T4. apply (near_round 6); auto. apply (near_quot 4 1); auto; lia. }
  destruct (d_abs _ T1) as [U1 U2].
  destruct (fd_mul (153 + 153 + (100 + 100)) (256 + 1) (nabs (ndiv iat iavg)) (hypot2 (ndiv (nmul (nabs iat) s1) iat) (ndiv (nmul (nabs iavg) s2) iavg))) as (V1 & V2 & d8 & V3 & V4); auto; try lia.
  { right. rewrite U2. unfold sized. rewrite Rabs_Rabsolu. exact T2. }
  split; auto. rewrite V4, U2. apply (near_round 44); auto. apply (near_mul 7 37); [now apply near_Rabs|exact R4].
Qed.
