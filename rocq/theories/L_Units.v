(** Changing units by powers of two leaves every rounding unchanged. *)
From Coq Require Import SpecFloat ZArith Reals Lra Lia.
From Flocq Require Import Core BinarySingleNaN Relative.
From Verif Require Import Base Num Numpy M_Utils M_Petrosian S_Petrosian S_Double S_Sums L_Double L_Double2 L_Sums L_Sums3 L_Grid L_Near L_PetErr L_PetErr2.
Local Open Scope R_scope.

Lemma bpow_pos c : 0 < bpow radix2 c.
Proof. apply bpow_gt_0. Qed.
Lemma sized_shift k c x : sized k x -> sized (k + Z.abs c) (x * bpow radix2 c).
Proof.
  intros [A B]. unfold sized. rewrite Rabs_mult, (Rabs_pos_eq (bpow radix2 c)) by apply bpow_ge_0. replace (- (k + Z.abs c))%Z with (- k + - Z.abs c)%Z by ring. rewrite !bpow_plus. pose proof (bpow_pos (- k)). pose proof (bpow_pos (- Z.abs c)).
  split; apply Rmult_le_compat; auto; try apply bpow_le; try lia; try lra; try apply Rabs_pos; apply bpow_ge_0.
Qed.
Lemma fairk_shift k c x : fairk k x -> fairk (k + Z.abs c) (x * bpow radix2 c).
Proof. intros [->|H]; [left; ring|right; now apply sized_shift]. Qed.
Lemma rnd_shift k c z : (0 <= k)%Z -> (k + Z.abs c <= 1020)%Z -> fairk k z -> rnd (z * bpow radix2 c) = rnd z * bpow radix2 c.
Proof.
  intros K0 K [->|[A B]]; [rewrite Rmult_0_l, rnd_0; ring|].
  assert (Z0 : z <> 0) by (apply (sized_nz k); split; auto).
  assert (M : (- k <= mag radix2 z - 1)%Z). { apply Z.le_trans with (mag radix2 (bpow radix2 (- k)) - 1)%Z; [rewrite mag_bpow; lia|]. apply Z.sub_le_mono_r. apply mag_le_abs; [pose proof (bpow_pos (- k)); lra|]. rewrite (Rabs_pos_eq (bpow radix2 (- k))) by apply bpow_ge_0. exact A. }
  assert (E : cexp radix2 fexp64 (z * bpow radix2 c) = (cexp radix2 fexp64 z + c)%Z). { unfold cexp. rewrite mag_mult_bpow by auto. unfold SpecFloat.fexp, SpecFloat.emin. lia. }
  unfold round, F2R, scaled_mantissa. cbn [Fnum Fexp]. rewrite E. rewrite bpow_plus. rewrite <- Rmult_assoc. f_equal. f_equal. f_equal. f_equal.
  rewrite Rmult_assoc, <- bpow_plus. f_equal. f_equal. lia.
Qed.

(** the same number in other units *)
Definition tri (c k : Z) (x x' : f64) : Prop :=
  double x /\ double x' /\ fairk k (dval x) /\ dval x' = dval x * bpow radix2 c /\ (dval x = 0 -> x' = x).
Lemma tri_intro c k z x x' : (0 <= k)%Z -> (k + Z.abs c <= 1020)%Z -> double x -> double x' -> dval x = rnd z -> dval x' = rnd (z * bpow radix2 c) -> fairk k z -> (z = 0 -> x' = x) -> tri c k x x'.
Proof.
  intros K0 K D D' E E' F Z. assert (FR : fairk k (rnd z)). { destruct F as [->|S]; [left; apply rnd_0|right; apply sized_rnd; auto; lia]. }
  split; auto. split; auto. rewrite E. split; auto. split; [rewrite E'; apply (rnd_shift k); auto|]. intros H. apply Z. destruct F as [->|S]; auto. exfalso. apply (sized_rnd k) in S; [|lia]. apply sized_nz in S. contradiction.
Qed.
Lemma room c k z : (0 <= k)%Z -> (k + Z.abs c <= 1020)%Z -> fairk k z -> Rabs (rnd z) < bpow radix2 1024 /\ Rabs (rnd (z * bpow radix2 c)) < bpow radix2 1024.
Proof.
  intros K0 K F. split; apply rnd_small.
  - apply fairk_abs in F. eapply Rle_trans; [exact F|apply bpow_le; lia].
  - apply (fairk_shift k c) in F. apply fairk_abs in F. eapply Rle_trans; [exact F|apply bpow_le; lia].
Qed.
Lemma tri_le c j k x x' : (j <= k)%Z -> tri c j x x' -> tri c k x x'.
Proof. intros L (A & B & C & D). split; auto. split; auto. split; auto. now apply fairk_le with j. Qed.
Lemma tri_nz c k x x' : tri c k x x' -> dval x <> 0 -> dval x' <> 0.
Proof. intros (_ & _ & _ & E & _) N. rewrite E. apply Rmult_integral_contrapositive_currified; auto. apply Rgt_not_eq, bpow_gt_0. Qed.
(** sign and shape of doubles that are not zero *)
Lemma shape x : double x -> dval x <> 0 -> exists s m e, x = S754_finite s m e /\ (s = true <-> dval x < 0).
Proof.
  intros [_ D] N. destruct x as [s|s| |s m e]; try contradiction; try (now elim N). exists s, m, e. split; auto. unfold dval.
  assert (P : 0 < IZR (Z.pos m) * powerRZ 2 e) by (apply Rmult_lt_0_compat; [apply IZR_lt; lia|apply powerRZ_lt; lra]).
  destruct s; split; try discriminate; auto; intros; lra.
Qed.
Lemma tri_shape c k x x' : tri c k x x' -> dval x <> 0 -> exists s m e m' e', x = S754_finite s m e /\ x' = S754_finite s m' e'.
Proof.
  intros T N. pose proof (tri_nz _ _ _ _ T N) as N'. destruct T as (D & D' & _ & E & _). destruct (shape x D N) as (s & m & e & H1 & H2). destruct (shape x' D' N') as (s' & m' & e' & H1' & H2').
  exists s, m, e, m', e'. split; auto. rewrite H1'. f_equal. pose proof (bpow_pos c) as P. rewrite E in H2'.
  assert (X : dval x * bpow radix2 c < 0 <-> dval x < 0) by (split; intros; nra). destruct s, s'; auto; [exfalso|exfalso]; destruct H2, H2', X; [assert (false = true) by tauto|assert (false = true) by tauto]; discriminate.
Qed.
Lemma tri_div c d j k x x' y y' : (0 <= j)%Z -> (0 <= k)%Z -> (j + k + Z.abs (c - d) <= 1020)%Z -> tri c j x x' -> tri d k y y' -> dval y <> 0 -> tri (c - d) (j + k) (ndiv x y) (ndiv x' y').
Proof.
  intros J K B Tx Ty N. pose proof (tri_nz _ _ _ _ Ty N) as N'. destruct Tx as (X1 & X2 & X3 & X4 & X5). assert (Ty' := Ty). destruct Ty as (Y1 & Y2 & Y3 & Y4 & Y5). destruct Y3 as [Y3|Y3]; [contradiction|].
  assert (F : fairk (j + k) (dval x / dval y)). { destruct X3 as [Z|S]; [left; rewrite Z; unfold Rdiv; ring|right; now apply sized_div]. }
  assert (E : dval x' / dval y' = dval x / dval y * bpow radix2 (c - d)). { rewrite X4, Y4. unfold Z.sub. rewrite bpow_plus, bpow_opp. field. split; auto. apply Rgt_not_eq, bpow_gt_0. }
  destruct (room (c - d) (j + k) _ ltac:(lia) B F) as [R1 R2]. rewrite <- E in R2. destruct (d_div x y X1 Y1 N R1) as [A1 A2]. destruct (d_div x' y' X2 Y2 N' R2) as [A3 A4]. rewrite E in A4.
  apply (tri_intro _ _ (dval x / dval y)); auto; try lia. intros Z. assert (Z' : dval x = 0). { unfold Rdiv in Z. apply Rmult_integral in Z. destruct Z; auto. exfalso. now apply (Rinv_neq_0_compat (dval y)). }
  rewrite (X5 Z'). destruct (zero_double x X1 Z') as [s ->]. destruct (tri_shape _ _ _ _ Ty' N) as (t & m & e & m' & e' & -> & ->). reflexivity.
Qed.
Lemma tri_mul c d j k x x' y y' : (0 <= j)%Z -> (0 <= k)%Z -> (j + k + Z.abs (c + d) <= 1020)%Z -> tri c j x x' -> tri d k y y' -> tri (c + d) (j + k) (nmul x y) (nmul x' y').
Proof.
  intros J K B Tx Ty. assert (Tx' := Tx). assert (Ty' := Ty). destruct Tx as (X1 & X2 & X3 & X4 & X5). destruct Ty as (Y1 & Y2 & Y3 & Y4 & Y5).
  assert (F : fairk (j + k) (dval x * dval y)). { destruct X3 as [Z|S]; [left; rewrite Z; ring|]. destruct Y3 as [Z|S']; [left; rewrite Z; ring|right; now apply sized_mul]. }
  assert (E : dval x' * dval y' = dval x * dval y * bpow radix2 (c + d)) by (rewrite X4, Y4, bpow_plus; ring).
  destruct (room (c + d) (j + k) _ ltac:(lia) B F) as [R1 R2]. rewrite <- E in R2. destruct (d_mul x y X1 Y1 R1) as [A1 A2]. destruct (d_mul x' y' X2 Y2 R2) as [A3 A4]. rewrite E in A4.
  apply (tri_intro _ _ (dval x * dval y)); auto; try lia. intros Z.
  destruct (Req_dec (dval x) 0) as [Zx|Nx]; destruct (Req_dec (dval y) 0) as [Zy|Ny].
  - now rewrite X5, Y5.
  - rewrite (X5 Zx). destruct (zero_double x X1 Zx) as [s ->]. destruct (tri_shape _ _ _ _ Ty' Ny) as (t & m & e & m' & e' & -> & ->). reflexivity.
  - rewrite (Y5 Zy). destruct (zero_double y Y1 Zy) as [s ->]. destruct (tri_shape _ _ _ _ Tx' Nx) as (t & m & e & m' & e' & -> & ->). reflexivity.
  - exfalso. apply Rmult_integral in Z. tauto.
Qed.
Lemma dval_inj x y : double x -> double y -> dval x = dval y -> dval x <> 0 -> x = y.
Proof.
  intros Dx Dy E N. destruct (double_of x Dx) as (a & <- & Fa & Va). destruct (double_of y Dy) as (b & <- & Fb & Vb). f_equal. apply B2R_inj; try congruence.
  - rewrite <- Va in N. destruct a; try discriminate; auto; now elim N.
  - rewrite E, <- Vb in N. destruct b; try discriminate; auto; now elim N.
Qed.
Lemma tri_eq k x x' : tri 0 k x x' -> x' = x.
Proof.
  intros (A & B & _ & E & Z). destruct (Req_dec (dval x) 0) as [H|H]; auto. cbn [bpow] in E. rewrite Rmult_1_r in E. apply dval_inj; auto. now rewrite E.
Qed.
Lemma sub_self x : double x -> dval x <> 0 -> nsub x x = (S754_zero false : f64).
Proof.
  intros D N. destruct (shape x D N) as (s & m & e & -> & _). cbn [nsub F64num]. unfold SFsub. rewrite Z.sub_diag. reflexivity.
Qed.
Lemma exact_fair k z d : Rabs d <= u64 -> fairk k (z * (1 + d)) -> fairk (k + 1) z.
Proof.
  intros D F. pose proof u64_val as U. apply abs_both in D. destruct F as [Z|[A B]]; [left; apply Rmult_integral in Z; destruct Z; lra|right].
  rewrite Rabs_mult, (Rabs_pos_eq (1 + d)) in A, B by lra. pose proof (Rabs_pos z) as P. unfold sized. replace (- (k + 1))%Z with (- k + -1)%Z by ring. rewrite !bpow_plus. change (bpow radix2 1) with 2. change (bpow radix2 (-1)) with (/ 2).
  pose proof (bpow_pos (- k)). split; nra.
Qed.
Lemma tri_sub c k x x' y y' : (0 <= k <= 900)%Z -> (k + 54 + Z.abs c <= 1020)%Z -> tri c k x x' -> tri c k y y' -> tri c (k + 54) (nsub x y) (nsub x' y').
Proof.
  intros K B Tx Ty. assert (Tx' := Tx). destruct Tx as (X1 & X2 & X3 & X4 & X5). destruct Ty as (Y1 & Y2 & Y3 & Y4 & Y5).
  destruct (fd_sub k x y) as (S1 & S2 & d & S3 & S4); auto; try lia. rewrite S4 in S2. apply exact_fair in S2; auto. replace (k + 53 + 1)%Z with (k + 54)%Z in S2 by ring.
  assert (E : dval x' - dval y' = (dval x - dval y) * bpow radix2 c) by (rewrite X4, Y4; ring).
  destruct (room c (k + 54) _ ltac:(lia) B S2) as [R1 R2]. rewrite <- E in R2. destruct (d_sub x y X1 Y1 R1) as [A1 A2]. destruct (d_sub x' y' X2 Y2 R2) as [A3 A4]. rewrite E in A4.
  apply (tri_intro _ _ (dval x - dval y)); auto; try lia. intros Z. assert (Q : dval y = dval x) by lra. destruct (Req_dec (dval x) 0) as [Zx|Nx].
  - rewrite X5, Y5; auto. now rewrite Q.
  - assert (y = x) by (apply dval_inj; auto; now rewrite Q). assert (y' = x') by (apply dval_inj; auto; [rewrite X4, Y4, Q; ring|rewrite Y4, Q, <- X4; now apply (tri_nz _ _ _ _ Tx')]). subst y y'. rewrite !sub_self; auto. now apply (tri_nz _ _ _ _ Tx').
Qed.
Lemma tri_add c k x x' y y' : (0 <= k <= 900)%Z -> (k + 3 + Z.abs c <= 1020)%Z -> tri c k x x' -> tri c k y y' -> 0 <= dval x -> 0 <= dval y -> tri c (k + 3) (nadd x y) (nadd x' y').
Proof.
  intros K B Tx Ty Px Py. destruct Tx as (X1 & X2 & X3 & X4 & X5). destruct Ty as (Y1 & Y2 & Y3 & Y4 & Y5).
  assert (S2 : fairk (k + 3) (dval x + dval y)). { apply fairk_le with (k + 2)%Z; [lia|]. replace (dval x + dval y) with ((dval x + dval y) * (1 + 0)) by ring. apply fairk_sum; auto; try lia. rewrite Rabs_R0. pose proof u64_val. lra. }
  assert (E : dval x' + dval y' = (dval x + dval y) * bpow radix2 c) by (rewrite X4, Y4; ring).
  destruct (room c (k + 3) _ ltac:(lia) B S2) as [R1 R2]. rewrite <- E in R2. destruct (d_add x y X1 Y1 R1) as [A1 A2]. destruct (d_add x' y' X2 Y2 R2) as [A3 A4]. rewrite E in A4.
  apply (tri_intro _ _ (dval x + dval y)); auto; try lia. intros Z. rewrite X5, Y5; auto; lra.
Qed.
Lemma tri_sqrt c k x x' : (0 <= k)%Z -> (k + Z.abs c <= 1020)%Z -> tri (c + c) (2 * k) x x' -> 0 <= dval x -> tri c k (nsqrt x) (nsqrt x').
Proof.
  intros K B (X1 & X2 & X3 & X4 & X5) P. pose proof (bpow_pos c) as Pc. assert (P' : 0 <= dval x') by (rewrite X4; apply Rmult_le_pos; auto; apply bpow_ge_0).
  destruct (d_sqrt x X1 P) as [A1 A2]. destruct (d_sqrt x' X2 P') as [A3 A4].
  assert (E : sqrt (dval x') = sqrt (dval x) * bpow radix2 c). { rewrite X4, bpow_plus, sqrt_mult by (auto; nra). f_equal. apply sqrt_square. lra. }
  rewrite E in A4. apply (tri_intro _ _ (sqrt (dval x))); auto.
  - destruct X3 as [Z|[F1 F2]]; [left; rewrite Z; apply sqrt_0|right]. rewrite Rabs_pos_eq in F1, F2 by auto.
    assert (S : forall k, sqrt (bpow radix2 (2 * k)) = bpow radix2 k). { intros i. replace (2 * i)%Z with (i + i)%Z by ring. rewrite bpow_plus. apply sqrt_square. apply bpow_ge_0. }
    unfold sized. rewrite Rabs_pos_eq by apply sqrt_pos. split; rewrite <- S; apply sqrt_le_1_alt; auto. replace (2 * - k)%Z with (- (2 * k))%Z by ring. exact F1.
  - intros Z. rewrite X5; auto. now apply sqrt_eq_0.
Qed.
Lemma tri_abs c k x x' : tri c k x x' -> tri c k (nabs x) (nabs x').
Proof.
  intros (X1 & X2 & X3 & X4 & X5). destruct (d_abs x X1) as [A1 A2]. destruct (d_abs x' X2) as [A3 A4]. split; auto. split; auto. rewrite A2. split.
  - destruct X3 as [->|S]; [left; apply Rabs_R0|right]. unfold sized. rewrite Rabs_Rabsolu. exact S.
  - split; [rewrite A4, X4, Rabs_mult; f_equal; apply Rabs_pos_eq; apply bpow_ge_0|]. intros H. rewrite X5; auto. destruct (Req_dec (dval x) 0); auto. apply Rabs_no_R0 in H0. contradiction.
Qed.
Lemma tri_hyp c k a a' b b' : (0 <= k <= 300)%Z -> (Z.abs c <= 200)%Z -> tri c k a a' -> tri c k b b' -> tri c (k + 2) (hypot2 a b) (hypot2 a' b').
Proof.
  intros K C Ta Tb. unfold hypot2, sq. assert (Q : forall x x', tri c k x x' -> tri (c + c) (2 * k + 1) (nmul x x) (nmul x' x') /\ 0 <= dval (nmul x x)).
  { intros x x' T. split; [apply (tri_le _ (k + k)); [lia|]; apply tri_mul; auto; lia|]. destruct T as (X1 & _ & X3 & _). destruct (fd_mul k k x x) as (_ & _ & d & D & E); auto; try lia. rewrite E. pose proof u64_val. apply abs_both in D. apply Rmult_le_pos; [apply Rle_0_sqr|lra]. }
  destruct (Q a a' Ta) as [A1 A2]. destruct (Q b b' Tb) as [B1 B2]. pose proof (tri_add (c + c) (2 * k + 1) _ _ _ _ ltac:(lia) ltac:(lia) A1 B1 A2 B2) as S.
  apply tri_sqrt; try lia. { apply (tri_le _ (2 * k + 1 + 3)); [lia|exact S]. }
  destruct A1 as (D1 & _ & F1 & _). destruct B1 as (D2 & _ & F2 & _). destruct (fd_add (2 * k + 1) _ _ ltac:(lia) D1 D2 F1 F2) as (_ & d & D & E). rewrite E. pose proof u64_val. apply abs_both in D. apply Rmult_le_pos; lra.
Qed.
