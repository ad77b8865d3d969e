(** Aperture errors in double precision. *)
From Coq Require Import SpecFloat ZArith Reals Lra Lia Permutation.
From Flocq Require Import Core BinarySingleNaN.
From Verif Require Import Base Num Numpy M_Utils M_Photometry S_Petrosian S_Photometry S_Double S_Sums L_Double L_Double2 L_Double3 L_Double4 L_Sums L_Sums2 L_Grid.
Local Open Scope R_scope.

Lemma fairk_fair x : fairk 200 x -> fair x.
Proof.
  intros [H|H]; [now left|right]. unfold sized in H. rewrite bpow_opp in H. replace (bpow radix2 200) with (2 ^ 200) in H; [exact H|].
  rewrite bpow_powerRZ. change (powerRZ (IZR radix2) 200) with (2 ^ Pos.to_nat 200). f_equal.
Qed.
Lemma square_double e : double e -> fair (dval e * dval e) ->
  double (nmul e e) /\ fair (dval (nmul e e)) /\ exists d, Rabs d <= u64 /\ dval (nmul e e) = dval e * dval e * (1 + d).
Proof.
  intros D F. pose proof u64_val as U. destruct F as [Z|M].
  - destruct (d_mul e e D D) as [A B]; rewrite Z, rnd_0 in *; [rewrite Rabs_R0; apply bpow_gt_0|]. split; auto. split; [now left|]. exists 0. rewrite Rabs_R0. split; [lra|]. rewrite B. ring.
  - pose proof (moderate_sized _ M) as S. destruct (d_mul e e D D) as [A B]; [apply (sized_small 200); auto; lia|]. split; auto. rewrite B. split.
    + apply fairk_fair. right. apply sized_rnd; auto; lia.
    + apply (sized_rel 200); auto; lia.
Qed.
Lemma over_scaled l f g u : 0 <= u -> (forall p, In p l -> 0 <= f (fst p) (snd p) /\ Rabs (g (fst p) (snd p) - f (fst p) (snd p)) <= u * f (fst p) (snd p)) ->
  0 <= over l f /\ Rabs (over l g - over l f) <= u * over l f.
Proof.
  intros Hu. unfold over, total. induction l as [|p l IH]; intros H; cbn [map fold_right].
  - rewrite Rminus_0_r, Rabs_R0. lra.
  - destruct IH as [I1 I2]; [intros; apply H; now right|]. destruct (H p (or_introl eq_refl)) as [H1 H2]. split; [lra|]. apply abs_both in I2. apply abs_both in H2. apply Rabs_le. lra.
Qed.
Lemma over_ext l f g : (forall p, In p l -> f (fst p) (snd p) = g (fst p) (snd p)) -> over l f = over l g.
Proof. intros H. unfold over. f_equal. apply map_ext_in. exact H. Qed.
Lemma grow_half n : INR n * u64 <= / 2 -> grow n <= 3 / 4.
Proof.
  intros H. pose proof (grow_small (n + n)) as G. rewrite plus_INR in G. specialize (G ltac:(lra)). unfold grow in *. rewrite pow_add in G.
  set (x := (1 + u64) ^ n) in *. destruct (Rle_lt_dec x (7 / 4)); [lra|]. assert (7 / 4 * (7 / 4) < x * x) by (apply Rmult_le_0_lt_compat; lra). lra.
Qed.
Lemma pos_min x : double x -> 0 < dval x -> bpow radix2 (-1074) <= dval x.
Proof. intros D H. apply (generic_format_ge_bpow radix2 fexp64 (-1074)); auto; [|now apply double_format]. intros e. unfold fexp64, SpecFloat.fexp, SpecFloat.emin. lia. Qed.
Lemma root_error t S g : double t -> 0 <= S -> 0 <= g < 1 -> Rabs (dval t - S) <= g * S ->
  double (nsqrt t) /\ Rabs (dval (nsqrt t) - sqrt S) <= ((1 + u64) * (1 + g) - 1) * sqrt S.
Proof.
  intros D S0 G H. pose proof u64_val as U. apply abs_both in H. assert (T0 : 0 <= dval t). { assert (g * S <= 1 * S) by (apply Rmult_le_compat_r; lra). lra. }
  destruct (d_sqrt t D T0) as [A B]. split; auto. rewrite B.
  destruct (Req_dec S 0) as [Z|Z].
  { subst S. assert (E : dval t = 0) by lra. rewrite E, sqrt_0, rnd_0, Rminus_0_r, Rabs_R0. lra. }
  assert (Sp : 0 < S) by lra. pose proof (sqrt_lt_R0 S Sp) as Q. pose proof (sqrt_sqrt S S0) as QQ. pose proof (sqrt_pos (dval t)) as P. pose proof (sqrt_sqrt (dval t) T0) as PP.
  assert (Tp : 0 < dval t). { assert (g * S < 1 * S) by (apply Rmult_lt_compat_r; lra). lra. }
  set (q := sqrt S) in *. set (p := sqrt (dval t)) in *.
  assert (K : Rabs (p - q) <= g * q).
  { apply Rabs_le. split.
    - apply Rnot_lt_le. intros L. assert (p + q > 0) by lra. assert ((p - q) * (p + q) < (- (g * q)) * (p + q)) by (apply Rmult_lt_compat_r; lra).
      assert (g * q * p <= g * q * q). { destruct (Rle_lt_dec p q); [apply Rmult_le_compat_l; [apply Rmult_le_pos; lra|auto]|]. assert (0 <= g * q) by (apply Rmult_le_pos; lra). lra. }
      assert ((p - q) * (p + q) = dval t - S) by (rewrite <- PP, <- QQ; ring). assert (g * q * q = g * S) by (rewrite <- QQ; ring). assert (0 <= g * q * p) by (repeat apply Rmult_le_pos; lra). 
      assert (p <= q). { assert (0 <= g * q) by (apply Rmult_le_pos; lra). lra. }
      assert (X : (q - p) * q <= (q - p) * (q + p)) by (apply Rmult_le_compat_l; lra). assert (Y : g * q * q < (q - p) * q) by (apply Rmult_lt_compat_r; lra).
      assert ((q - p) * (q + p) = S - dval t) by (rewrite <- PP, <- QQ; ring). lra.
    - apply Rnot_lt_le. intros L. assert (0 <= g * q) by (apply Rmult_le_pos; lra). assert (X : (p - q) * q <= (p - q) * (p + q)) by (apply Rmult_le_compat_l; lra).
      assert (Y : g * q * q < (p - q) * q) by (apply Rmult_lt_compat_r; lra). assert ((p - q) * (p + q) = dval t - S) by (rewrite <- PP, <- QQ; ring). assert (g * q * q = g * S) by (rewrite <- QQ; ring). lra. }
  assert (Big : bpow radix2 (-1022) <= Rabs p).
  { rewrite Rabs_pos_eq by exact P. apply Rle_trans with (bpow radix2 (-537)); [apply bpow_le; lia|]. apply Rsqr_incr_0_var; auto. unfold Rsqr. rewrite PP, <- bpow_plus. exact (pos_min t D Tp). }
  destruct (rnd_rel p Big) as (d & Hd & E). rewrite E. replace (p * (1 + d) - q) with ((p - q) * (1 + d) + d * q) by ring.
  eapply Rle_trans; [apply Rabs_triang|]. rewrite !Rabs_mult, (Rabs_pos_eq q) by lra.
  assert (Z2 : Rabs (1 + d) <= 1 + u64). { eapply Rle_trans; [apply Rabs_triang|]. rewrite Rabs_R1. lra. }
  replace (((1 + u64) * (1 + g) - 1) * q) with (g * q * (1 + u64) + u64 * q) by ring. apply Rplus_le_compat; [apply Rmult_le_compat; auto; apply Rabs_pos|apply Rmult_le_compat_r; lra].
Qed.

Section Err.
  Variables (overlap : aperture f64 -> nat -> nat -> option (nat -> nat -> f64)) (ap : aperture f64) (data error : img f64) (mask : option (img bool)) (w : nat -> nat -> f64).
  Hypotheses (Hw : overlap ap (iny data) (inx data) = Some w) (Hm : fits mask data) (He : iny error = iny data /\ inx error = inx data)
    (Dw : forall j i, (j < iny data)%nat -> (i < inx data)%nat -> double (w j i)).
  Let P := covered (iny data) (inx data) (fun j i => dval (w j i)) mask.
  Let squares := map (fun p => nmul (nmul (px error (fst p) (snd p)) (px error (fst p) (snd p))) (w (fst p) (snd p))) P.
  Hypotheses (Dd : forall j i, In (j, i) P -> double (px error j i) /\ fair (dval (px error j i) * dval (px error j i)) /\ moderate (dval (w j i)))
      (Np : INR (S (S (length P))) * u64 <= / 2).
  Let V := over P (fun j i => dval (px error j i) * dval (px error j i) * dval (w j i)).

  Lemma err_run : do_photometry overlap ap data (Some error) mask = Ok (nsum (map (fun p => nmul (px data (fst p) (snd p)) (w (fst p) (snd p))) P), Some (nsqrt (nsum squares))).
  Proof.
    unfold do_photometry. replace (same_shape error data) with true by (unfold same_shape; rewrite (proj1 He), (proj2 He), !Nat.eqb_refl; reflexivity).
    replace (match mask with None => true | Some m => same_shape m data end) with true.
    2:{ destruct mask as [m|]; auto. destruct Hm as [H1 H2]. unfold same_shape. rewrite H1, H2, !Nat.eqb_refl. reflexivity. }
    rewrite Hw. rewrite used_covered by exact Dw. reflexivity.
  Qed.
  Lemma err_any t : added (n0 :: squares) t -> double (nsqrt t) /\ Rabs (dval (nsqrt t) - sqrt V) <= ((1 + u64) ^ (S (S (S (length P)))) - 1) * sqrt V.
  Proof.
    intros H. pose proof u64_val as U. set (sq := mkimg (iny data) (inx data) (fun j i => nmul (px error j i) (px error j i))).
    pose proof (pos_INR (length P)) as N0. rewrite !S_INR in Np.
    destruct (flux_any sq mask w Dw) with (s := t) as [T1 T2].
    - intros j i Hp. cbn [sq px]. destruct (Dd j i Hp) as (A & B & C). destruct (square_double _ A B) as (A1 & A2 & _). auto.
    - cbn [sq iny inx]. fold P. rewrite S_INR. lra.
    - exact H.
    - cbn [sq iny inx px] in T2. fold P in T2.
      destruct (over_scaled P (fun j i => dval (px error j i) * dval (px error j i) * dval (w j i)) (fun j i => dval (nmul (px error j i) (px error j i)) * dval (w j i)) u64) as [V0 V1]; [lra| |].
      { intros (j, i) Hp. cbn [fst snd]. destruct (Dd j i Hp) as (A & B & C). destruct (square_double _ A B) as (_ & _ & d & A3 & A4). apply covered_in in Hp. destruct Hp as (_ & _ & Wp).
        assert (E0 : 0 <= dval (px error j i) * dval (px error j i)) by apply Rle_0_sqr. split; [apply Rmult_le_pos; lra|]. rewrite A4.
        match goal with |- Rabs ?z <= u64 * ?v => replace z with (d * v) by ring end. rewrite Rabs_mult. rewrite (Rabs_pos_eq (_ * _)) by (apply Rmult_le_pos; lra). apply Rmult_le_compat_r; auto. apply Rmult_le_pos; lra. }
      fold V in V0, V1.
      assert (Pos : over P (fun j i => Rabs (dval (nmul (px error j i) (px error j i)) * dval (w j i))) = over P (fun j i => dval (nmul (px error j i) (px error j i)) * dval (w j i))).
      { apply over_ext. intros (j, i) Hp. cbn [fst snd]. destruct (Dd j i Hp) as (A & B & C). destruct (square_double _ A B) as (_ & _ & d & A3 & A4). apply covered_in in Hp. destruct Hp as (_ & _ & Wp).
        apply Rabs_pos_eq. rewrite A4. apply abs_both in A3. assert (0 <= dval (px error j i) * dval (px error j i)) by apply Rle_0_sqr. apply Rmult_le_pos; [apply Rmult_le_pos; lra|lra]. }
      rewrite Pos in T2. set (V' := over P (fun j i => dval (nmul (px error j i) (px error j i)) * dval (w j i))) in *.
      change ((1 + u64) ^ S (length P) - 1) with (grow (S (length P))) in T2. pose proof (grow_0 (S (length P))) as G0.
      assert (G1 : grow (S (S (length P))) <= 3 / 4) by (apply grow_half; rewrite !S_INR; lra). 
      assert (T3 : Rabs (dval t - V) <= grow (S (S (length P))) * V).
      { rewrite grow_S. set (g := grow (S (length P))) in *. apply abs_both in V1. apply abs_both in T2. assert (g * V' <= g * ((1 + u64) * V)) by (apply Rmult_le_compat_l; lra). apply Rabs_le. lra. }
      destruct (root_error t V (grow (S (S (length P)))) T1 V0) as [R1 R2]; auto; [split; [apply grow_0|lra]|]. split; auto.
      replace ((1 + u64) ^ S (S (S (length P))) - 1) with ((1 + u64) * (1 + grow (S (S (length P)))) - 1) by (unfold grow; cbn [pow]; ring). exact R2.
  Qed.
End Err.
Lemma error_double overlap ap (data error : img f64) mask w : overlap ap (iny data) (inx data) = Some w -> fits mask data -> iny error = iny data /\ inx error = inx data ->
  (forall j i, (j < iny data)%nat -> (i < inx data)%nat -> double (w j i)) ->
  let P := covered (iny data) (inx data) (fun j i => dval (w j i)) mask in
  let squares := map (fun p => nmul (nmul (px error (fst p) (snd p)) (px error (fst p) (snd p))) (w (fst p) (snd p))) P in
  let V := over P (fun j i => dval (px error j i) * dval (px error j i) * dval (w j i)) in
  (forall j i, In (j, i) P -> double (px error j i) /\ fair (dval (px error j i) * dval (px error j i)) /\ moderate (dval (w j i))) ->
  INR (S (S (length P))) * u64 <= / 2 ->
  exists s v, do_photometry overlap ap data (Some error) mask = Ok (s, Some (nsqrt v)) /\ do_photometry overlap ap data None mask = Ok (s, None) /\ added (n0 :: squares) v /\
    forall t, added (n0 :: squares) t -> double (nsqrt t) /\ Rabs (dval (nsqrt t) - sqrt V) <= ((1 + u64) ^ (S (S (S (length P)))) - 1) * sqrt V.
Proof.
  intros Hw Hm He Dw P sq V Dd Np. eexists. eexists. split; [exact (err_run overlap ap data error mask w Hw Hm He Dw Dd Np)|]. split; [exact (flux_run overlap ap data mask w Hw Hm Dw)|].
  split; [apply nsum_added|]. intros t Ht. exact (err_any data error mask w Dw Dd Np t Ht).
Qed.
