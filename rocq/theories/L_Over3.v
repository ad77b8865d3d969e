(** Sampling coordinates in double precision. *)
From Coq Require Import String SpecFloat ZArith Reals Lra Lia.
From Flocq Require Import Core BinarySingleNaN.
From Verif Require Import Base Num Numpy M_Utils M_Petrosian M_PSF S_Petrosian S_Photometry S_PSF S_Double S_Sums L_Double L_Double2 L_Double4 L_Sums L_Flux6 L_Near L_PSF L_PSF2 S_Over L_Over.
Local Open Scope R_scope.

Lemma grid_range A size F k : (1 <= F)%nat -> IZR size <= 2 * A + 1 -> (k < Z.to_nat (size * Z.of_nat F))%nat -> gx 0 F k <= 2 * A + 1 / 2.
Proof.
  intros F1 Hs Hk. assert (NF : 1 <= INR F) by (apply (le_INR 1); auto). assert (K : (Z.of_nat k + 1 <= size * Z.of_nat F)%Z) by lia. apply IZR_le in K. rewrite plus_IZR, mult_IZR, <- !INR_IZR_INZ in K.
  unfold gx. assert ((1 / 2 + INR k) / INR F <= IZR size); [|lra]. apply Rmult_le_reg_r with (INR F); [lra|]. unfold Rdiv. rewrite Rmult_assoc, Rinv_l by lra. lra.
Qed.
Theorem grid_double A size ox oy F j i : 1 <= A <= 2 ^ 30 -> Rabs (IZR ox) <= A -> Rabs (IZR oy) <= A -> IZR size <= 2 * A + 1 -> (1 <= F)%nat -> (Z.of_nat F <= 2 ^ 20)%Z ->
  let gr := make_grid size (f64_ofZ ox, f64_ofZ oy) (Z.of_nat F) in (j < iny (fst gr))%nat -> (i < inx (fst gr))%nat ->
  double (px (fst gr) j i) /\ Rabs (dval (px (fst gr) j i) - (IZR ox + (INR i + 1 / 2) / INR F - 1 / 2)) <= 32 * u64 * A /\
  double (px (snd gr) j i) /\ Rabs (dval (px (snd gr) j i) - (IZR oy + (INR j + 1 / 2) / INR F - 1 / 2)) <= 32 * u64 * A.
Proof.
  intros HA Hx Hy Hs F1 F2 gr Hj Hi. unfold gr, make_grid in *. cbn [fst snd iny inx px] in *.
  assert (NF : 1 <= INR F) by (apply (le_INR 1); auto).
  destruct (coordinate_double A ox F i) as [X1 X2]; auto; [now apply (grid_range A size)|]. destruct (coordinate_double A oy F j) as [Y1 Y2]; auto; [now apply (grid_range A size)|].
  assert (E : forall o k, gx (IZR o) F k = IZR o + (INR k + 1 / 2) / INR F - 1 / 2) by (intros; unfold gx; field; lra). rewrite E in X2, Y2. auto.
Qed.

(** numbers m / 2^e are not rounded *)
Lemma dyadic (m : Z) (e : nat) : (Z.abs m <= 2 ^ 53)%Z -> (e <= 1000)%nat -> rnd (IZR m / 2 ^ e) = IZR m / 2 ^ e.
Proof.
  intros Hm He. assert (E : IZR m / 2 ^ e = IZR m * bpow radix2 (- Z.of_nat e)). { unfold Rdiv. f_equal. rewrite bpow_opp. f_equal. change 2 with (IZR 2). rewrite pow_IZR. rewrite <- (IZR_Zpower radix2) by lia. reflexivity. }
  rewrite E. destruct (ofZ_double m Hm) as [D V]. apply double_format in D. rewrite V in D. apply rnd_id. 
  destruct (Z.eq_dec m 0) as [->|N]; [rewrite Rmult_0_l; apply generic_format_0|].
  apply generic_format_FLT. destruct (Z.eq_dec (Z.abs m) (2 ^ 53)) as [Q|Q].
  - assert (M : m = (2 ^ 53)%Z \/ m = (- 2 ^ 53)%Z) by lia. destruct M as [->| ->].
    + exists (Float radix2 (2 ^ 52) (1 - Z.of_nat e)); cbn [Fnum Fexp]; [|cbn; lia|unfold SpecFloat.emin; lia]. unfold F2R. cbn [Fnum Fexp]. unfold Z.sub. rewrite (bpow_plus radix2 1). change (bpow radix2 1) with 2. replace (IZR (2 ^ 53)) with (IZR (2 ^ 52) * 2) by (rewrite <- (mult_IZR _ 2); reflexivity). ring.
    + exists (Float radix2 (- 2 ^ 52) (1 - Z.of_nat e)); cbn [Fnum Fexp]; [|cbn; lia|unfold SpecFloat.emin; lia]. unfold F2R. cbn [Fnum Fexp]. unfold Z.sub. rewrite (bpow_plus radix2 1). change (bpow radix2 1) with 2. replace (IZR (- 2 ^ 53)) with (IZR (- 2 ^ 52) * 2) by (rewrite <- (mult_IZR _ 2); reflexivity). ring.
  - exists (Float radix2 m (- Z.of_nat e)); cbn [Fnum Fexp]; [reflexivity|change (radix2 ^ 53)%Z with (2 ^ 53)%Z; lia|unfold SpecFloat.emin; lia].
Qed.
Theorem grid_exact A o s k : 1 <= A <= 2 ^ 30 -> Rabs (IZR o) <= A -> (s <= 20)%nat -> gx 0 (2 ^ s) k <= 2 * A + 1 / 2 ->
  let c := grid_coord (f64_ofZ o) (Z.of_nat (2 ^ s)) k in double c /\ dval c = gx (IZR o) (2 ^ s) k.
Proof.
  intros HA Ho Hs Hk c. pose proof u64_val as U. set (F := (2 ^ s)%nat) in *. assert (P30 : 2 ^ 30 = 1073741824) by ring. assert (P60 : 2 ^ 60 = 1152921504606846976) by ring. rewrite P30 in *.
  assert (EF : INR F = 2 ^ s) by (unfold F; rewrite pow_INR; reflexivity). assert (F2 : 2 ^ s <= 2 ^ 20) by (apply Rle_pow; [lra|auto]). assert (P20 : 2 ^ 20 = 1048576) by ring. rewrite P20 in F2. assert (F1 : 1 <= 2 ^ s) by (apply pow_R1_Rle; lra).
  assert (Fz : (Z.of_nat F <= 2 ^ 20)%Z) by (apply le_IZR; rewrite <- INR_IZR_INZ, EF; change (IZR (2 ^ 20)) with 1048576; auto). assert (Fp : (1 <= F)%nat) by (apply INR_le; rewrite EF; exact F1).
  pose proof (pos_INR k) as K0. assert (Hq : (INR k + / 2) / 2 ^ s <= 2 * A + 1). { unfold gx in Hk. rewrite EF in Hk. replace ((INR k + / 2) / 2 ^ s) with ((1 / 2 + INR k) / 2 ^ s) by (field; lra). lra. }
  assert (KB : INR k + / 2 <= (2 * A + 1) * 2 ^ s). { replace (INR k + / 2) with ((INR k + / 2) / 2 ^ s * 2 ^ s) by (field; lra). apply Rmult_le_compat_r; lra. }
  assert (KB2 : INR k + / 2 <= 2252349569499137). { eapply Rle_trans; [exact KB|]. apply Rle_trans with ((2 * 1073741824 + 1) * 1048576); [apply Rmult_le_compat; lra|lra]. }
  assert (Kz : (Z.of_nat k <= 2252349569499137)%Z). { apply le_IZR. rewrite <- INR_IZR_INZ. lra. }
  assert (Oz : (Z.abs o <= 2 ^ 30)%Z). { apply le_IZR. rewrite abs_IZR. change (IZR (2 ^ 30)) with 1073741824. lra. }
  destruct (ofZ_double (Z.of_nat k) ltac:(lia)) as [k1 k2]. rewrite <- INR_IZR_INZ in k2. destruct (ofZ_double o ltac:(lia)) as [o1 o2]. destruct (ofZ_double (Z.of_nat F) ltac:(lia)) as [f1 f2]. rewrite <- INR_IZR_INZ, EF in f2.
  destruct half_double as [h1 h2]. change (M_Petrosian.half : f64) with (M_PSF.half : f64) in h1, h2.
  set (M := (2 * Z.of_nat k + 1)%Z). set (p := (2 ^ Z.of_nat s)%Z). assert (Ip : IZR p = 2 ^ s) by (unfold p; change 2 with (IZR 2); now rewrite pow_IZR). assert (pp : (1 <= p <= 2 ^ 20)%Z) by (split; apply le_IZR; rewrite Ip; [lra|change (IZR (2 ^ 20)) with 1048576; lra]).
  assert (IM : IZR M = 2 * INR k + 1) by (unfold M; rewrite plus_IZR, mult_IZR, <- INR_IZR_INZ; ring). assert (M0 : (0 <= M <= 2 ^ 53)%Z) by (unfold M; lia).
  assert (T0 : 0 <= (INR k + / 2) / 2 ^ s) by (apply Rmult_le_pos; [lra|apply Rlt_le, Rinv_0_lt_compat; lra]). apply abs_both in Ho.
  unfold c, grid_coord, nofnat. cbn [nofZ F64num].
  assert (R1 : rnd (/ 2 + INR k) = / 2 + INR k). { replace (/ 2 + INR k) with (IZR M / 2 ^ 1) by (rewrite IM; field). apply dyadic; lia. }
  destruct (d_add _ _ h1 k1) as [a1 a2]; rewrite h2, k2 in *; [apply upto_small; rewrite P60, Rabs_pos_eq; lra|]. rewrite R1 in a2. set (a := nadd (M_PSF.half : f64) (f64_ofZ (Z.of_nat k))) in *.
  assert (Ea : (/ 2 + INR k) / 2 ^ s = (INR k + / 2) / 2 ^ s) by (field; lra).
  assert (R2 : rnd (dval a / 2 ^ s) = (INR k + / 2) / 2 ^ s). { rewrite a2, Ea. replace ((INR k + / 2) / 2 ^ s) with (IZR M / 2 ^ (S s)) by (rewrite IM; cbn [pow]; field; lra). apply dyadic; lia. }
  destruct (d_div a (f64_ofZ (Z.of_nat F)) a1 f1) as [b1 b2]; rewrite f2 in *; [lra|apply upto_small; rewrite P60, a2, Ea, Rabs_pos_eq; lra|]. rewrite R2 in b2. set (b := ndiv a (f64_ofZ (Z.of_nat F))) in *.
  assert (R3 : rnd (dval b - / 2) = (INR k + / 2) / 2 ^ s - / 2). { rewrite b2. replace ((INR k + / 2) / 2 ^ s - / 2) with (IZR (M - p) / 2 ^ (S s)) by (rewrite minus_IZR, IM, Ip; cbn [pow]; field; lra). apply dyadic; lia. }
  destruct (d_sub b _ b1 h1) as [c1 c2]; rewrite h2 in *; [apply upto_small; rewrite P60, b2; apply Rabs_le; lra|]. rewrite R3 in c2. set (cc := nsub b (M_PSF.half : f64)) in *.
  assert (R4 : rnd (dval cc + IZR o) = (INR k + / 2) / 2 ^ s - / 2 + IZR o). { rewrite c2. replace ((INR k + / 2) / 2 ^ s - / 2 + IZR o) with (IZR (M - p + 2 * o * p) / 2 ^ (S s)) by (rewrite plus_IZR, minus_IZR, !mult_IZR, IM, Ip; cbn [pow]; field; lra). apply dyadic; [|lia].
    assert (Z.abs (o * p) <= 2 ^ 30 * 2 ^ 20)%Z by (rewrite Z.abs_mul; apply Z.mul_le_mono_nonneg; lia). unfold M in *. lia. }
  destruct (d_add cc _ c1 o1) as [e1 e2]; rewrite o2 in *; [apply upto_small; rewrite P60, c2; apply Rabs_le; lra|]. split; [exact e1|]. rewrite e2, R4. unfold gx. rewrite EF. field. lra.
Qed.
Theorem grid_powers A size ox oy s j i : 1 <= A <= 2 ^ 30 -> Rabs (IZR ox) <= A -> Rabs (IZR oy) <= A -> IZR size <= 2 * A + 1 -> (s <= 20)%nat ->
  let gr := make_grid size (f64_ofZ ox, f64_ofZ oy) (Z.of_nat (2 ^ s)) in (j < iny (fst gr))%nat -> (i < inx (fst gr))%nat ->
  dval (px (fst gr) j i) = IZR ox + (INR i + 1 / 2) / 2 ^ s - 1 / 2 /\ dval (px (snd gr) j i) = IZR oy + (INR j + 1 / 2) / 2 ^ s - 1 / 2.
Proof.
  intros HA Hx Hy Hs H20 gr Hj Hi. unfold gr, make_grid in *. cbn [fst snd iny inx px] in *. assert (F1 : (1 <= 2 ^ s)%nat) by (apply Nat.neq_0_lt_0, Nat.pow_nonzero; lia).
  destruct (grid_exact A ox s i) as [_ X]; auto; [now apply (grid_range A size)|]. destruct (grid_exact A oy s j) as [_ Y]; auto; [now apply (grid_range A size)|].
  assert (NF : 1 <= 2 ^ s) by (apply pow_R1_Rle; lra). rewrite X, Y. unfold gx. rewrite pow_INR. change (INR 2) with 2. split; field; lra.
Qed.
