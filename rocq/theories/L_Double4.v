(** Radius lists and ellipticities in double precision. *)
From Coq Require Import SpecFloat ZArith Reals Lra Lia.
From Flocq Require Import Core BinarySingleNaN.
From Verif Require Import Base Num Numpy M_Utils M_Petrosian L_Numpy L_PetroR S_Petrosian L_Petrosian S_Double L_Double L_Double2 L_Double3.
Local Open Scope R_scope.

Lemma ofZ_double z : (Z.abs z <= 2 ^ 53)%Z -> double (f64_ofZ z) /\ dval (f64_ofZ z) = IZR z.
Proof.
  intros H. unfold f64_ofZ. rewrite normalize_equiv. pose proof (binary_normalize_correct 53 1024 Hprec Hmax mode_NE z 0 false) as C.
  assert (F : F2R (Float radix2 z 0) = IZR z) by (unfold F2R; simpl; ring). rewrite F in C. change (round_mode mode_NE) with ZnearestE in C.
  assert (G : generic_format radix2 fexp64 (IZR z)).
  { apply generic_format_FLT. destruct (Z.eq_dec (Z.abs z) (2 ^ 53)) as [E|E].
    - exists (Float radix2 (Z.sgn z) 53); [|change (Z.abs (Z.sgn z) < 9007199254740992)%Z; lia|discriminate]. unfold F2R. simpl Fnum. simpl Fexp. replace (bpow radix2 53) with (IZR (2 ^ 53)) by reflexivity.
      rewrite <- mult_IZR. f_equal. rewrite <- E. symmetry. rewrite Z.mul_comm. apply Z.abs_sgn.
    - exists (Float radix2 z 0); [now rewrite F|change (Z.abs z < 2 ^ 53)%Z; lia|discriminate]. }
  cbv zeta in C. rewrite rnd_id in C by exact G.
  assert (Bd : Rabs (IZR z) < bpow radix2 1024).
  { rewrite <- abs_IZR. apply Rle_lt_trans with (IZR (2 ^ 53)); [now apply IZR_le|]. replace (IZR (2 ^ 53)) with (bpow radix2 53) by reflexivity. apply bpow_lt. lia. }
  rewrite big_bool in C by exact Bd. destruct C as (C1 & C2 & _). split; [now apply double_B|]. rewrite dval_B2R by auto. exact C1.
Qed.
Lemma sized_Z z : (1 <= z <= 2 ^ 53)%Z -> sized 53 (IZR z).
Proof.
  intros H. unfold sized. rewrite Rabs_pos_eq by (apply IZR_le; lia). split.
  - apply Rle_trans with 1; [|apply IZR_le; lia]. change 1 with (bpow radix2 0). apply bpow_le. lia.
  - replace (bpow radix2 53) with (IZR (2 ^ 53)) by reflexivity. apply IZR_le. lia.
Qed.
Lemma dd_mul j k x y : (0 <= j + k <= 1022)%Z -> double x -> double y -> sized j (dval x) -> sized k (dval y) ->
  double (nmul x y) /\ sized (j + k) (dval (nmul x y)) /\ exists d, Rabs d <= u64 /\ dval (nmul x y) = dval x * dval y * (1 + d).
Proof.
  intros K Hx Hy Sx Sy. pose proof (sized_mul _ _ _ _ Sx Sy) as S. destruct (d_mul x y Hx Hy) as [H1 H2].
  { now apply sized_small with (j + k)%Z. }
  split; auto. rewrite H2. split; [now apply sized_rnd|]. now apply sized_rel with (j + k)%Z.
Qed.

(** ** make_radius_list *)
Section RadiusList.
  Variables (m : f64) (n : Z).
  Hypotheses (Dm : double m) (Mm : moderate (dval m)) (Pm : 0 < dval m) (Hn : (1 <= n <= 2 ^ 40)%Z).
  Definition step (k : nat) : f64 := ndiv (nmul (nofZ (Z.of_nat k + 1)) m) (nofZ n).
  Lemma step_ok k : (Z.of_nat k < n)%Z -> double (step k) /\
    exists d, Rabs d <= 5 / 2 * u64 /\ dval (step k) = INR (S k) * dval m / IZR n * (1 + d).
  Proof.
    intros Hk. destruct (ofZ_double (Z.of_nat k + 1)) as [D1 V1]; [lia|]. destruct (ofZ_double n) as [D2 V2]; [lia|].
    pose proof (moderate_sized _ Mm) as Sm. assert (Sk : sized 53 (dval (f64_ofZ (Z.of_nat k + 1)))) by (rewrite V1; apply sized_Z; lia).
    assert (Sn : sized 53 (dval (f64_ofZ n))) by (rewrite V2; apply sized_Z; lia).
    destruct (dd_mul 53 200 _ _ ltac:(lia) D1 Dm Sk Sm) as (D3 & S3 & d1 & E1 & V3).
    destruct (dd_div 253 53 _ _ ltac:(lia) D3 D2 S3 Sn) as (D4 & S4 & d2 & E2 & V4).
    split; [exact D4|]. exists ((1 + d1) * (1 + d2) - 1). pose proof u64_val as U. apply abs_both in E1. apply abs_both in E2. split.
    - apply Rabs_le. split; nra.
    - unfold step. cbn [nofZ F64num] in *. rewrite V4, V3, V1, V2. replace (IZR (Z.of_nat k + 1)) with (INR (S k)).
      + field. apply not_0_IZR. lia.
      + rewrite S_INR, plus_IZR, <- INR_IZR_INZ. reflexivity.
  Qed.
  Lemma step_inc k : (Z.of_nat k + 1 < n)%Z -> dval (step k) < dval (step (S k)).
  Proof.
    intros Hk. destruct (step_ok k) as (_ & d & E & V); [lia|]. destruct (step_ok (S k)) as (_ & d' & E' & V'); [lia|]. rewrite V, V'.
    pose proof u64_val as U. apply abs_both in E. apply abs_both in E'.
    assert (N0 : 0 < IZR n) by (apply IZR_lt; lia). assert (Q : 0 < dval m / IZR n) by (apply Rdiv_lt_0_compat; auto).
    set (q := dval m / IZR n) in *. replace (INR (S k) * dval m / IZR n) with (INR (S k) * q) by (unfold q, Rdiv; ring).
    replace (INR (S (S k)) * dval m / IZR n) with (INR (S (S k)) * q) by (unfold q, Rdiv; ring). rewrite (S_INR (S k)).
    assert (K : 1 <= INR (S k) <= 1099511627776).
    { rewrite INR_IZR_INZ. split; apply IZR_le; lia. }
    set (a := INR (S k)) in *. assert (H : a * (1 + d) < (a + 1) * (1 + d')).
    { assert (a * (d - d') < 1 / 2).
      { apply Rle_lt_trans with (a * (5 * u64)); [apply Rmult_le_compat_l; lra|]. apply Rle_lt_trans with (1099511627776 * (5 * / 9007199254740992)); [|lra].
        apply Rmult_le_compat; lra. }
      lra. }
    replace (a * q * (1 + d)) with (a * (1 + d) * q) by ring. replace ((a + 1) * q * (1 + d')) with ((a + 1) * (1 + d') * q) by ring.
    now apply Rmult_lt_compat_r.
  Qed.
  Lemma radius_list_double : exists l, make_radius_list m n = l /\ length l = Z.to_nat n /\ Forall double l /\ increasing (map dval l) /\
    forall k, (k < length l)%nat -> within (5 / 2) (INR (S k) * dval m / IZR n) (at_ (map dval l) k).
  Proof.
    exists (map step (seq 0 (Z.to_nat n))). assert (Ll : length (map step (seq 0 (Z.to_nat n))) = Z.to_nat n) by now rewrite map_length, seq_length.
    assert (At : forall k, (k < Z.to_nat n)%nat -> at_ (map dval (map step (seq 0 (Z.to_nat n)))) k = dval (step k)).
    { intros k Hk. rewrite dval_at. f_equal. rewrite nth_indep with (d' := step 0) by lia. rewrite map_nth, seq_nth by lia. reflexivity. }
    split; [reflexivity|]. split; [exact Ll|]. split; [|split].
    - apply Forall_forall. intros x Hx. apply in_map_iff in Hx. destruct Hx as (k & <- & Hk). apply in_seq in Hk. apply step_ok. lia.
    - intros k Hk. rewrite map_length, Ll in Hk. rewrite !At by lia. apply step_inc. lia.
    - intros k Hk. rewrite Ll in Hk. rewrite At by auto. destruct (step_ok k) as (_ & d & E & V); [lia|]. unfold within. rewrite V.
      replace (INR (S k) * dval m / IZR n * (1 + d) - INR (S k) * dval m / IZR n) with (d * (INR (S k) * dval m / IZR n)) by ring.
      rewrite Rabs_mult. apply Rmult_le_compat_r; [apply Rabs_pos|exact E].
  Qed.
End RadiusList.

(** ** ellipticity and elongation *)
Lemma fdiv_ok k (x y : f64) : double y -> dval y <> 0 -> fdiv k x y = Ok (ndiv x y).
Proof.
  intros Dy H. unfold fdiv. destruct k; auto. rewrite d_eqb; auto; [|split; [reflexivity|exact I]]. change (dval n0) with 0. now rewrite Reqb_false.
Qed.
Lemma inv_error u d1 d2 : 0 < u <= / 100 -> Rabs d1 <= u -> Rabs d2 <= u -> Rabs ((1 + d1) / (1 + d2) - 1) <= 2 * u + 3 * u * u.
Proof.
  intros U H1 H2. apply abs_both in H1. apply abs_both in H2. apply Rabs_le.
  assert (E : (1 + d1) / (1 + d2) * (1 + d2) = 1 + d1) by (field; lra). set (q := (1 + d1) / (1 + d2)) in *. clearbody q.
  split; apply Rmult_le_reg_r with (1 + d2); try lra; rewrite Rmult_minus_distr_r, E; nra.
Qed.
Lemma ellip_round_trip k e : double e -> 0 <= dval e < 1 ->
  exists g e', ellip_to_elong k e = Ok g /\ elong_to_ellip k g = Ok e' /\ double g /\ double e' /\ 1 <= dval g /\
    within 3 (/ (1 - dval e)) (dval g) /\ Rabs (dval e' - dval e) <= 5 / 2 * u64.
Proof.
  intros De He. destruct one_double as [D1 V1]. pose proof u64_val as U.
  destruct (dd_sub 0 n1 e) as [Ds (d1 & E1 & Vs)]; auto; try lia.
  { rewrite V1, Rabs_R1. simpl. lra. }
  { simpl. rewrite Rabs_pos_eq; lra. }
  rewrite V1 in Vs. assert (S1 : 0 < dval (nsub n1 e) <= 1).
  { split; [rewrite Vs; apply Rmult_lt_0_compat; [lra|apply abs_both in E1; lra]|].
    destruct (d_sub n1 e D1 De) as [_ E]. { rewrite V1. apply rnd_small. apply Rle_trans with 1; [apply Rabs_le; lra|]. change 1 with (bpow radix2 0). apply bpow_le. lia. }
    rewrite E, V1. apply Rle_trans with (rnd 1); [apply rnd_mono; lra|]. apply Req_le, rnd_id. apply (bpow_fmt 0). lia. }
  assert (G1 : / 2 ^ 54 <= 1 - dval e).
  { pose proof (double_format e De) as F. assert (P : dval e <= pred radix2 fexp64 1).
    { apply pred_ge_gt; auto; [apply fexp_correct; reflexivity|apply (bpow_fmt 0); lia|lra]. }
    rewrite <- (Rmult_1_l (/ 2 ^ 54)). replace (pred radix2 fexp64 1) with (1 - bpow radix2 (-53)) in P.
    - rewrite <- u64_bpow in P. unfold u64 in P. assert (/ 2 ^ 54 <= / 2 ^ 53) by (apply Rinv_le; [apply pow_lt; lra|apply Rle_pow; [lra|lia]]). lra.
    - symmetry. change 1 with (bpow radix2 0). rewrite pred_bpow. reflexivity. }
  assert (Sz : sized 55 (dval (nsub n1 e))).
  { unfold sized. rewrite Rabs_pos_eq by lra. split.
    - rewrite Vs. replace (bpow radix2 (- (55))) with (/ 2 ^ 54 * / 2).
      + apply Rmult_le_compat; try lra. apply abs_both in E1; lra.
      + rewrite bpow_opp. rewrite <- Rinv_mult. f_equal. rewrite bpow_powerRZ. change (powerRZ (IZR radix2) 55) with (2 ^ Pos.to_nat 55).
        replace (Pos.to_nat 55) with 55%nat by reflexivity. rewrite <- (tech_pow_Rmult 2 54). ring.
    - apply Rle_trans with 1; [lra|]. change 1 with (bpow radix2 0). apply bpow_le. lia. }
  assert (So : sized 0 (dval n1)) by (unfold sized; rewrite V1, Rabs_R1; simpl; lra).
  destruct (dd_div 0 55 n1 _ ltac:(lia) D1 Ds So Sz) as (Dg & Sg & d2 & E2 & Vg). rewrite V1 in Vg.
  set (g := ndiv n1 (nsub n1 e)) in *.
  assert (G : 1 <= dval g).
  { destruct (d_div n1 (nsub n1 e) D1 Ds) as [_ E]; [lra| |].
    - apply sized_small with 55%Z; [lia|]. apply (sized_div 0 55); auto.
    - unfold g. rewrite E, V1. apply Rle_trans with (rnd 1); [apply Req_le, eq_sym, rnd_id; apply (bpow_fmt 0); lia|]. apply rnd_mono. unfold Rdiv. rewrite Rmult_1_l. rewrite <- Rinv_1 at 1. apply Rinv_le; lra. }
  destruct (dd_sub 55 g n1) as [Dh (d3 & E3 & Vh)]; auto; try lia; [apply Sg|rewrite V1, Rabs_R1; change 1 with (bpow radix2 0); apply bpow_le; lia|].
  rewrite V1 in Vh.
  assert (R : exists d4, Rabs d4 <= u64 /\ double (ndiv (nsub g n1) g) /\ dval (ndiv (nsub g n1) g) = dval (nsub g n1) / dval g * (1 + d4)).
  { destruct (Req_dec (dval g) (dval n1)) as [Z|Z].
    - rewrite V1 in Z. assert (Z' : dval (nsub g n1) = 0) by (rewrite Vh, Z; ring). destruct (dd_div0 (nsub g n1) g Dh Dg Z') as [A B]; [lra|].
      exists 0. rewrite Rabs_R0. split; [lra|]. split; auto. rewrite B, Z'. unfold Rdiv. ring.
    - destruct (dd_gap 55 g n1) as (A & B & _); auto; try lia; [apply sized_le with 0%Z; [lia|exact So]|].
      destruct (dd_div 108 55 (nsub g n1) g) as (A' & B' & d & C & C'); auto; try lia. eauto. }
  destruct R as (d4 & E4 & D4 & V4).
  exists g, (ndiv (nsub g n1) g). unfold ellip_to_elong, elong_to_ellip. rewrite fdiv_ok by (auto; lra). rewrite fdiv_ok by (auto; lra).
  split; auto. split; auto. split; auto. split; auto. split; auto.
  assert (X : dval g = / (1 - dval e) * ((1 + d2) / (1 + d1))). { rewrite Vg, Vs. field. apply abs_both in E1. lra. }
  split.
  - unfold within. rewrite X at 1. replace (/ (1 - dval e) * ((1 + d2) / (1 + d1)) - / (1 - dval e)) with (((1 + d2) / (1 + d1) - 1) * / (1 - dval e)) by ring.
    rewrite Rabs_mult. apply Rmult_le_compat_r; [apply Rabs_pos|]. eapply Rle_trans; [apply (inv_error u64); auto; lra|]. nra.
  - assert (Y : / dval g = (1 - dval e) * ((1 + d1) / (1 + d2))). { rewrite X. field. apply abs_both in E1. apply abs_both in E2. lra. }
    pose proof (inv_error u64 d1 d2 ltac:(lra) E1 E2) as W. set (w := (1 + d1) / (1 + d2) - 1) in *. apply abs_both in W.
    assert (Z : dval (nsub g n1) / dval g = (dval e - (1 - dval e) * w) * (1 + d3)).
    { rewrite Vh. unfold Rdiv. replace ((dval g - 1) * (1 + d3) * / dval g) with ((1 - / dval g) * (1 + d3)) by (field; lra). rewrite Y. unfold w. ring. }
    rewrite V4, Z. apply abs_both in E3. apply abs_both in E4. set (x := dval e) in *. set (u := u64) in *. clearbody w x u. clear - U He W E3 E4.
    remember ((1 + d3) * (1 + d4) - 1) as f eqn:Ef. assert (F : - (2 * u + u * u) <= f <= 2 * u + u * u) by (rewrite Ef; split; nra).
    assert (F2 : - (5 / 2 * u) <= f <= 5 / 2 * u) by (split; nra).
    assert (W1 : - (9 / 4 * u) <= w <= 9 / 4 * u) by (split; nra).
    assert (W2 : - (5 / 2 * u) <= w * (1 + f) <= 5 / 2 * u) by (split; nra).
    replace ((x - (1 - x) * w) * (1 + d3) * (1 + d4) - x) with (x * f - (1 - x) * (w * (1 + f))) by (rewrite Ef; ring).
    set (t := w * (1 + f)) in *. clearbody t. apply Rabs_le. split; nra.
Qed.

(** ** the radius reported without interpolation *)
Lemma sample_double (mk : kind -> list f64 -> list f64 -> result (f64 -> f64)) r p0 p eta num :
  length r = S (length p) -> double eta -> Forall double p ->
  Rabs (dval eta) <= 2 ^ 1000 -> Forall (fun x => Rabs (dval x) <= 2 ^ 1000) p ->
  let curve := 1 :: map dval p in
  exists x, calculate_petrosian_r mk r (p0 :: p) None eta None num = Ok (x, nnan) /\
    ((forall y, In y curve -> dval eta < y) /\ x = nnan \/
     exists c i, first_past false (dval eta) curve c /\ (i <= c)%nat /\ x = nth i (n0 :: tl r) n0 /\
       (forall j, (j <= c)%nat -> Rabs (nth i curve 0 - dval eta) <= (1 + 3 * u64) * Rabs (nth j curve 0 - dval eta)) /\
       (forall j, (j < i)%nat -> Rabs (nth i curve 0 - dval eta) < Rabs (nth j curve 0 - dval eta))).
Proof.
  intros Lr De Dp Be Bp curve. destruct r as [|r0 rt]; [discriminate|]. cbn [length] in Lr. destruct one_double as [O1 O2].
  assert (Bw : bpow radix2 1000 = 2 ^ 1000).
  { rewrite bpow_powerRZ. change (powerRZ (IZR radix2) 1000) with (2 ^ Pos.to_nat 1000). f_equal. }
  set (q := n1 :: p : list f64). assert (Ec : map dval q = curve) by (unfold q, curve; cbn [map]; now rewrite O2).
  assert (Dq : Forall double q) by now constructor.
  assert (Bq : forall x, In x q -> Rabs (dval x) <= bpow radix2 1000).
  { rewrite Bw. intros x [<-|Hx]; [rewrite O2, Rabs_R1; apply pow_R1_Rle; lra|]. rewrite Forall_forall in Bp. now apply Bp. }
  rewrite <- Bw in Be. unfold calculate_petrosian_r. cbn [set0 bind get_interpolated_values fst snd tl]. fold q.
  destruct (closest_value_index eta q false) as [i|] eqn:E.
  - destruct (search_some eta q false De Dq Be Bq i E) as (c & H1 & H2 & H3 & H4). rewrite Ec in *.
    assert (Hi : (i < length (n0 :: rt))%nat). { apply cvi_bound in E. unfold q in E. cbn [length] in *. lia. }
    exists (nth i (n0 :: rt) n0). split; [|right; exists c, i; auto].
    cbn [pick]. unfold index. rewrite (nth_error_nth' _ n0) by exact Hi. reflexivity.
  - exists nnan. split; [reflexivity|]. left. split; auto. intros y Hy. rewrite <- Ec in Hy. apply in_map_iff in Hy. destruct Hy as (x & <- & Hx).
    apply Rnot_le_lt. apply (proj1 (search_none eta q false De Dq Bq) E x Hx).
Qed.
