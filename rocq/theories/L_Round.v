(** The Petrosian radius of an arbitrary image, measured in double precision. *)
From Coq Require Import SpecFloat ZArith Reals Lra Lia.
From Verif Require Import Base Num Numpy M_Utils M_Photometry M_Petrosian S_Petrosian L_Petrosian S_Photometry S_Double S_Sums S_Counts S_Photo6 S_Round L_Double L_Double2 L_Double3 L_Photo6.
Local Open Scope R_scope.

Lemma cut_near m e v q q' c i : length q' = length q -> (forall j, (j <= c)%nat -> Rabs (nth j q' 0 - nth j q 0) <= e) -> clear_cut (m + 2 * e) v q c i -> clear_cut m v q' c i.
Proof.
  intros L N ((H1 & H2) & H3 & H4 & H5). pose proof (N c ltac:(lia)) as Nc. apply abs_both in Nc. split; [lia|]. split; [lra|]. split.
  - intros j Hj. specialize (H4 j Hj). specialize (N j ltac:(lia)). apply abs_both in N. lra.
  - intros j Hj Nj. specialize (H5 j Hj Nj). pose proof (N j Hj) as Na. pose proof (N i H1) as Nb.
    assert (X : Rabs (nth i q' 0 - v) <= Rabs (nth i q 0 - v) + e).
    { replace (nth i q' 0 - v) with ((nth i q 0 - v) + (nth i q' 0 - nth i q 0)) by ring. eapply Rle_trans; [apply Rabs_triang|]. lra. }
    assert (Y : Rabs (nth j q 0 - v) <= Rabs (nth j q' 0 - v) + e).
    { replace (nth j q 0 - v) with ((nth j q' 0 - v) + - (nth j q' 0 - nth j q 0)) by ring. eapply Rle_trans; [apply Rabs_triang|]. rewrite Rabs_Ropp. lra. }
    lra.
Qed.

Lemma exact_radius (r A L : list R) eta m c i num (mk' : kind -> list xr -> list xr -> result (xr -> xr)) :
  length r = length A -> length L = length A -> (2 < length A)%nat -> increasing A -> (forall j, (j < length A)%nat -> at_ A j <> 0 /\ at_ L j <> 0) -> 0 < m ->
  clear_cut m eta (1 :: map (petro_ratio A L) (seq 1 (length A - 1))) c i ->
  exists Q, calculate_petrosian DFloat (map Fin A) (map Fin L) None None = Ok (Q, None) /\
    calculate_petrosian_r mk' (map Fin r) Q None (Fin eta) None num = Ok (Fin (nth i (0 :: tl r) 0), NaN).
Proof.
  intros Lr LL L3 Inc NZ Mp Cut. destruct (petrosian_formula A L) as (Q & E & LQ & Q0 & QS); auto; try (intros j Hj; apply NZ; lia).
  exists Q. split; auto. set (curve := 1 :: map (petro_ratio A L) (seq 1 (length A - 1))) in *.
  assert (CE : closest_value_index (Fin eta) (map Fin curve) false = Some i).
  { destruct Cut as ((H1 & H2) & H3 & H4 & H5). apply exact_pick with (c := c); auto.
    - split; auto. unfold past. split; [lra|]. intros j Hj. specialize (H4 j Hj). lra.
    - intros j Hj Nj. specialize (H5 j Hj Nj). unfold at_. lra. }
  assert (EQ : Q = NaN :: map Fin (map (petro_ratio A L) (seq 1 (length A - 1)))).
  { apply nth_error_ext. intros j. destruct (Nat.lt_ge_cases j (length A)) as [Hj|Hj].
    - destruct j as [|j]; [exact Q0|]. rewrite QS by lia. cbn [nth_error]. rewrite !nth_error_map, (nth_error_nth' _ 0%nat) by (rewrite seq_length; lia).
      rewrite seq_nth by lia. reflexivity.
    - replace (nth_error Q j) with (@None xr) by (symmetry; apply nth_error_None; lia). symmetry. apply nth_error_None. cbn [length]. rewrite !map_length, seq_length. lia. }
  destruct Cut as ((H1 & H2) & _). unfold curve in H2. cbn [length] in H2. rewrite map_length, seq_length in H2.
  rewrite EQ. destruct r as [|r0 rt]; [cbn in Lr; lia|]. unfold calculate_petrosian_r. cbn [map set0 bind get_interpolated_values fst snd].
  change (closest_value_index (Fin eta) (n1 :: map Fin (map (petro_ratio A L) (seq 1 (length A - 1)))) false) with (closest_value_index (Fin eta) (map Fin curve) false).
  rewrite CE. cbn [pick tl]. unfold index.
  assert (X : nth_error (n0 :: map Fin rt) i = Some (Fin (nth i (0 :: rt) 0))).
  { destruct i as [|k]; [reflexivity|]. cbn [nth_error nth]. rewrite nth_error_map. rewrite (nth_error_nth' _ 0) by (cbn [length] in *; lia). reflexivity. }
  rewrite X. reflexivity.
Qed.

(** one value of the profile under perturbations of fluxes and areas *)
Lemma ratio_near f f0 a a0 F F0 A A0 p B : 0 < p <= / 100 -> 1 <= B -> 0 < a0 < a -> 0 < f ->
  Rabs (F - f) <= p * f -> Rabs (A - a) <= p * a -> Rabs ((A - A0) - (a - a0)) <= p * (a - a0) ->
  Rabs ((F - F0) - (f - f0)) * a <= p * f * (a - a0) ->
  Rabs ((f - f0) / (a - a0) / (f / a)) <= B ->
  Rabs ((F - F0) / (A - A0) / (F / A) - (f - f0) / (a - a0) / (f / a)) <= 6 * p * B.
Proof.
  intros Hp HB Ha Hf HF HA HD HN Hq. apply abs_both in HF. apply abs_both in HA. apply abs_both in HD.
  assert (pf : p * f <= / 100 * f) by (apply Rmult_le_compat_r; lra). assert (pa : p * a <= / 100 * a) by (apply Rmult_le_compat_r; lra). assert (pd : p * (a - a0) <= / 100 * (a - a0)) by (apply Rmult_le_compat_r; lra).
  set (D := A - A0) in *. set (d := a - a0) in *. set (N := F - F0) in *. set (n := f - f0) in *.
  assert (dp : 0 < d) by (unfold d; lra). assert (Dp : 0 < D) by lra.
  (* relative deviations *)
  set (d1 := (D - d) / d). set (d2 := (F - f) / f). set (d3 := (A - a) / a). set (e := (N - n) * a / (d * f)).
  assert (E1 : D = d * (1 + d1)) by (unfold d1; field; lra). assert (E2 : F = f * (1 + d2)) by (unfold d2; field; lra). assert (E3 : A = a * (1 + d3)) by (unfold d3; field; lra).
  assert (E4 : N = n + e * (d * f) / a) by (unfold e; field; repeat split; lra).
  assert (R : forall x y, 0 < y -> - (p * y) <= x <= p * y -> - p <= x / y <= p).
  { intros x y Hy Hx. split; apply Rmult_le_reg_r with y; auto; unfold Rdiv; rewrite Rmult_assoc, Rinv_l, Rmult_1_r by lra; lra. }
  assert (B1 : - p <= d1 <= p) by (apply R; lra). assert (B2 : - p <= d2 <= p) by (apply R; lra). assert (B3 : - p <= d3 <= p) by (apply R; lra).
  assert (B4 : - p <= e <= p).
  { apply R; [apply Rmult_lt_0_compat; lra|]. rewrite <- (Rabs_pos_eq a) in HN by lra. rewrite <- Rabs_mult in HN. apply abs_both in HN. replace (p * (d * f)) with (p * f * d) by ring. exact HN. }
  set (q := n / d / (f / a)) in *. assert (Eq : N / D / (F / A) - q = (q + e) * ((1 + d3) / ((1 + d1) * (1 + d2))) - q).
  { rewrite E4, E1, E2, E3. unfold q. field. repeat split; lra. }
  rewrite Eq. set (k := (1 + d3) / ((1 + d1) * (1 + d2)) - 1). replace ((q + e) * ((1 + d3) / ((1 + d1) * (1 + d2))) - q) with (q * k + e * (1 + k)) by (unfold k; field; split; lra).
  assert (pp : p * p <= / 100 * p) by (apply Rmult_le_compat_r; lra).
  assert (p2 : 0 <= p * p) by (apply Rmult_le_pos; lra).
  set (z := (1 + d1) * (1 + d2)). assert (Z : (1 - p) * (1 - p) <= z <= (1 + p) * (1 + p)) by (unfold z; split; apply Rmult_le_compat; lra).
  assert (Zp : 0 < z) by (unfold z; apply Rmult_lt_0_compat; lra).
  assert (K : - (4 * p) <= k <= 4 * p).
  { unfold k. fold z. assert (X : (1 + d3) / z * z = 1 + d3) by (field; lra). set (y := (1 + d3) / z) in *. split.
    - apply Rnot_lt_le. intros C. assert (y * z < (1 - 4 * p) * z) by (apply Rmult_lt_compat_r; lra). assert ((1 - 4 * p) * z <= (1 - 4 * p) * ((1 + p) * (1 + p))) by (apply Rmult_le_compat_l; lra).
      assert ((1 - 4 * p) * ((1 + p) * (1 + p)) <= 1 - p); [|lra]. assert (0 <= p * (p * p)) by (apply Rmult_le_pos; [lra|apply Rmult_le_pos; lra]). lra.
    - apply Rnot_lt_le. intros C. assert ((1 + 4 * p) * z < y * z) by (apply Rmult_lt_compat_r; lra). assert ((1 + 4 * p) * ((1 - p) * (1 - p)) <= (1 + 4 * p) * z) by (apply Rmult_le_compat_l; lra).
      assert (1 + p <= (1 + 4 * p) * ((1 - p) * (1 - p))); [|lra]. assert (0 <= p * (p * p)) by (apply Rmult_le_pos; [lra|apply Rmult_le_pos; lra]). lra. }
  assert (T1 : Rabs (q * k) <= B * (4 * p)) by (rewrite Rabs_mult; apply Rmult_le_compat; try apply Rabs_pos; auto; apply Rabs_le; lra).
  assert (T2 : Rabs (e * (1 + k)) <= p * 2) by (rewrite Rabs_mult; apply Rmult_le_compat; try apply Rabs_pos; apply Rabs_le; lra).
  eapply Rle_trans; [apply Rabs_triang|]. assert (p * 1 <= p * B) by (apply Rmult_le_compat_l; lra). lra.
Qed.

(** ** the Petrosian radius of an arbitrary image *)
Section Image.
  Variables (overlap : aperture f64 -> nat -> nat -> option (nat -> nat -> f64)) (k : flavour) (image error : img f64) (pos : f64 * f64) (mask : option (img bool)) (elong theta : f64)
    (w : f64 -> nat -> nat -> f64) (rs : list f64) (eta : f64) (B p : R) (c i num : nat).
  Hypothesis fit : fits mask image.
  Hypothesis fite : iny error = iny image /\ inx error = inx image.
  Hypothesis G : forall r, In r rs -> gauged overlap k image error pos mask elong theta w r.
  Hypothesis L3 : (2 < length rs)%nat.
  Hypothesis Hp : 0 < p <= / 100.
  Hypothesis cl : clear_of image mask w p rs c.
  Hypothesis De : double eta.
  Hypothesis HB : 1 <= B <= 2 ^ 99.
  Hypothesis He : Rabs (dval eta) <= B.
  Hypothesis Hb : forall j, (1 <= j <= c)%nat -> Rabs (petro_ratio (map (area_of image mask w) rs) (map (flux_of image mask w) rs) j) <= B.
  Hypothesis Cut : clear_cut (64 * u64 * B + 12 * p * B) (dval eta) (1 :: map (petro_ratio (map (area_of image mask w) rs) (map (flux_of image mask w) rs)) (seq 1 (length rs - 1))) c i.

  Lemma image_radius (mk : kind -> list f64 -> list f64 -> result (f64 -> f64)) (mk' : kind -> list xr -> list xr -> result (xr -> xr)) :
    exists F A E Q Q' x, radial_photometry overlap k image pos rs (Some error) mask elong theta = Ok (F, A, E) /\ calculate_petrosian DFloat A F None None = Ok (Q, None) /\
      calculate_petrosian_r mk rs Q None eta None num = Ok (x, nnan) /\ x = nth i (n0 :: tl rs) n0 /\
      calculate_petrosian DFloat (map Fin (map (area_of image mask w) rs)) (map Fin (map (flux_of image mask w) rs)) None None = Ok (Q', None) /\
      calculate_petrosian_r mk' (map Fin (map dval rs)) Q' None (Fin (dval eta)) None num = Ok (Fin (dval x), NaN).
  Proof.
    destruct cl as (C1 & C2 & C3).
    destruct (radial_gauged overlap k image error pos mask elong theta w fit fite rs) as (F & A & E & R1 & _ & NF & NA & _); auto.
    assert (Len : forall (X : f64 -> f64 -> Prop) l l', Forall2 X l l' -> length l' = length l) by (clear; induction 1; cbn [length]; auto).
    pose proof (Len _ _ _ NF) as LF. pose proof (Len _ _ _ NA) as LA.
    set (al := area_of image mask w) in *. set (fl := flux_of image mask w) in *. set (la := area_loss image mask w) in *. set (lf := flux_loss image mask w) in *.
    assert (N2 : forall (X : f64 -> f64 -> Prop) l l', Forall2 X l l' -> forall j, (j < length l)%nat -> X (nth j l dz) (nth j l' dz)).
    { clear. induction 1; intros [|j] Hj; cbn [nth length] in *; try lia; auto. apply IHForall2. lia. }
    assert (At : forall (f : f64 -> R) l j, (j < length l)%nat -> at_ (map f l) j = f (nth j l dz)).
    { intros f l j Hj. unfold at_. rewrite (nth_indep (map f l) 0 (f dz)) by (rewrite map_length; auto). apply map_nth. }
    assert (VF : forall j, (j < length rs)%nat -> double (nth j F dz) /\ Rabs (at_ (map dval F) j - at_ (map fl rs) j) <= at_ (map lf rs) j).
    { intros j Hj. destruct (N2 _ _ _ NF j Hj) as (X & Y). split; [exact X|]. rewrite !At by lia. exact Y. }
    assert (VA : forall j, (j < length rs)%nat -> double (nth j A dz) /\ Rabs (at_ (map dval A) j - at_ (map al rs) j) <= at_ (map la rs) j).
    { intros j Hj. destruct (N2 _ _ _ NA j Hj) as (X & Y). split; [exact X|]. rewrite !At by lia. exact Y. }
    assert (C1' : forall j, (j < length rs)%nat -> / 2 ^ 199 <= at_ (map al rs) j <= 2 ^ 199 /\ / 2 ^ 199 <= at_ (map fl rs) j <= 2 ^ 199 /\ at_ (map la rs) j <= p * at_ (map al rs) j /\ at_ (map lf rs) j <= p * at_ (map fl rs) j).
    { intros j Hj. rewrite !At by lia. apply C1. now apply nth_In. }
    assert (P199 : 0 < / 2 ^ 199) by (apply Rinv_0_lt_compat; apply pow_lt; lra).
    assert (P200 : 2 ^ 200 = 2 * 2 ^ 199) by reflexivity. assert (I200 : / 2 ^ 200 = / 2 * / 2 ^ 199) by (rewrite P200, Rinv_mult; reflexivity).
    assert (Near : forall x y l, / 2 ^ 199 <= y <= 2 ^ 199 -> Rabs (x - y) <= l -> l <= p * y -> moderate x /\ Rabs (x - y) <= p * y /\ 0 < x).
    { intros x y l Hy Hx Hl. assert (p * y <= / 100 * y) by (apply Rmult_le_compat_r; lra). pose proof Hx as Hx'. apply abs_both in Hx'. split; [|split; lra].
      unfold moderate. rewrite I200, P200, Rabs_pos_eq by lra. lra. }
    assert (all : forall (X : f64 -> Prop) l, (forall j, (j < length l)%nat -> X (nth j l dz)) -> Forall X l).
    { intros X l H. apply Forall_forall. intros x Hx. apply In_nth with (d := dz) in Hx. destruct Hx as (j & Hj & <-). auto. }
    assert (DA : Forall double A) by (apply all; intros j Hj; apply VA; rewrite <- LA; exact Hj). assert (DF : Forall double F) by (apply all; intros j Hj; apply VF; rewrite <- LF; exact Hj).
    assert (MA : Forall moderate (map dval A)).
    { apply Forall_map. apply all. intros j Hj'. assert (Hj : (j < length rs)%nat) by (rewrite <- LA; exact Hj'). destruct (C1' j Hj) as (X1 & X2 & X3 & X4). destruct (VA j Hj) as (_ & Y). rewrite <- dval_at. eapply Near; [|exact Y|]; assumption. }
    assert (MF : Forall moderate (map dval F)).
    { apply Forall_map. apply all. intros j Hj'. assert (Hj : (j < length rs)%nat) by (rewrite <- LF; exact Hj'). destruct (C1' j Hj) as (X1 & X2 & X3 & X4). destruct (VF j Hj) as (_ & Y). rewrite <- dval_at. eapply Near; [|exact Y|]; assumption. }
    assert (Gap : forall j, (S j < length rs)%nat -> Rabs ((at_ (map dval A) (S j) - at_ (map dval A) j) - (at_ (map al rs) (S j) - at_ (map al rs) j)) <= p * (at_ (map al rs) (S j) - at_ (map al rs) j)).
    { intros j Hj. destruct (C2 j Hj) as (_ & Y). destruct (VA j ltac:(lia)) as (_ & Z0). destruct (VA (S j) Hj) as (_ & Z1). apply abs_both in Z0. apply abs_both in Z1. apply Rabs_le. lra. }
    assert (Inc : increasing (map dval A)).
    { intros j Hj. rewrite map_length, LA in Hj. pose proof (Gap j Hj) as X. apply abs_both in X. destruct (C2 j Hj) as (Y & _).
      assert (p * (at_ (map al rs) (S j) - at_ (map al rs) j) <= / 100 * (at_ (map al rs) (S j) - at_ (map al rs) j)) by (apply Rmult_le_compat_r; lra). lra. }
    assert (Inc' : increasing (map al rs)) by (intros j Hj; rewrite map_length in Hj; apply C2; exact Hj).
    pose proof Cut as ((Ci & Cc) & _). cbn [length] in Cc. rewrite map_length, seq_length in Cc.
    assert (Dev : forall j, (1 <= j <= c)%nat -> Rabs (petro_ratio (map dval A) (map dval F) j - petro_ratio (map al rs) (map fl rs) j) <= 6 * p * B).
    { intros [|j] Hj; [lia|]. specialize (Hb (S j) Hj). unfold petro_ratio, local_sb, mean_sb in *. replace (S j - 1)%nat with j in * by lia.
      destruct (C1' (S j) ltac:(lia)) as (X1 & X2 & X3 & X4). destruct (C1' j ltac:(lia)) as (X1' & _ & _ & _). destruct (VA (S j) ltac:(lia)) as (_ & Y1). destruct (VF (S j) ltac:(lia)) as (_ & Y2).
      destruct (VF j ltac:(lia)) as (_ & Y3). destruct (C2 j ltac:(lia)) as (Z & _).
      apply ratio_near; auto; try lra; [apply Gap; lia|]. specialize (C3 j ltac:(lia)).
      apply Rle_trans with ((at_ (map lf rs) (S j) + at_ (map lf rs) j) * at_ (map al rs) (S j)).
      - apply Rmult_le_compat_r; [lra|]. apply abs_both in Y2. apply abs_both in Y3. apply Rabs_le. lra.
      - apply Rle_trans with (p * (at_ (map fl rs) (S j) / at_ (map al rs) (S j) * (at_ (map al rs) (S j) - at_ (map al rs) j)) * at_ (map al rs) (S j)); [apply Rmult_le_compat_r; lra|].
        right. field. lra. }
    assert (AtS : forall (f : nat -> R) n j, (j < n)%nat -> nth j (map f (seq 1 n)) 0 = f (S j)).
    { intros f n j Hj. rewrite (nth_indep _ 0 (f 0%nat)) by (rewrite map_length, seq_length; lia). rewrite map_nth, seq_nth by lia. reflexivity. }
    assert (pB : p * B <= / 100 * B) by (apply Rmult_le_compat_r; lra).
    assert (Cut' : clear_cut (32 * u64 * (2 * B)) (dval eta) (1 :: map (petro_ratio (map dval A) (map dval F)) (seq 1 (length A - 1))) c i).
    { apply (cut_near _ (6 * p * B) _ (1 :: map (petro_ratio (map al rs) (map fl rs)) (seq 1 (length rs - 1)))).
      - cbn [length]. rewrite !map_length, !seq_length. lia.
      - intros [|j] Hj; cbn [nth]; [rewrite Rminus_diag_eq, Rabs_R0 by reflexivity; apply Rmult_le_pos; lra|].
        rewrite LA, !AtS by lia. apply Dev. lia.
      - replace (32 * u64 * (2 * B) + 2 * (6 * p * B)) with (64 * u64 * B + 12 * p * B) by ring. exact Cut. }
    assert (P100 : 2 ^ 100 = 2 * 2 ^ 99) by reflexivity.
    destruct (radius_double rs A F eta (2 * B) c i num (eq_sym LA) (eq_trans LF (eq_sym LA)) (eq_ind_r (fun n => (2 < n)%nat) L3 LA) DA DF MA MF Inc De ltac:(lra) ltac:(lra)) with (mk := mk) (mk' := mk') as (Q & Q1 & x & H1 & H2 & H3 & H4 & H5); [|exact Cut'|].
    { intros j Hj. specialize (Hb j Hj). specialize (Dev j Hj). apply abs_both in Dev. apply abs_both in Hb. apply Rabs_le. lra. }
    destruct (exact_radius (map dval rs) (map al rs) (map fl rs) (dval eta) (64 * u64 * B + 12 * p * B) c i num mk') as (Q' & K1 & K2).
    { now rewrite !map_length. } { now rewrite !map_length. } { now rewrite map_length. } { exact Inc'. } 
    { intros j Hj. rewrite map_length in Hj. destruct (C1' j Hj) as (X1 & X2 & _). lra. }
    { pose proof u64_val as U. assert (0 < p * B) by (apply Rmult_lt_0_compat; lra). assert (0 < u64 * B) by (apply Rmult_lt_0_compat; lra). lra. }
    { rewrite map_length. exact Cut. }
    exists F, A, E, Q, Q', x. split; [exact R1|]. split; [exact H1|]. split; [exact H2|]. split; [exact H5|]. split; [exact K1|]. rewrite K2, H5. f_equal. f_equal. f_equal.
    destruct rs as [|r0 rt]; [cbn in L3; lia|]. cbn [map tl]. change (0 :: map dval rt) with (map dval (dz :: rt)). change (@n0 f64 F64num) with dz. symmetry. change 0 with (dval dz). symmetry. apply map_nth.
  Qed.
End Image.
