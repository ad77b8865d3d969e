(** The radius search in double precision. *)
From Coq Require Import SpecFloat ZArith Reals Lra Lia.
From Flocq Require Import Core BinarySingleNaN.
From Verif Require Import Base Num Numpy M_Utils M_Petrosian L_Numpy L_Utils S_Petrosian L_Petrosian S_Double L_Double L_Double2.
Local Open Scope R_scope.

Lemma Rleb_le a b : Rleb a b = true <-> a <= b.
Proof. destruct (Rleb_spec a b); split; auto; try discriminate; contradiction. Qed.
Lemma Rltb_lt a b : Rltb a b = true <-> a < b.
Proof. destruct (Rltb_spec a b); split; auto; try discriminate; contradiction. Qed.
Lemma in_firstn {A} (x : A) n l : In x (firstn n l) -> In x l.
Proof. intros H. rewrite <- (firstn_skipn n l). apply in_or_app. now left. Qed.
Lemma find_index_ext {A} (p q : A -> bool) l : (forall x, In x l -> p x = q x) -> find_index p l = find_index q l.
Proof.
  induction l as [|x l IH]; intros H; auto. cbn. rewrite H by now left. rewrite IH; auto. intros y Hy. apply H. now right.
Qed.
Lemma argmin_go_double (l : list f64) : forall b bi i, double b -> Forall double l -> argmin_go l b bi i = argmin_go (map (fun x => Fin (dval x)) l) (Fin (dval b)) bi i.
Proof.
  induction l as [|x l IH]; intros b bi i Db Dl; cbn [argmin_go map].
  - rewrite d_nan by auto. reflexivity.
  - inversion Dl; subst. rewrite d_nan by auto. cbn [nisnan XRnum]. rewrite d_leb by auto. cbn [nleb XRnum xleb].
    destruct (Rleb (dval b) (dval x)); apply IH; auto.
Qed.
Lemma argmin_double (l : list f64) : Forall double l -> argmin l = argmin (map (fun x => Fin (dval x)) l).
Proof. destruct l as [|x l]; intros H; auto. inversion H; subst. cbn. f_equal. now apply argmin_go_double. Qed.
Lemma argmin_least (l : list f64) i : Forall double l -> argmin l = Some i ->
  (i < length l)%nat /\ (forall j, (j < length l)%nat -> dval (nth i l dz) <= dval (nth j l dz)) /\
  forall j, (j < i)%nat -> dval (nth i l dz) < dval (nth j l dz).
Proof.
  intros D H. pose proof (argmin_bound _ _ H) as B. rewrite argmin_double in H by auto.
  assert (E : forall j, (j < length l)%nat -> nth_error (map (fun x => Fin (dval x)) l) j = Some (Fin (dval (nth j l dz)))).
  { intros j Hj. rewrite nth_error_map, (nth_error_nth' _ dz) by auto. reflexivity. }
  assert (K : Forall xok (map (fun x => Fin (dval x)) l)).
  { apply Forall_forall. intros x Hx. apply in_map_iff in Hx. destruct Hx as (y & <- & _). discriminate. }
  destruct (argmin_spec _ i K H) as (x & H1 & H2 & H3).
  rewrite E in H1 by auto. injection H1 as <-. split; auto. split; intros j Hj.
  - specialize (H2 j _ (E j Hj)). revert H2. unfold xle. cbn. apply Rleb_le.
  - specialize (H3 j _ Hj (E j ltac:(lia))). revert H3. unfold xlt. cbn. apply Rltb_lt.
Qed.

Section Search.
  Variables (v : f64) (q : list f64) (growing : bool).
  Hypotheses (Dv : double v) (Dq : Forall double q) (Bv : Rabs (dval v) <= bpow radix2 1000) (Bq : forall x, In x q -> Rabs (dval x) <= bpow radix2 1000).
  Let hit (x : f64) := if growing then nleb v x else nleb x v.

  Lemma hit_iff x : double x -> hit x = true <-> past growing (dval v) (dval x).
  Proof. intros Dx. unfold hit, past. destruct growing; rewrite d_leb by auto; apply Rleb_le. Qed.
  Lemma gap_double x : In x q -> double (nabs (nsub x v)) /\ dval (nabs (nsub x v)) = rnd (Rabs (dval x - dval v)) /\
    exists d, Rabs d <= u64 /\ dval (nabs (nsub x v)) = Rabs (dval x - dval v) * (1 + d).
  Proof.
    intros Hx. assert (Dx : double x) by (rewrite Forall_forall in Dq; auto).
    destruct (dd_sub 1000 x v) as [H1 (d & H2 & H3)]; auto; try lia. destruct (d_abs _ H1) as [H4 H5]. split; auto.
    assert (B : Rabs (dval x - dval v) <= bpow radix2 1001).
    { replace (dval x - dval v) with (dval x + - dval v) by ring. eapply Rle_trans; [apply Rabs_triang|]. rewrite Rabs_Ropp.
      change 1001%Z with (1000 + 1)%Z. rewrite bpow_plus. change (bpow radix2 1) with 2. specialize (Bq x Hx). lra. }
    destruct (d_sub x v Dx Dv) as [_ E]. { apply rnd_small. eapply Rle_trans; [exact B|]. apply bpow_le. lia. }
    split; [rewrite H5, E; apply rnd_abs|]. exists d. split; auto. rewrite H5, H3, Rabs_mult. f_equal. apply Rabs_pos_eq.
    apply abs_both in H2. pose proof u64_val. lra.
  Qed.

  Lemma search_none : closest_value_index v q growing = None <-> forall x, In x q -> ~ past growing (dval v) (dval x).
  Proof.
    unfold closest_value_index. change (fun x : f64 => if growing then nleb v x else nleb x v) with hit. destruct (find_index hit q) as [c|] eqn:F.
    - split.
      + intros E. apply argmin_None in E. apply map_eq_nil in E. apply find_index_Some in F. destruct F as [(x & F & _) _].
        destruct q; [destruct c; discriminate|discriminate].
      + intros H. exfalso. apply find_index_Some in F. destruct F as [(x & F & Hx) _]. apply nth_error_In in F.
        apply (H x F). apply hit_iff; auto. rewrite Forall_forall in Dq. auto.
    - split; auto. intros _ x Hx P. rewrite find_index_None in F. specialize (F x Hx). apply hit_iff in P; [congruence|].
      rewrite Forall_forall in Dq. auto.
  Qed.
  Lemma search_some i : closest_value_index v q growing = Some i -> exists c, first_past growing (dval v) (map dval q) c /\ (i <= c)%nat /\
    (forall j, (j <= c)%nat -> Rabs (at_ (map dval q) i - dval v) <= (1 + 3 * u64) * Rabs (at_ (map dval q) j - dval v)) /\
    (forall j, (j < i)%nat -> Rabs (at_ (map dval q) i - dval v) < Rabs (at_ (map dval q) j - dval v)).
  Proof.
    unfold closest_value_index. change (fun x : f64 => if growing then nleb v x else nleb x v) with hit. destruct (find_index hit q) as [c|] eqn:F; [|discriminate].
    intros H. apply find_index_Some in F. destruct F as [(x & F & Hx) F'].
    assert (Dn : forall j, (j < length q)%nat -> double (nth j q dz)) by (intros j Hj; rewrite Forall_forall in Dq; apply Dq; now apply nth_In).
    assert (C : (c < length q)%nat) by (apply nth_error_Some; congruence). 
    assert (Ex : x = nth c q dz) by (symmetry; exact (nth_error_nth _ _ dz F)). rewrite Ex in Hx.
    exists c. split.
    - split; [now rewrite map_length|]. split.
      + change (nth c (map dval q) 0) with (at_ (map dval q) c). rewrite dval_at. apply hit_iff; auto.
      + intros j Hj P. change (nth j (map dval q) 0) with (at_ (map dval q) j) in P. rewrite dval_at in P. apply hit_iff in P; [|apply Dn; lia].
        rewrite (F' j (nth j q dz)) in P; auto; [discriminate|]. apply nth_error_nth'. lia.
    - set (l := map (fun x : f64 => nabs (nsub x v)) (firstn (S c) q)) in *.
      assert (Ll : length l = S c) by (unfold l; rewrite map_length, firstn_length; lia).
      assert (Dl : Forall double l).
      { apply Forall_forall. intros y Hy. apply in_map_iff in Hy. destruct Hy as (z & <- & Hz). apply gap_double. eapply in_firstn. exact Hz. }
      destruct (argmin_least l i Dl H) as (I1 & I2 & I3). rewrite Ll in *.
      assert (Nl : forall j, (j <= c)%nat -> nth j l dz = nabs (nsub (nth j q dz) v) /\ In (nth j q dz) q).
      { intros j Hj. split; [|apply nth_In; lia]. apply nth_error_nth. unfold l. rewrite nth_error_map. 
        rewrite (nth_error_nth' _ dz) by (rewrite firstn_length; lia). cbn [option_map]. do 3 f_equal.
        apply nth_error_nth. rewrite nth_error_firstn. replace (Nat.ltb j (S c)) with true by (symmetry; apply Nat.ltb_lt; lia). apply nth_error_nth'. lia. }
      split; [lia|]. pose proof u64_val as U. destruct (Nl i ltac:(lia)) as [Ei Ii]. destruct (gap_double _ Ii) as (_ & Ri & di & Hi & Vi). split; intros j Hj; rewrite !dval_at.
      + destruct (Nl j ltac:(lia)) as [Ej Ij]. destruct (gap_double _ Ij) as (_ & _ & dj & Hj' & Vj).
        specialize (I2 j ltac:(lia)). rewrite Ei, Ej, Vi, Vj in I2. apply abs_both in Hi. apply abs_both in Hj'.
        set (a := Rabs (dval (nth i q dz) - dval v)) in *. set (b := Rabs (dval (nth j q dz) - dval v)) in *.
        assert (0 <= a) by apply Rabs_pos. assert (0 <= b) by apply Rabs_pos.
        assert (a * (1 - u64) <= b * (1 + u64)) by nra.
        assert ((1 + u64) <= (1 + 3 * u64) * (1 - u64)) by nra.
        apply Rmult_le_reg_r with (1 - u64); [lra|]. apply Rle_trans with (b * (1 + u64)); auto.
        replace ((1 + 3 * u64) * b * (1 - u64)) with (b * ((1 + 3 * u64) * (1 - u64))) by ring. now apply Rmult_le_compat_l.
      + destruct (Nl j ltac:(lia)) as [Ej Ij]. destruct (gap_double _ Ij) as (_ & Rj & _).
        specialize (I3 j Hj). rewrite Ei, Ej, Ri, Rj in I3. apply Rnot_le_lt. intros N. apply rnd_mono in N. lra.
  Qed.
  Lemma search_pick c i : first_past growing (dval v) (map dval q) c -> (i <= c)%nat ->
    (forall j, (j <= c)%nat -> j <> i -> (1 + 3 * u64) * Rabs (at_ (map dval q) i - dval v) < Rabs (at_ (map dval q) j - dval v)) ->
    closest_value_index v q growing = Some i.
  Proof.
    intros [C1 [C2 C3]] Hi H. rewrite map_length in C1. destruct (closest_value_index v q growing) as [k|] eqn:E.
    - destruct (search_some k E) as (c' & (K1 & K2 & K3) & K4 & K5 & _). f_equal.
      assert (c' = c). { destruct (Nat.lt_total c c') as [L|[L|L]]; auto; exfalso; [now apply (K3 c)|now apply (C3 c')]. }
      subst c'. destruct (Nat.eq_dec k i) as [|N]; auto. exfalso. specialize (H k K4 N). specialize (K5 i Hi). lra.
    - exfalso. rewrite search_none in E. apply (E (nth c q dz)); [now apply nth_In|]. rewrite <- dval_at. exact C2.
  Qed.
End Search.

(** the same search on exact numbers *)
Lemma exact_pick v (q : list R) c i : first_past false v q c -> (i <= c)%nat ->
  (forall j, (j <= c)%nat -> j <> i -> Rabs (at_ q i - v) < Rabs (at_ q j - v)) -> closest_value_index (Fin v) (map Fin q) false = Some i.
Proof.
  intros (C1 & C2 & C3) Hi H. unfold closest_value_index.
  assert (Nf : forall j, (j < length q)%nat -> nth_error (map Fin q) j = Some (Fin (nth j q 0))).
  { intros j Hj. rewrite nth_error_map, (nth_error_nth' _ 0) by auto. reflexivity. }
  assert (F : find_index (fun x : xr => nleb x (Fin v)) (map Fin q) = Some c).
  { apply find_index_Some. split.
    - exists (Fin (nth c q 0)). split; [now apply Nf|]. cbn. apply Rleb_true. exact C2.
    - intros j y Hj Hy. rewrite Nf in Hy by lia. injection Hy as <-. cbn. apply Rleb_false. apply Rnot_le_lt. exact (C3 j Hj). }
  rewrite F. set (l := map _ _).
  assert (Nl : forall j, (j <= c)%nat -> nth_error l j = Some (Fin (Rabs (at_ q j - v)))).
  { intros j Hj. unfold l. rewrite nth_error_map, nth_error_firstn. replace (Nat.ltb j (S c)) with true by (symmetry; apply Nat.ltb_lt; lia).
    rewrite Nf by lia. reflexivity. }
  assert (Ll : length l = S c) by (unfold l; rewrite map_length, firstn_length, map_length; lia).
  destruct (argmin l) as [k|] eqn:E.
  - f_equal. pose proof (argmin_bound _ _ E) as B. destruct (argmin_spec l k) as (x & X1 & X2 & _); auto.
    { apply Forall_forall. intros x Hx. apply In_nth_error in Hx. destruct Hx as [j Hj]. assert (j < length l)%nat by (apply nth_error_Some; congruence).
      rewrite Nl in Hj by lia. injection Hj as <-. discriminate. }
    rewrite Nl in X1 by lia. injection X1 as <-. destruct (Nat.eq_dec k i) as [|N]; auto. exfalso. specialize (H k ltac:(lia) N).
    specialize (X2 i _ (Nl i Hi)). unfold xle in X2. cbn in X2. apply Rleb_le in X2. lra.
  - apply argmin_None in E. rewrite E in Ll. discriminate.
Qed.

(** ** the Petrosian radius of double-precision data *)
Section Radius.
  Variables r A L : list f64.
  Variables (eta : f64) (B : R) (c i num : nat).
  Hypotheses (Lr : length r = length A) (Len : length L = length A) (Long : (2 < length A)%nat) (DA : Forall double A) (DL : Forall double L)
    (MA : Forall moderate (map dval A)) (ML : Forall moderate (map dval L)) (IA : increasing (map dval A)) (De : double eta).
  Let p := petro_ratio (map dval A) (map dval L).
  Let curve := 1 :: map p (seq 1 (length A - 1)).
  Hypotheses (B1 : 1 <= B <= 2 ^ 100) (Be : Rabs (dval eta) <= B) (Bp : forall j, (1 <= j <= c)%nat -> Rabs (p j) <= B)
    (Cut : clear_cut (32 * u64 * B) (dval eta) curve c i).
  Let P := nnan :: map (entry A L) (seq 0 (length A - 1)).
  Let P1 : list f64 := n1 :: map (entry A L) (seq 0 (length A - 1)).

  Lemma one_double : double (n1 : f64) /\ dval (n1 : f64) = 1.
  Proof. split; [split; [reflexivity|exact I]|]. 
    change (n1 : f64) with (S754_finite false 4503599627370496 (-52)). unfold dval. change (powerRZ 2 (-52)) with (/ 2 ^ Pos.to_nat 52).
    replace (Pos.to_nat 52) with 52%nat by reflexivity. assert (E : 2 ^ 52 = 4503599627370496) by lra. rewrite E. field. Qed.
  Lemma curve_at j : (1 <= j < length A)%nat -> nth j curve 0 = p j.
  Proof.
    intros H. unfold curve. destruct j as [|j]; [lia|]. cbn [nth]. rewrite nth_indep with (d' := p 0) by (rewrite map_length, seq_length; lia).
    rewrite map_nth, seq_nth by lia. reflexivity.
  Qed.
  Lemma P1_len : length P1 = length A.
  Proof. unfold P1. cbn [length]. rewrite map_length, seq_length. lia. Qed.
  Lemma P1_at j : (S j < length A)%nat -> nth (S j) P1 dz = entry A L j.
  Proof.
    intros H. unfold P1. cbn [nth]. rewrite nth_indep with (d' := entry A L 0) by (rewrite map_length, seq_length; lia).
    rewrite map_nth, seq_nth by lia. reflexivity.
  Qed.
  Lemma big100 : bpow radix2 1000 >= 2 ^ 100.
  Proof.
    apply Rle_ge. replace (2 ^ 100) with (bpow radix2 100); [apply bpow_le; lia|]. rewrite bpow_powerRZ. reflexivity.
  Qed.
  Lemma P1_all : Forall double P1 /\ forall x, In x P1 -> Rabs (dval x) <= bpow radix2 1000.
  Proof.
    destruct one_double as [O1 O2]. assert (E : forall x, In x P1 -> x = n1 \/ exists j, (S j < length A)%nat /\ x = entry A L j).
    { intros x [<-|Hx]; auto. right. apply in_map_iff in Hx. destruct Hx as (j & <- & Hj). apply in_seq in Hj. exists j. split; auto. lia. }
    split; [apply Forall_forall|]; intros x Hx; destruct (E x Hx) as [->|(j & Hj & ->)]; auto.
    - apply entry_ok; auto.
    - rewrite O2, Rabs_R1. pose proof big100. apply Rle_trans with (2 ^ 100); [|lra]. apply pow_R1_Rle. lra.
    - apply entry_ok; auto.
  Qed.
  Lemma near j : (j <= c)%nat -> Rabs (at_ (map dval P1) j - nth j curve 0) <= 6 * u64 * B.
  Proof.
    intros Hj. pose proof Cut as ((H1 & H2) & _). assert (Lc : length curve = length A).
    { unfold curve. cbn [length]. rewrite map_length, seq_length. lia. }
    rewrite Lc in H2. pose proof u64_val as U. rewrite dval_at. destruct j as [|j].
    - unfold P1, curve. cbn [nth]. rewrite (proj2 one_double). rewrite Rminus_diag_eq, Rabs_R0 by auto. apply Rmult_le_pos; lra.
    - rewrite P1_at by lia. rewrite curve_at by lia.
      destruct (entry_ok A L Len Long DA DL MA ML IA j) as (_ & _ & W); [lia|]. unfold within in W. eapply Rle_trans; [exact W|].
      apply Rmult_le_compat_l; [lra|]. apply Bp. lia.
  Qed.
  Lemma rounded_pick : closest_value_index eta P1 false = Some i.
  Proof.
    pose proof Cut as ((H1 & H2) & H3 & H4 & H5). assert (Lc : length curve = length A).
    { unfold curve. cbn [length]. rewrite map_length, seq_length. lia. }
    rewrite Lc in H2. pose proof u64_val as U. destruct P1_all as [Q1 Q2].
    set (w := u64 * B). assert (W : 0 < w) by (unfold w; apply Rmult_lt_0_compat; lra).
    assert (Ew : 32 * u64 * B = 32 * w) by (unfold w; ring). rewrite Ew in H3. assert (H4' : forall j, (j < c)%nat -> dval eta + 32 * w <= nth j curve 0) by (rewrite <- Ew; exact H4). clear H4. rename H4' into H4.
    assert (H5' : forall j, (j <= c)%nat -> j <> i -> Rabs (nth i curve 0 - dval eta) + 32 * w <= Rabs (nth j curve 0 - dval eta)) by (rewrite <- Ew; exact H5). clear H5. rename H5' into H5.
    assert (N : forall j, (j <= c)%nat -> - (6 * w) <= at_ (map dval P1) j - nth j curve 0 <= 6 * w).
    { intros j Hj. apply abs_both. replace (6 * w) with (6 * u64 * B) by (unfold w; ring). now apply near. }
    assert (Cb : forall j, (j <= c)%nat -> Rabs (nth j curve 0) <= B).
    { intros [|j] Hj; [unfold curve; cbn [nth]; rewrite Rabs_R1; lra|]. rewrite curve_at by lia. apply Bp. lia. }
    apply search_pick with (c := c); auto.
    - eapply Rle_trans; [exact Be|]. pose proof big100. lra.
    - split; [rewrite map_length, P1_len; auto|]. split.
      + unfold past. specialize (N c ltac:(lia)). change (nth c (map dval P1) 0) with (at_ (map dval P1) c). lra.
      + intros j Hj. unfold past. specialize (N j ltac:(lia)). specialize (H4 j Hj). change (nth j (map dval P1) 0) with (at_ (map dval P1) j). lra.
    - intros j Hj Nj. specialize (H5 j Hj Nj). pose proof (N j Hj) as Na. pose proof (N i H1) as Nb.
      assert (X : Rabs (at_ (map dval P1) i - dval eta) <= Rabs (nth i curve 0 - dval eta) + 6 * w).
      { replace (at_ (map dval P1) i - dval eta) with ((nth i curve 0 - dval eta) + (at_ (map dval P1) i - nth i curve 0)) by ring.
        eapply Rle_trans; [apply Rabs_triang|]. apply Rplus_le_compat_l. apply Rabs_le. lra. }
      assert (Y : Rabs (nth j curve 0 - dval eta) <= Rabs (at_ (map dval P1) j - dval eta) + 6 * w).
      { replace (nth j curve 0 - dval eta) with ((at_ (map dval P1) j - dval eta) + (nth j curve 0 - at_ (map dval P1) j)) by ring.
        eapply Rle_trans; [apply Rabs_triang|]. apply Rplus_le_compat_l. apply Rabs_le. lra. }
      assert (Z : Rabs (nth i curve 0 - dval eta) <= 2 * B).
      { replace (nth i curve 0 - dval eta) with (nth i curve 0 + - dval eta) by ring. eapply Rle_trans; [apply Rabs_triang|]. rewrite Rabs_Ropp. specialize (Cb i H1). lra. }
      set (x := Rabs (nth i curve 0 - dval eta)) in *. assert (0 <= x) by apply Rabs_pos.
      assert (u64 * x <= 2 * w). { replace (2 * w) with (u64 * (2 * B)) by (unfold w; ring). apply Rmult_le_compat_l; lra. }
      assert (u64 * w <= / 100 * w) by (apply Rmult_le_compat_r; lra).
      assert (u64 * Rabs (at_ (map dval P1) i - dval eta) <= 3 * w).
      { apply Rle_trans with (u64 * (x + 6 * w)); [apply Rmult_le_compat_l; lra|]. nra. }
      replace ((1 + 3 * u64) * Rabs (at_ (map dval P1) i - dval eta)) with (Rabs (at_ (map dval P1) i - dval eta) + 3 * (u64 * Rabs (at_ (map dval P1) i - dval eta))) by ring. lra.
  Qed.
  Lemma cut_exact : closest_value_index (Fin (dval eta)) (map Fin curve) false = Some i.
  Proof.
    pose proof Cut as ((H1 & H2) & H3 & H4 & H5). pose proof u64_val as U. assert (W : 0 < 32 * u64 * B) by (apply Rmult_lt_0_compat; lra).
    apply exact_pick with (c := c); auto.
    - split; auto. unfold past. split; [lra|]. intros j Hj. specialize (H4 j Hj). lra.
    - intros j Hj Nj. specialize (H5 j Hj Nj). unfold at_. lra.
  Qed.
  Lemma radius_double (mk : kind -> list f64 -> list f64 -> result (f64 -> f64)) (mk' : kind -> list xr -> list xr -> result (xr -> xr)) :
    exists Q Q' x, calculate_petrosian DFloat A L None None = Ok (Q, None) /\ calculate_petrosian_r mk r Q None eta None num = Ok (x, nnan) /\
      calculate_petrosian DFloat (map Fin (map dval A)) (map Fin (map dval L)) None None = Ok (Q', None) /\
      calculate_petrosian_r mk' (map Fin (map dval r)) Q' None (Fin (dval eta)) None num = Ok (Fin (dval x), NaN) /\
      x = nth i (n0 :: tl r) n0.
  Proof.
    exists P. destruct (petrosian_formula (map dval A) (map dval L)) as (Q' & E & LQ & Q0 & QS); try (rewrite !map_length; lia); auto.
    { intros j Hj. rewrite map_length in Hj. rewrite dval_at. apply (sized_nz 200). apply all_mod; auto. lia. }
    { intros j Hj. rewrite map_length in Hj. rewrite dval_at. apply (sized_nz 200). apply all_mod; auto. lia. }
    exists Q', (nth i (n0 :: tl r) n0). split; [now apply profile_run|].
    pose proof Cut as ((H1 & H2) & _). unfold curve in H2. cbn [length] in H2. rewrite map_length, seq_length in H2.
    pose proof rounded_pick as RP. pose proof cut_exact as CE. pose proof Lr as Lr'.
    destruct r as [|r0 rt]; [simpl in Lr'; lia|]. cbn [tl]. split; [|split; [exact E|split; [|reflexivity]]].
    - unfold calculate_petrosian_r, P. cbn [set0 bind get_interpolated_values fst snd]. fold P1. rewrite RP. cbn [pick]. unfold index.
      rewrite (nth_error_nth' _ n0) by (cbn [length] in *; lia). reflexivity.
    - assert (EQ : Q' = NaN :: map Fin (map p (seq 1 (length A - 1)))).
      { apply nth_error_ext. intros j. rewrite map_length in *. destruct (Nat.lt_ge_cases j (length A)) as [Hj|Hj].
        - destruct j as [|j]; [exact Q0|]. rewrite QS by lia. cbn [nth_error]. rewrite !nth_error_map, (nth_error_nth' _ 0%nat) by (rewrite seq_length; lia).
          rewrite seq_nth by lia. reflexivity.
        - replace (nth_error Q' j) with (@None xr) by (symmetry; apply nth_error_None; lia). symmetry. apply nth_error_None. cbn [length]. rewrite !map_length, seq_length. lia. }
      rewrite EQ. unfold calculate_petrosian_r. cbn [map set0 bind get_interpolated_values fst snd].
      change (closest_value_index (Fin (dval eta)) (n1 :: map Fin (map p (seq 1 (length A - 1)))) false) with (closest_value_index (Fin (dval eta)) (map Fin curve) false).
      rewrite CE. cbn [pick]. unfold index.
      assert (X : nth_error (n0 :: map Fin (map dval rt)) i = Some (Fin (dval (nth i (n0 :: rt) n0)))).
      { destruct i as [|k]; [reflexivity|]. cbn [nth_error nth]. rewrite !nth_error_map. rewrite (nth_error_nth' _ n0) by (cbn [length] in *; lia). reflexivity. }
      rewrite X. reflexivity.
  Qed.
End Radius.
