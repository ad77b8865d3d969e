(** Proofs about the error array of calculate_petrosian. *)
From Verif Require Import Base Num Numpy M_Utils M_Petrosian L_Numpy S_Petrosian L_Petrosian.

Lemma hypot2_fin a b : hypot2 (Fin a) (Fin b) = Fin (sqrt (a * a + b * b)).
Proof.
  unfold hypot2, sq. cbn [nmul nadd nsqrt XRnum xmul xadd]. apply xsqrt_fin. nra.
Qed.

(** the value of the error at annulus k, as the code computes it *)
Definition err_entry (P : xr) (da0 da1 l0 l1 ea0 ea1 el0 el1 : xr) : xr :=
  let da := nsub da1 da0 in
  let df := nsub l1 l0 in
  let iat := ndiv df da in
  let iavg := ndiv l1 da1 in
  let iaterr := nmul (nabs iat) (hypot2 (ndiv (hypot2 el0 el1) df) (ndiv (hypot2 ea0 ea1) da)) in
  let iavgerr := nmul (nabs iavg) (hypot2 (ndiv el1 l1) (ndiv ea1 da1)) in
  nmul (nabs P) (hypot2 (ndiv iaterr iat) (ndiv iavgerr iavg)).

Lemma err_entry_value (p a0 a1 l0 l1 ea0 ea1 el0 el1 : R) :
  (a0 < a1)%R -> a1 <> 0%R -> l1 <> 0%R -> l0 <> l1 ->
  err_entry (Fin p) (Fin a0) (Fin a1) (Fin l0) (Fin l1) (Fin ea0) (Fin ea1) (Fin el0) (Fin el1)
  = Fin (Rabs p * sqrt ((el0^2 + el1^2) / (l1 - l0)^2 + (ea0^2 + ea1^2) / (a1 - a0)^2
                        + (el1 / l1)^2 + (ea1 / a1)^2)).
Proof.
  intros Ha Ha1 Hl1 Hl. unfold err_entry. rewrite !xsub_fin, !hypot2_fin.
  cbn [ndiv nmul nabs XRnum].
  assert (Hd : (l1 - l0 <> 0)%R) by lra.
  assert (He : (a1 - a0 <> 0)%R) by lra.
  rewrite !xdiv_fin by auto. rewrite !hypot2_fin. cbn [xabs xmul].
  assert (Hi : ((l1 - l0) / (a1 - a0) <> 0)%R).
  { apply Rmult_integral_contrapositive_currified; auto. now apply Rinv_neq_0_compat. }
  assert (Hj : (l1 / a1 <> 0)%R).
  { apply Rmult_integral_contrapositive_currified; auto. now apply Rinv_neq_0_compat. }
  rewrite !xdiv_fin by auto. rewrite hypot2_fin. cbn [xmul].
  f_equal. f_equal. f_equal.
  set (i := ((l1 - l0) / (a1 - a0))%R) in *. set (j := (l1 / a1)%R) in *.
  assert (Q : forall x s, x <> 0%R -> (0 <= s)%R ->
     (Rabs x * sqrt s / x * (Rabs x * sqrt s / x) = s)%R).
  { intros x s Hx Hs.
    replace (Rabs x * sqrt s / x * (Rabs x * sqrt s / x))%R
      with ((Rabs x * Rabs x) * (sqrt s * sqrt s) / (x * x))%R by (field; auto).
    rewrite sqrt_sqrt by auto.
    replace (Rabs x * Rabs x)%R with (x * x)%R.
    - field. auto.
    - rewrite <- Rabs_mult. symmetry. apply Rabs_pos_eq. nra. }
  rewrite !Q; auto; try nra.
  assert (S1 : forall a b c, c <> 0%R ->
     (sqrt (a * a + b * b) / c * (sqrt (a * a + b * b) / c) = (a^2 + b^2) / c^2)%R).
  { intros a b c Hc.
    replace (sqrt (a * a + b * b) / c * (sqrt (a * a + b * b) / c))%R
      with ((sqrt (a * a + b * b) * sqrt (a * a + b * b)) / (c * c))%R by (field; auto).
    rewrite sqrt_sqrt by nra. field. auto. }
  rewrite !S1 by auto. field. auto.
Qed.

Lemma err_entry_flat (p : xr) (a0 a1 l ea0 ea1 el0 el1 : R) :
  (a0 < a1)%R ->
  err_entry p (Fin a0) (Fin a1) (Fin l) (Fin l) (Fin ea0) (Fin ea1) (Fin el0) (Fin el1) = NaN.
Proof.
  intros Ha. unfold err_entry. rewrite !xsub_fin, !hypot2_fin.
  replace (l - l)%R with 0%R by ring. cbn [ndiv nmul nabs XRnum].
  rewrite (xdiv_fin 0 (a1 - a0)) by lra. replace (0 / (a1 - a0))%R with 0%R by (field; lra).
  rewrite (xdiv_fin _ (a1 - a0)) by lra.
  set (s := sqrt (el0 * el0 + el1 * el1)). set (t := (sqrt (ea0 * ea0 + ea1 * ea1) / (a1 - a0))%R).
  assert (E : xdiv (xmul (xabs (Fin 0)) (hypot2 (xdiv (Fin s) (Fin 0)) (Fin t))) (Fin 0) = NaN).
  { assert (0 <= s)%R by apply sqrt_pos. cbn [xdiv]. rewrite Reqb_true by auto. unfold xsgn_inf.
    destruct (Rltb_spec 0 s); [|rewrite Rltb_false by lra; reflexivity].
    cbn. rewrite Rabs_R0. unfold xsgn_inf. rewrite !Rltb_false by lra. reflexivity. }
  rewrite E. unfold hypot2, sq. cbn. destruct p; cbn; auto.
Qed.

Definition opt_errors (n : nat) (e : option (list R)) : list R :=
  match e with None => zeros n | Some l => l end.

Lemma at_zeros n i : at_ (zeros n) i = 0%R.
Proof.
  unfold at_, zeros. revert i; induction n; intros [|i]; cbn; auto.
Qed.

Lemma zeros_model (A : list R) :
  map (fun _ : xr => (n0 : xr)) (map Fin A) = map Fin (zeros (length A)).
Proof. unfold zeros. induction A; cbn; f_equal; auto. Qed.

Lemma perr_nth A L EA EL (petro : list xr) k :
  increasing A -> S k < length A -> length A = length L -> length EA = length A ->
  length EL = length L ->
  forall P, nth_error petro (S k) = Some P ->
  let area := map Fin A in let flux := map Fin L in
  let ae := map Fin EA in let fe := map Fin EL in
      let area_diff := diff area in
      let flux_diff := diff flux in
      let iavg := I_avg area flux in
      let iat := I_at DFloat area flux in
      let area_diff_err := map2 hypot2 ae (tl ae) in
      let flux_diff_err := map2 hypot2 fe (tl fe) in
      let rel_diff := map2 hypot2 (map2 ndiv flux_diff_err flux_diff)
                                  (map2 ndiv area_diff_err area_diff) in
      let iat_err := map2 (fun da e => if nltb n0 da then store DFloat e else n0) area_diff
                       (map2 (fun i s => nmul (nabs i) s) iat rel_diff) in
      let rel_avg := map2 hypot2 (map2 ndiv (tl fe) (tl flux)) (map2 ndiv (tl ae) (tl area)) in
      let iavg_err := map2 (fun i s => nmul (nabs i) s) iavg rel_avg in
      let rel := map2 hypot2 (map2 ndiv iat_err iat) (map2 ndiv iavg_err iavg) in
      let perr := map2 (fun da e => if nltb n0 da then store DFloat e else n0) area_diff
                    (map2 (fun p s => nmul (nabs p) s) (tl petro) rel) in
  nth_error perr k = Some (err_entry P (Fin (at_ A k)) (Fin (at_ A (S k)))
     (Fin (at_ L k)) (Fin (at_ L (S k))) (Fin (at_ EA k)) (Fin (at_ EA (S k)))
     (Fin (at_ EL k)) (Fin (at_ EL (S k)))).
Proof.
  intros HA Hk Hl He1 He2 P HP. cbv zeta. unfold I_at, I_avg.
  repeat (rewrite ?nth_error_map2, ?nth_error_tl, ?nth_error_diff).
  rewrite !nth_fin by lia. rewrite HP. cbn [store].
  specialize (HA k Hk).
  assert (E : nltb (n0 : xr) (nsub (Fin (at_ A (S k))) (Fin (at_ A k))) = true).
  { rewrite xsub_fin. cbn. apply Rltb_true. lra. }
  rewrite E. reflexivity.
Qed.

Lemma petrosian_errors (A L : list R) (ea fe : option (list R)) :
  length A = length L -> 2 < length A -> increasing A -> nonzero_tail A -> nonzero_tail L ->
  ~ (ea = None /\ fe = None) ->
  length (opt_errors (length A) ea) = length A ->
  length (opt_errors (length A) fe) = length A ->
  exists P E,
    calculate_petrosian DFloat (map Fin A) (map Fin L)
      (option_map (map Fin) ea) (option_map (map Fin) fe) = Ok (P, Some E) /\
    calculate_petrosian DFloat (map Fin A) (map Fin L) None None = Ok (P, None) /\
    length E = length A /\ nth_error E 0 = Some NaN /\
    forall i, 1 <= i < length A ->
      nth_error E i = Some (if Req_EM_T (at_ L (i - 1)) (at_ L i) then NaN
         else Fin (propagated_error A L (opt_errors (length A) ea) (opt_errors (length A) fe) i)).
Proof.
  intros Hl Hn HA HA0 HL0 Hne He1 He2.
  assert (HAn : nondecreasing A) by auto using inc_nondec.
  exists (profile DFloat A L).
  set (EA := opt_errors (length A) ea) in *. set (EL := opt_errors (length A) fe) in *.
  set (g := fun j => match j with O => NaN | S k =>
      err_entry (raw_d DFloat A L (S k)) (Fin (at_ A k)) (Fin (at_ A (S k)))
     (Fin (at_ L k)) (Fin (at_ L (S k))) (Fin (at_ EA k)) (Fin (at_ EA (S k)))
     (Fin (at_ EL k)) (Fin (at_ EL (S k))) end).
  exists (map (fun i => g (steps A i)) (seq 0 (length A))).
  split; [|split; [now apply cp_none|]].
  - unfold calculate_petrosian. rewrite !map_length, Hl, Nat.eqb_refl. cbn [assert_].
    rewrite <- Hl. assert (Hn' := Hn). apply Nat.ltb_lt in Hn'. rewrite Hn'. cbn [assert_].
    assert (HAd := HAn). apply diff_nonneg in HAd. rewrite HAd. cbn [assert_].
    rewrite (gather_ok _ (raw_d DFloat A L)) by (intros j Hj; now apply raw_nth).
    cbn [bind]. fold (profile DFloat A L).
    assert (Eae : match option_map (map Fin) ea with
                  | None => map (fun _ => n0) (map Fin A) | Some l => l end = map Fin EA).
    { destruct ea; cbn; auto. apply zeros_model. }
    assert (Efe : match option_map (map Fin) fe with
                  | None => map (fun _ => n0) (map Fin L) | Some l => l end = map Fin EL).
    { destruct fe; cbn; auto. unfold EL. cbn. rewrite Hl. apply zeros_model. }
    rewrite Eae, Efe. rewrite !map_length, He1, He2, Nat.eqb_refl. cbn [assert_].
    rewrite (gather_ok _ g).
    + destruct ea, fe; cbn [option_map]; try reflexivity. tauto.
    + intros [|k] Hk; [reflexivity|]. cbn [nth_error].
      apply perr_nth; auto; try congruence.
      rewrite profile_nth by auto. now rewrite steps_inc.
  - split; [now rewrite map_length, seq_length|].
    assert (G : forall i, i < length A ->
      nth_error (map (fun i => g (steps A i)) (seq 0 (length A))) i = Some (g i)).
    { intros i Hi. rewrite nth_error_map, nth_error_seq.
      assert (Hi' := Hi). apply Nat.ltb_lt in Hi'. rewrite Hi'. cbn. now rewrite steps_inc. }
    split; [apply G; lia|]. intros i Hi. rewrite G by lia. f_equal.
    destruct i as [|k]; [lia|]. unfold g. rewrite Nat.sub_succ, Nat.sub_0_r.
    assert (Hk : (at_ A k < at_ A (S k))%R) by (apply HA; lia).
    destruct (Req_EM_T (at_ L k) (at_ L (S k))) as [E|E].
    + rewrite E. now apply err_entry_flat.
    + rewrite raw_float_inc by auto. rewrite err_entry_value;
        [|auto|apply HA0; lia|apply HL0; lia|auto].
      unfold propagated_error. now rewrite Nat.sub_succ, Nat.sub_0_r.
Qed.

Lemma propagated_nonneg A L EA EL i : (0 <= propagated_error A L EA EL i)%R.
Proof. unfold propagated_error. apply Rmult_le_pos; [apply Rabs_pos|apply sqrt_pos]. Qed.

Lemma propagated_zero A L n m i : propagated_error A L (zeros n) (zeros m) i = 0%R.
Proof.
  unfold propagated_error. rewrite !at_zeros.
  match goal with |- (_ * sqrt ?x = 0)%R => replace x with 0%R end.
  - rewrite sqrt_0. ring.
  - unfold Rdiv. ring.
Qed.

(** errors of the wrong length *)
Lemma petrosian_errors_reject (d : dtype) (A L : list R) (ea fe : option (list xr)) :
  length A = length L -> 2 < length A -> nondecreasing A ->
  (match ea with Some l => length l <> length A | None => False end) \/
  (match fe with Some l => length l <> length A | None => False end) ->
  calculate_petrosian d (map Fin A) (map Fin L) ea fe = Err AssertionError.
Proof.
  intros Hl Hn HA Hbad. unfold calculate_petrosian. rewrite !map_length, Hl, Nat.eqb_refl.
  cbn [assert_]. rewrite <- Hl. apply Nat.ltb_lt in Hn. rewrite Hn. cbn [assert_].
  assert (HAd := HA). apply diff_nonneg in HAd. rewrite HAd. cbn [assert_].
  rewrite (gather_ok _ (raw_d d A L)) by (intros j Hj; now apply raw_nth). cbn [bind].
  destruct ea as [ae|], fe as [fe|]; rewrite ?map_length; try tauto;
    repeat match goal with |- context [Nat.eqb ?a ?b] =>
      destruct (Nat.eqb_spec a b); cbn [assert_]; try reflexivity end; intuition congruence.
Qed.

(** integer areas: asking for errors always fails (C59) *)
Lemma petrosian_errors_integer (AZ : list Z) (L : list R) (ea fe : option (list xr)) :
  ~ (ea = None /\ fe = None) ->
  exists e, calculate_petrosian DInt (map Fin (map IZR AZ)) (map Fin L) ea fe = Err e /\
    (e = ValueError <->
       length AZ = length L /\ 2 < length AZ /\ nondecreasing (map IZR AZ) /\
       (forall l, ea = Some l -> length l = length AZ) /\
       (forall l, fe = Some l -> length l = length AZ)).
Proof.
  intros Hne. set (A := map IZR AZ).
  assert (HlA : length A = length AZ) by (unfold A; now rewrite map_length).
  rewrite <- !HlA.
  destruct (Nat.eq_dec (length A) (length L)) as [E1|E1];
  [destruct (lt_dec 2 (length A)) as [E2|E2];
   [destruct (forallb (fun x => nleb n0 x) (diff (map Fin A))) eqn:E3|]|].
  2:{ assert (H : ~ nondecreasing A) by (rewrite <- diff_nonneg; congruence).
      exists AssertionError. rewrite cp_reject by tauto. split; auto. split; [discriminate|tauto]. }
  2:{ exists AssertionError. rewrite cp_reject by tauto. split; auto. split; [discriminate|tauto]. }
  2:{ exists AssertionError. rewrite cp_reject by tauto. split; auto. split; [discriminate|tauto]. }
  apply diff_nonneg in E3.
  assert (D : (match ea with Some l => length l <> length A | None => False end) \/
     (match fe with Some l => length l <> length A | None => False end) \/
     ((forall l, ea = Some l -> length l = length A) /\ (forall l, fe = Some l -> length l = length A))).
  { destruct ea as [ae|], fe as [fe|];
    try (destruct (Nat.eq_dec (length ae) (length A)); [|tauto]);
    try (destruct (Nat.eq_dec (length fe) (length A)); [|tauto]);
    right; right; split; intros l Hq; inversion Hq; subst; auto. }
  destruct D as [D|[D|[D1 D2]]].
  - exists AssertionError. rewrite petrosian_errors_reject by tauto. split; auto.
    split; [discriminate|]. intros (_ & _ & _ & H & _). destruct ea as [l|]; [|tauto].
    specialize (H l eq_refl). tauto.
  - exists AssertionError. rewrite petrosian_errors_reject by tauto. split; auto.
    split; [discriminate|]. intros (_ & _ & _ & _ & H). destruct fe as [l|]; [|tauto].
    specialize (H l eq_refl). tauto.
  - exists ValueError. split; [|tauto].
    unfold calculate_petrosian. rewrite !map_length, E1, Nat.eqb_refl. cbn [assert_].
    rewrite <- E1. apply Nat.ltb_lt in E2. rewrite E2. cbn [assert_].
    assert (HAd := E3). apply diff_nonneg in HAd. rewrite HAd. cbn [assert_].
    rewrite (gather_ok _ (raw_d DInt A L)) by (intros j Hj; now apply raw_nth). cbn [bind].
    destruct ea as [ae|], fe as [fe|]; rewrite ?map_length, ?(D1 _ eq_refl), ?(D2 _ eq_refl), ?E1, ?Nat.eqb_refl;
      cbn [assert_]; auto; tauto.
Qed.
