(** Proofs about cutout_subtract and get_interpolated_values. *)
From Verif Require Import Base Num Numpy M_Utils L_Numpy S_Utils.
From Coq Require Import ZifyBool ZifyNat.
Ltac Zify.zify_post_hook ::= Z.div_mod_to_equations.

(** ** cutout_subtract (C08) *)

Section Cutout.
  Context {T : Type} {N : Num T}.

  Lemma axis_ok_spec d pos n :
    bcast_ok (slice_len (Z.of_nat n) (Z.max (pos - Z.of_nat d / 2) 0)
                (Z.max (pos + Z.of_nat d / 2) 0)) (Z.of_nat d) = true <->
    axis_ok d pos n.
  Proof.
    unfold bcast_ok, slice_len, axis_ok, window_inside. split.
    - intros H. destruct (le_lt_dec d 1); [left; auto|right].
      split; [|lia]. exists (Z.to_nat (Z.of_nat d / 2)). lia.
    - intros [H|[[k Hk] H]]; lia.
  Qed.

  Lemma cutout_subtract_window (image target : img T) (x y : Z) :
    Nat.Even (iny target) -> Nat.Even (inx target) ->
    window_inside (iny target) y (iny image) ->
    window_inside (inx target) x (inx image) ->
    let y0 := (y - Z.of_nat (iny target) / 2)%Z in
    let x0 := (x - Z.of_nat (inx target) / 2)%Z in
    exists out, cutout_subtract image target x y = (Ok out, out) /\
      iny out = iny image /\ inx out = inx image /\
      forall j i, j < iny image -> i < inx image ->
        (forall tj ti, tj < iny target -> ti < inx target ->
           Z.of_nat j = (y0 + Z.of_nat tj)%Z -> Z.of_nat i = (x0 + Z.of_nat ti)%Z ->
           px out j i = nsub (px image j i) (px target tj ti)) /\
        (~ (y0 <= Z.of_nat j < y0 + Z.of_nat (iny target) /\
            x0 <= Z.of_nat i < x0 + Z.of_nat (inx target))%Z ->
           px out j i = px image j i).
  Proof.
    intros [ky Hky] [kx Hkx] Hy Hx y0 x0. unfold cutout_subtract.
    assert (Ay : axis_ok (iny target) y (iny image)) by (right; split; [exists ky|]; auto).
    assert (Ax : axis_ok (inx target) x (inx image)) by (right; split; [exists kx|]; auto).
    apply axis_ok_spec in Ay. apply axis_ok_spec in Ax. rewrite Ay, Ax. cbn [andb].
    eexists. split; [reflexivity|]. cbn [iny inx px]. split; auto. split; auto.
    unfold window_inside in *. intros j i Hj Hi. split.
    - intros tj ti Htj Hti Ej Ei.
      match goal with |- (if ?c then _ else _) = _ => assert (c = true) as -> end.
      { unfold slice_start, slice_len. subst x0 y0. lia. }
      f_equal. f_equal.
      + unfold bcast_ix, slice_start. subst y0. destruct (Z.of_nat (iny target) =? 1)%Z eqn:E; lia.
      + unfold bcast_ix, slice_start. subst x0. destruct (Z.of_nat (inx target) =? 1)%Z eqn:E; lia.
    - intros Hn.
      match goal with |- (if ?c then _ else _) = _ => assert (c = false) as -> end; auto.
      unfold slice_start, slice_len. subst x0 y0. lia.
  Qed.

  Lemma cutout_subtract_reject (image target : img T) (x y : Z) :
    (fst (cutout_subtract image target x y) = Err ValueError <->
     ~ (axis_ok (iny target) y (iny image) /\ axis_ok (inx target) x (inx image))) /\
    (forall e, fst (cutout_subtract image target x y) = Err e ->
       e = ValueError /\ snd (cutout_subtract image target x y) = image).
  Proof.
    unfold cutout_subtract.
    destruct (bcast_ok _ (Z.of_nat (iny target))) eqn:Ey;
    destruct (bcast_ok _ (Z.of_nat (inx target))) eqn:Ex; cbn [andb fst snd].
    - apply axis_ok_spec in Ey. apply axis_ok_spec in Ex. split.
      + split; [discriminate|tauto].
      + intros e; discriminate.
    - assert (~ axis_ok (inx target) x (inx image)) by (rewrite <- axis_ok_spec; congruence).
      split; [tauto|]. intros e He; split; congruence.
    - assert (~ axis_ok (iny target) y (iny image)) by (rewrite <- axis_ok_spec; congruence).
      split; [tauto|]. intros e He; split; congruence.
    - assert (~ axis_ok (inx target) x (inx image)) by (rewrite <- axis_ok_spec; congruence).
      split; [tauto|]. intros e He; split; congruence.
  Qed.

  (** the returned object is the caller's own array *)
  Lemma cutout_subtract_inplace (image target : img T) (x y : Z) out :
    fst (cutout_subtract image target x y) = Ok out ->
    snd (cutout_subtract image target x y) = out.
  Proof.
    unfold cutout_subtract. destruct (_ && _)%bool; cbn [fst snd]; congruence.
  Qed.

  (** a one-pixel-wide target is accepted and ignored *)
  Lemma cutout_subtract_thin (image target : img T) (x y : Z) out :
    iny target = 1 \/ inx target = 1 ->
    fst (cutout_subtract image target x y) = Ok out -> img_eq out image.
  Proof.
    intros H. unfold cutout_subtract. destruct (_ && _)%bool; cbn [fst]; [|discriminate].
    intros E; injs. unfold img_eq. cbn [iny inx px]. split; auto. split; auto.
    intros j i Hj Hi.
    match goal with |- (if ?c then _ else _) = _ => assert (c = false) as -> end; auto.
    unfold slice_start, slice_len. lia.
  Qed.
End Cutout.

(** ** get_interpolated_values (C09) *)

Lemma mapM_bounded (f : xr -> xr) (lo hi : R) (l : list R) :
  (forall q, In q l -> (lo <= q <= hi)%R) ->
  mapM (fun q => if nltb q (Fin lo) || nltb (Fin hi) q then Err ValueError else Ok (f q))
    (map Fin l) = Ok (map f (map Fin l)).
Proof.
  intros H. apply mapM_Ok_map. intros q Hq. apply in_map_iff in Hq.
  destruct Hq as (r & <- & Hr). specialize (H r Hr). cbn.
  rewrite !Rltb_false by lra. reflexivity.
Qed.

(** the resampling grid: n points from lo to hi *)
Definition grid_point (lo hi : R) (n k : nat) : R :=
  (lo + INR k * ((hi - lo) / INR (n - 1)))%R.

Lemma linspace_reals (lo hi : R) (n : nat) : 2 <= n ->
  linspace (Fin lo) (Fin hi) n = map Fin (map (grid_point lo hi n) (seq 0 n)).
Proof.
  intros Hn. apply nth_error_ext. intros k. rewrite !nth_error_map, nth_error_seq.
  destruct (Nat.ltb_spec k n).
  - rewrite nth_linspace_fin by auto. reflexivity.
  - apply nth_error_None. rewrite length_linspace. auto.
Qed.

Lemma grid_point_range lo hi n k :
  2 <= n -> k < n -> (lo <= hi)%R -> (lo <= grid_point lo hi n k <= hi)%R.
Proof.
  intros Hn Hk Hlh. unfold grid_point.
  assert (0 < INR (n - 1))%R by (apply lt_0_INR; lia).
  assert (0 <= (hi - lo) / INR (n - 1))%R.
  { apply Rmult_le_pos; [lra|]. left. now apply Rinv_0_lt_compat. }
  assert (0 <= INR k <= INR (n - 1))%R.
  { split; [apply pos_INR|]. apply le_INR. lia. }
  split.
  - assert (0 <= INR k * ((hi - lo) / INR (n - 1)))%R by (apply Rmult_le_pos; lra). lra.
  - assert (INR k * ((hi - lo) / INR (n - 1)) <= INR (n - 1) * ((hi - lo) / INR (n - 1)))%R.
    { apply Rmult_le_compat_r; lra. }
    replace (INR (n - 1) * ((hi - lo) / INR (n - 1)))%R with (hi - lo)%R in H2 by (field; lra).
    lra.
Qed.

Lemma grid_point_0 lo hi n : grid_point lo hi n 0 = lo.
Proof. unfold grid_point. simpl. ring. Qed.
Lemma grid_point_last lo hi n : 2 <= n -> grid_point lo hi n (n - 1) = hi.
Proof.
  intros Hn. unfold grid_point. field. apply not_0_INR. lia.
Qed.
Lemma grid_point_step lo hi n k : 2 <= n ->
  (grid_point lo hi n (S k) - grid_point lo hi n k = (hi - lo) / INR (n - 1))%R.
Proof.
  intros Hn. unfold grid_point. rewrite S_INR. field. apply not_0_INR. lia.
Qed.

Lemma giv_none {T} {N : Num T} {K} (mk : interp_oracle) (x y : list T) num :
  get_interpolated_values mk x y num (@None K) = Ok (x, y).
Proof. reflexivity. Qed.

Lemma giv_spec {K} (mk : interp_oracle) (k : K) (x : list R) (ys : list xr) num f :
  2 <= length x -> mk k (map Fin x) ys = Ok f ->
  exists lo hi g,
    get_interpolated_values mk (map Fin x) ys num (Some k)
      = Ok (map Fin g, map f (map Fin g)) /\
    (In lo x /\ forall r, In r x -> (lo <= r)%R) /\
    (In hi x /\ forall r, In r x -> (r <= hi)%R) /\
    g = map (grid_point lo hi (Nat.max num (length x))) (seq 0 (Nat.max num (length x))).
Proof.
  intros Hx Hmk.
  assert (Hne : x <> []) by (destruct x; simpl in *; [lia|congruence]).
  destruct (pymin_fin x Hne) as (lo & Elo & Hlo1 & Hlo2).
  destruct (pymax_fin x Hne) as (hi & Ehi & Hhi1 & Hhi2).
  exists lo, hi, (map (grid_point lo hi (Nat.max num (length x))) (seq 0 (Nat.max num (length x)))).
  split; [|auto].
  unfold get_interpolated_values, interp1d. rewrite Hmk, Elo, Ehi. cbn [bind].
  rewrite map_length.
  replace (if Nat.ltb num (length x) then length x else num) with (Nat.max num (length x))
    by (destruct (Nat.ltb_spec num (length x)); lia).
  set (n := Nat.max num (length x)). assert (Hn : 2 <= n) by lia.
  rewrite linspace_reals by auto.
  rewrite mapM_bounded; auto.
  intros q Hq. apply in_map_iff in Hq. destruct Hq as (i & <- & Hi). apply in_seq in Hi.
  apply grid_point_range; auto; try lia.
Qed.

Lemma giv_err {K} (mk : interp_oracle) (k : K) (x ys : list xr) num e :
  mk k x ys = Err e -> get_interpolated_values mk x ys num (Some k) = Err e.
Proof. intros H. unfold get_interpolated_values, interp1d. now rewrite H. Qed.

(** the property in elementary terms *)
Lemma giv_grid {K} (mk : interp_oracle) (k : K) (x : list R) (ys : list xr) num f :
  2 <= length x -> mk k (map Fin x) ys = Ok f ->
  exists (g : list R) (lo hi : R),
    get_interpolated_values mk (map Fin x) ys num (Some k)
      = Ok (map Fin g, map f (map Fin g)) /\
    length g = Nat.max num (length x) /\
    (In lo x /\ forall r, In r x -> (lo <= r)%R) /\
    (In hi x /\ forall r, In r x -> (r <= hi)%R) /\
    nth_error g 0 = Some lo /\
    nth_error g (length g - 1) = Some hi /\
    (forall i a b, nth_error g i = Some a -> nth_error g (S i) = Some b ->
       (b - a = (hi - lo) / INR (length g - 1))%R) /\
    (forall a, In a g -> (lo <= a <= hi)%R).
Proof.
  intros Hx Hmk. destruct (giv_spec mk k x ys num f Hx Hmk) as (lo & hi & g & E & Hlo & Hhi & Hg).
  exists g, lo, hi. split; auto.
  set (n := Nat.max num (length x)) in *. assert (Hn : 2 <= n) by lia.
  assert (Hlen : length g = n) by (subst g; now rewrite map_length, seq_length).
  assert (Hnth : forall i, nth_error g i = if Nat.ltb i n then Some (grid_point lo hi n i) else None).
  { intros i. subst g. rewrite nth_error_map, nth_error_seq. now destruct (Nat.ltb i n). }
  split; auto. split; auto. split; auto. rewrite Hlen. split; [|split; [|split]].
  - rewrite Hnth. destruct (Nat.ltb_spec 0 n); [|lia]. now rewrite grid_point_0.
  - rewrite Hnth. destruct (Nat.ltb_spec (n - 1) n); [|lia]. now rewrite grid_point_last.
  - intros i a b. rewrite !Hnth. destruct (Nat.ltb i n); [|discriminate].
    destruct (Nat.ltb (S i) n); [|discriminate]. intros Ea Eb; injs. now apply grid_point_step.
  - intros a Ha. apply In_nth_error in Ha. destruct Ha as [i Hi]. rewrite Hnth in Hi.
    destruct (Nat.ltb_spec i n); [|discriminate]. injs. apply grid_point_range; auto.
    destruct Hlo as [Hlo _]. destruct Hhi as [_ Hhi]. auto.
Qed.
