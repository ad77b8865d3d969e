(** Proofs about calculate_petrosian_r, fraction_to_r and the concentration index. *)
From Verif Require Import Base Num Numpy M_Utils M_Petrosian L_Numpy S_Utils L_Utils L_Utils3
  S_Petrosian L_Petrosian S_PetroR.

Lemma cvi_none (v : xr) (a : list xr) gr :
  closest_value_index v a gr = None <-> ~ reached gr v a.
Proof.
  unfold closest_value_index, reached.
  set (p := fun x => if gr then nleb v x else nleb x v).
  assert (Hp : forall x, p x = true <-> crossed gr v x) by (intros; apply crossed_model).
  destruct (find_index p a) as [c|] eqn:Hc.
  - apply find_index_Some in Hc. destruct Hc as [(xc & Hxc & Hpc) _]. split.
    + intros E. apply argmin_None in E. apply map_eq_nil in E.
      destruct a; [destruct c; discriminate|discriminate].
    + intros H. exfalso. apply H. exists xc. split; [eapply nth_error_In; eauto|now apply Hp].
  - rewrite find_index_None in Hc. split; auto. intros _ (z & Hz & Hcr).
    apply Hp in Hcr. rewrite Hc in Hcr; auto. discriminate.
Qed.

Lemma cvi_bound {T} {N : Num T} (v : T) (a : list T) gr i :
  closest_value_index v a gr = Some i -> i < length a.
Proof.
  unfold closest_value_index. destruct (find_index _ a) as [c|]; [|discriminate].
  intros H. apply argmin_bound in H. rewrite map_length, firstn_length in H. lia.
Qed.

Lemma cvi_closest v (a : list xr) gr i : Forall xok a ->
  closest_value_index (Fin v) a gr = Some i -> closest_sample gr v a i.
Proof. intros Ha H. exact (proj2 (closest_value_index_spec v a gr Ha) i H). Qed.

Lemma reached_dec gr v a : reached gr v a \/ ~ reached gr v a.
Proof.
  rewrite <- cvi_none. destruct (closest_value_index v a gr) eqn:E; [left|now right].
  destruct (Exists_dec (fun z => crossed gr v z) a) as [H|H].
  - intros x. unfold crossed, xle. destruct gr; [destruct (xleb v x)|destruct (xleb x v)]; auto.
  - apply Exists_exists in H. exact H.
  - exfalso. assert (N : closest_value_index v a gr = None).
    { apply cvi_none. intros Hr. apply H, Exists_exists. exact Hr. }
    congruence.
Qed.

Lemma pick_found gr v g q out :
  pick (map Fin g) (closest_value_index (Fin v) q gr) = Ok out ->
  found_radius gr v g q out.
Proof.
  destruct (closest_value_index (Fin v) q gr) as [i|] eqn:E; cbn [pick].
  - intros H. unfold index in H. rewrite nth_error_map in H.
    destruct (nth_error g i) as [a|] eqn:Ea; [|discriminate]. cbn in H. injs.
    right. split.
    + destruct (reached_dec gr (Fin v) q) as [|H]; auto. apply cvi_none in H. congruence.
    + exists i, a. split; auto. split; auto. intros Hq. now apply cvi_closest.
  - intros H. injs. left. split; auto. now apply cvi_none.
Qed.

Lemma pick_total gr (v : xr) g q : length q <= length g ->
  exists out, pick (map Fin g) (closest_value_index v q gr) = Ok out.
Proof.
  intros Hl. destruct (closest_value_index v q gr) as [i|] eqn:E; cbn [pick]; [|eauto].
  apply cvi_bound in E. unfold index. rewrite nth_error_map, at_nth_error by lia. cbn. eauto.
Qed.

Lemma giv_resampled (mk : kind -> list xr -> list xr -> result (xr -> xr)) ik num (x : list R) y gq :
  2 <= length x -> get_interpolated_values mk (map Fin x) y num ik = Ok gq ->
  exists g, fst gq = map Fin g /\ resampled mk ik num x y g (snd gq).
Proof.
  intros Hx H. destruct ik as [k|].
  - destruct (mk k (map Fin x) y) as [f|e] eqn:E.
    + destruct (giv_spec mk k x y num f Hx E) as (lo & hi & g & Eg & Hlo & Hhi & Hg).
      rewrite Eg in H. injs. cbn [fst snd]. eexists. split; [reflexivity|].
      exists f, lo, hi. split; auto. split; auto. split; auto. split; auto.
      split; [now rewrite map_length, seq_length|]. intros i Hi. unfold at_.
      apply nth_error_nth. rewrite nth_error_map, nth_error_seq.
      apply Nat.ltb_lt in Hi. rewrite Hi. reflexivity.
    + rewrite (giv_err mk k _ _ _ e E) in H. discriminate.
  - cbn in H. injs. exists x. cbn. auto.
Qed.

Lemma resampled_giv mk ik num (x : list R) y g q :
  2 <= length x -> resampled (K := kind) mk ik num x y g q ->
  get_interpolated_values (K := kind) mk (map Fin x) y num ik = Ok (map Fin g, q).
Proof.
  intros Hx H. destruct ik as [k|].
  - destruct H as (f & lo & hi & Hf & Hlo & Hhi & [Hg1 Hg2] & ->).
    destruct (giv_spec mk k x y num f Hx Hf) as (lo' & hi' & g' & E & Hlo' & Hhi' & Hg').
    rewrite E.
    assert (lo' = lo) as -> by (destruct Hlo, Hlo'; apply Rle_antisym; auto).
    assert (hi' = hi) as -> by (destruct Hhi, Hhi'; apply Rle_antisym; auto).
    assert (g' = g) as ->; [|reflexivity].
    apply nth_error_ext. intros i. subst g'. rewrite nth_error_map, nth_error_seq.
    destruct (Nat.ltb_spec i (Nat.max num (length x))).
    + rewrite at_nth_error by lia. rewrite Hg2 by auto. reflexivity.
    + symmetry. apply nth_error_None. lia.
  - destruct H as [-> ->]. reflexivity.
Qed.

(** the resampling is a function of its inputs *)
Lemma resampled_fun mk ik num (x : list R) y g q g' q' :
  2 <= length x -> resampled (K := kind) mk ik num x y g q -> resampled mk ik num x y g' q' ->
  g = g' /\ q = q'.
Proof.
  intros Hx H1 H2. apply resampled_giv in H1; auto. apply resampled_giv in H2; auto.
  rewrite H1 in H2. injection H2 as H2 H3. split; auto.
  revert g' H2. clear. induction g as [|a g IH]; intros [|b g'] H; try discriminate; auto.
  injection H as H1 H2. f_equal; auto.
Qed.

(** the resampled radii do not depend on the values *)
Lemma resampled_grid mk ik num (x : list R) y y' g q g' q' :
  2 <= length x -> resampled (K := kind) mk ik num x y g q -> resampled mk ik num x y' g' q' ->
  g = g'.
Proof.
  intros Hx H1 H2. destruct ik as [k|]; [|destruct H1, H2; congruence].
  destruct H1 as (f & lo & hi & _ & Hlo & Hhi & [Hg1 Hg2] & _).
  destruct H2 as (f' & lo' & hi' & _ & Hlo' & Hhi' & [Hg1' Hg2'] & _).
  assert (lo' = lo) as -> by (destruct Hlo, Hlo'; apply Rle_antisym; auto).
  assert (hi' = hi) as -> by (destruct Hhi, Hhi'; apply Rle_antisym; auto).
  apply nth_error_ext. intros i. destruct (Nat.ltb_spec i (Nat.max num (length x))).
  - rewrite !at_nth_error by lia. now rewrite Hg2, Hg2'.
  - rewrite (proj2 (nth_error_None _ _)) by lia. symmetry. apply nth_error_None. lia.
Qed.

Lemma resampled_length mk ik num (x : list R) y g q :
  resampled (K := kind) mk ik num x y g q -> length x = length y -> length g = length q.
Proof.
  destruct ik; cbn.
  - intros (f & lo & hi & _ & _ & _ & _ & ->) _. now rewrite !map_length.
  - intros [-> ->]; auto.
Qed.

Lemma resampled_range mk ik num (x : list R) y g q lo hi a :
  2 <= length x -> resampled (K := kind) mk ik num x y g q -> is_min x lo -> is_max x hi ->
  In a g -> (lo <= a <= hi)%R.
Proof.
  intros Hx H Hlo Hhi Ha. destruct ik as [k|].
  - destruct H as (f & lo' & hi' & _ & Hlo' & Hhi' & [Hg1 Hg2] & _).
    assert (lo' = lo) as -> by (destruct Hlo, Hlo'; apply Rle_antisym; auto).
    assert (hi' = hi) as -> by (destruct Hhi, Hhi'; apply Rle_antisym; auto).
    apply In_nth_error in Ha. destruct Ha as [i Hi].
    assert (Hl : i < length g) by (apply nth_error_Some; congruence).
    rewrite at_nth_error in Hi by auto. injs. rewrite Hg2 by lia.
    apply (grid_point_range lo hi); try lia. destruct Hlo as [Hlo _], Hhi as [_ Hhi]. auto.
  - destruct H as [-> ->]. destruct Hlo, Hhi. auto.
Qed.

Lemma resampled_sorted mk ik num (x : list R) y g q :
  2 <= length x -> resampled (K := kind) mk ik num x y g q ->
  (ik = None -> nondecreasing x) -> nondecreasing g.
Proof.
  intros Hx H Hs. destruct ik as [k|].
  - destruct H as (f & lo & hi & _ & Hlo & Hhi & [Hg1 Hg2] & _).
    intros i Hi. rewrite !Hg2 by lia. rewrite S_INR.
    assert (lo <= hi)%R by (destruct Hlo as [Hlo _], Hhi as [_ Hhi]; auto).
    assert (0 < INR (Nat.max num (length x) - 1))%R by (apply lt_0_INR; lia).
    assert (0 <= (hi - lo) / INR (Nat.max num (length x) - 1))%R.
    { apply Rmult_le_pos; [lra|]. left. now apply Rinv_0_lt_compat. }
    lra.
  - destruct H as [-> ->]. auto.
Qed.

(** ** found_radius *)

Lemma found_mono gr v1 v2 g q o1 o2 a1 a2 :
  Forall xok q -> nondecreasing g -> before gr v1 v2 ->
  pick (map Fin g) (closest_value_index (Fin v1) q gr) = Ok o1 ->
  pick (map Fin g) (closest_value_index (Fin v2) q gr) = Ok o2 ->
  o1 = Fin a1 -> o2 = Fin a2 -> (a1 <= a2)%R.
Proof.
  intros Hq Hg Hv H1 H2 E1 E2.
  destruct (closest_value_index (Fin v1) q gr) as [i1|] eqn:C1; cbn [pick] in H1; [|injs; discriminate].
  destruct (closest_value_index (Fin v2) q gr) as [i2|] eqn:C2; cbn [pick] in H2; [|injs; discriminate].
  pose proof (closest_mono gr v1 v2 q i1 i2 Hq Hv C1 C2) as Hi.
  unfold index in *. rewrite nth_error_map in *.
  destruct (nth_error g i1) as [b1|] eqn:G1; [|discriminate].
  destruct (nth_error g i2) as [b2|] eqn:G2; [|discriminate]. cbn in *. injs.
  injection E1 as <-. injection E2 as <-.
  assert (i1 < length g) by (apply nth_error_Some; congruence).
  assert (i2 < length g) by (apply nth_error_Some; congruence).
  rewrite at_nth_error in G1, G2 by auto. injs. now apply nondec_le.
Qed.

Lemma reached_before gr v1 v2 q : before gr v1 v2 -> reached gr (Fin v2) q -> reached gr (Fin v1) q.
Proof. intros H (z & Hz & Hc). exists z. split; auto. now apply crossed_before with v2. Qed.

(** ** calculate_petrosian_r *)

Section PetroR.
  Variable mk : kind -> list xr -> list xr -> result (xr -> xr).

  Lemma petro_r_unfold x rs y ps eta ik num v err :
    1 <= length rs ->
    calculate_petrosian_r mk (x :: map Fin rs) (y :: ps) None (Fin eta) ik num = Ok (v, err) ->
    exists g q, resampled mk ik num (0%R :: rs) (Fin 1 :: ps) g q /\
      pick (map Fin g) (closest_value_index (Fin eta) q false) = Ok v /\ err = NaN.
  Proof.
    intros Hl H. unfold calculate_petrosian_r in H. cbn [set0 bind] in H.
    change (n0 :: map Fin rs) with (map Fin (0%R :: rs)) in H.
    change (n1 : xr) with (Fin 1) in H.
    apply bind_Ok in H. destruct H as ([gx q] & E & H).
    destruct (giv_resampled mk ik num (0%R :: rs) (Fin 1 :: ps) _ ltac:(cbn; lia) E) as (g & Eg & R).
    cbn [fst snd] in *. subst gx. exists g, q. split; auto.
    apply bind_Ok in H. destruct H as (o & Ho & H).
    assert (Ho' : (o, NaN) = (v, err)) by (cbn in H; congruence).
    inversion Ho'; subst. auto.
  Qed.

  Lemma petro_r_spec x rs y ps eta ik num v err :
    1 <= length rs ->
    calculate_petrosian_r mk (x :: map Fin rs) (y :: ps) None (Fin eta) ik num = Ok (v, err) ->
    exists g q, resampled mk ik num (0%R :: rs) (Fin 1 :: ps) g q /\
      found_radius false eta g q v /\
      (forall lo hi a, is_min (0%R :: rs) lo -> is_max (0%R :: rs) hi -> v = Fin a -> (lo <= a <= hi)%R).
  Proof.
    intros Hl H. destruct (petro_r_unfold _ _ _ _ _ _ _ _ _ Hl H) as (g & q & R & P & _).
    exists g, q. split; auto. apply pick_found in P. split; auto.
    intros lo hi a Hlo Hhi ->. destruct P as [[_ P]|[_ (i & b & E & Hb & _)]]; [discriminate|].
    inversion E; subst. eapply resampled_range; eauto.
    - cbn. lia.
    - eapply nth_error_In; eauto.
  Qed.

  (** when the interpolant can be built the call succeeds *)
  Lemma petro_r_total x rs y ps eta ik num :
    1 <= length rs -> length ps = length rs ->
    (forall k, ik = Some k -> exists f, mk k (map Fin (0%R :: rs)) (Fin 1 :: ps) = Ok f) ->
    exists v, calculate_petrosian_r mk (x :: map Fin rs) (y :: ps) None eta ik num = Ok (v, NaN).
  Proof.
    intros Hl Hp Hf. unfold calculate_petrosian_r. cbn [set0 bind].
    change (n0 :: map Fin rs) with (map Fin (0%R :: rs)).
    assert (E : exists gq, get_interpolated_values mk (map Fin (0%R :: rs)) (n1 :: ps) num ik = Ok gq).
    { destruct ik as [k|]; [|cbn; eauto]. destruct (Hf k eq_refl) as [f Ef].
      destruct (giv_spec mk k (0%R :: rs) (n1 :: ps) num f) as (lo & hi & g & Eg & _); auto.
      - cbn. lia.
      - eauto. }
    destruct E as [[gx q] E]. rewrite E. cbn [bind fst snd].
    destruct (giv_resampled mk ik num (0%R :: rs) (n1 :: ps) _ ltac:(cbn; lia) E) as (g & Eg & R).
    cbn [fst snd] in *. subst gx.
    destruct (pick_total false eta g q) as [o Ho].
    { apply resampled_length in R; [lia|]. cbn. lia. }
    rewrite Ho. cbn. eauto.
  Qed.

  Lemma petro_r_mono x rs y ps eta1 eta2 ik num v1 v2 e1 e2 :
    1 <= length rs -> (ik = None -> nondecreasing (0%R :: rs)) ->
    (forall g q, resampled mk ik num (0%R :: rs) (Fin 1 :: ps) g q -> Forall xok q) ->
    (eta1 <= eta2)%R ->
    calculate_petrosian_r mk (x :: map Fin rs) (y :: ps) None (Fin eta1) ik num = Ok (v1, e1) ->
    calculate_petrosian_r mk (x :: map Fin rs) (y :: ps) None (Fin eta2) ik num = Ok (v2, e2) ->
    (v1 <> NaN -> v2 <> NaN) /\
    (forall a1 a2, v1 = Fin a1 -> v2 = Fin a2 -> (a2 <= a1)%R).
  Proof.
    intros Hl Hs Hq Heta H1 H2.
    destruct (petro_r_unfold _ _ _ _ _ _ _ _ _ Hl H1) as (g & q & R & P1 & _).
    destruct (petro_r_unfold _ _ _ _ _ _ _ _ _ Hl H2) as (g' & q' & R' & P2 & _).
    assert (Hl2 : 2 <= length (0%R :: rs)) by (cbn; lia).
    destruct (resampled_fun _ _ _ _ _ _ _ _ _ Hl2 R R') as [<- <-].
    split.
    - intros Hv1 ->. apply pick_found in P1. apply pick_found in P2.
      destruct P1 as [[_ ->]|[P1 _]]; [tauto|]. destruct P2 as [[P2 _]|[_ (i & a & E & _)]]; [|discriminate].
      apply P2. eapply reached_before; [|apply P1]. exact Heta.
    - intros a1 a2 E1 E2. apply (found_mono false eta2 eta1 g q v2 v1); auto.
      + apply (Hq g q R).
      + apply (resampled_sorted _ _ _ _ _ _ _ Hl2 R Hs).
  Qed.

End PetroR.

(** the first entries of the arrays are irrelevant (any scalar type) *)
Lemma petro_r_heads {T} {N : Num T} (mk : kind -> list T -> list T -> result (T -> T))
    x x' rs y y' ps e e' es eta ik num :
  calculate_petrosian_r mk (x :: rs) (y :: ps) None eta ik num
  = calculate_petrosian_r mk (x' :: rs) (y' :: ps) None eta ik num /\
  calculate_petrosian_r mk (x :: rs) (y :: ps) (Some (e :: es)) eta ik num
  = calculate_petrosian_r mk (x' :: rs) (y' :: ps) (Some (e' :: es)) eta ik num.
Proof. split; reflexivity. Qed.

(** ** the error of the Petrosian radius *)

Definition plus_err (p e : list xr) : list xr := map2 xadd p e.
Definition minus_err (p e : list xr) : list xr := map2 xsub p e.

Section PetroRErr.
  Variable mk : kind -> list xr -> list xr -> result (xr -> xr).

  Lemma petro_r_err_unfold x rs y ps e es eta ik num v err :
    1 <= length rs -> length ps = length rs -> length es = length rs ->
    calculate_petrosian_r mk (x :: map Fin rs) (y :: ps) (Some (e :: es)) (Fin eta) ik num = Ok (v, err) ->
    exists g q, resampled mk ik num (0%R :: rs) (Fin 1 :: ps) g q /\
      pick (map Fin g) (closest_value_index (Fin eta) q false) = Ok v /\
      ((v = NaN /\ err = NaN) \/
       v <> NaN /\ exists qu ql up lo,
        resampled mk ik num (0%R :: rs) (Fin (1 + 0) :: plus_err ps es) g qu /\
        resampled mk ik num (0%R :: rs) (Fin (1 - 0) :: minus_err ps es) g ql /\
        pick (map Fin g) (closest_value_index (Fin eta) qu false) = Ok up /\
        pick (map Fin g) (closest_value_index (Fin eta) ql false) = Ok lo /\
        err = xdiv (xsub up lo) (Fin 2)).
  Proof.
    intros Hl Hp He H. unfold calculate_petrosian_r in H. cbn [set0 bind] in H.
    change (n0 :: map Fin rs) with (map Fin (0%R :: rs)) in H.
    change (n1 : xr) with (Fin 1) in H. change (n0 : xr) with (Fin 0) in H.
    assert (Hl2 : 2 <= length (0%R :: rs)) by (cbn; lia).
    apply bind_Ok in H. destruct H as ([gx q] & E & H).
    destruct (giv_resampled mk ik num (0%R :: rs) (Fin 1 :: ps) _ Hl2 E) as (g & Eg & R).
    cbn [fst snd] in *. subst gx. exists g, q. split; auto.
    apply bind_Ok in H. destruct H as (o & Ho & H).
    destruct (nisnan o) eqn:Eo.
    - assert (o = NaN) as -> by (destruct o; cbn in Eo; congruence).
      assert (Ho' : (NaN, NaN) = (v, err)) by (cbn in H; congruence). inversion Ho'; subst. auto.
    - unfold np_map2 in H. cbn [length] in H. rewrite Hp, He, Nat.eqb_refl in H.
      cbn [bind] in H.
      apply bind_Ok in H. destruct H as ([gu qu] & Eu & H).
      apply bind_Ok in H. destruct H as (up & Pu & H).
      apply bind_Ok in H. destruct H as ([gl ql] & El & H).
      apply bind_Ok in H. destruct H as (lo & Pl & H).
      destruct (giv_resampled mk ik num (0%R :: rs) _ _ Hl2 Eu) as (g1 & E1 & R1).
      destruct (giv_resampled mk ik num (0%R :: rs) _ _ Hl2 El) as (g2 & E2 & R2).
      cbn [fst snd] in *. subst gu gl.
      assert (g1 = g) as -> by (eapply resampled_grid; eauto).
      assert (g2 = g) as -> by (eapply resampled_grid; eauto).
      assert (Ho' : (o, xdiv (xsub up lo) (Fin 2)) = (v, err)) by (cbn in H; congruence).
      inversion Ho'; subst. split; auto. right.
      split; [intros ->; discriminate|]. exists qu, ql, up, lo.
      split; [|split; [|split; [|split]]]; auto.
  Qed.

  Lemma found_order (g : list R) (qu ql : list xr) eta up lo au al :
    nondecreasing g -> Forall xok qu -> Forall xok ql -> length qu = length ql ->
    (forall i j a b, i < j -> nth_error qu i = Some a -> nth_error qu j = Some b -> xlt b a) ->
    (forall i a b, nth_error ql i = Some a -> nth_error qu i = Some b -> xle a b) ->
    pick (map Fin g) (closest_value_index (Fin eta) qu false) = Ok up ->
    pick (map Fin g) (closest_value_index (Fin eta) ql false) = Ok lo ->
    up = Fin au -> lo = Fin al -> (al <= au)%R.
  Proof.
    intros Hg Hqu Hql Hlen Hdec Hle H1 H2 -> ->.
    destruct (closest_value_index (Fin eta) qu false) as [iu|] eqn:C1; cbn [pick] in H1; [|injs; discriminate].
    destruct (closest_value_index (Fin eta) ql false) as [il|] eqn:C2; cbn [pick] in H2; [|injs; discriminate].
    assert (Hi : il <= iu).
    { destruct (cvi_closest eta qu false iu Hqu C1) as (cu & xu & [(zu & Zu & Cu) Bu] & Iu & Xu & Mu & Fu).
      destruct (cvi_closest eta ql false il Hql C2) as (cl & xl & [(zl & Zl & Cl) Bl] & Il & Xl & Ml & Fl).
      assert (Hlu : forall k, k < length qu -> exists a, nth_error qu k = Some a).
      { intros k Hk. destruct (nth_error qu k) eqn:E; eauto. apply nth_error_None in E. lia. }
      assert (Hll : forall k, k < length ql -> exists a, nth_error ql k = Some a).
      { intros k Hk. destruct (nth_error ql k) eqn:E; eauto. apply nth_error_None in E. lia. }
      assert (Lu : cu < length qu) by (apply nth_error_Some; congruence).
      assert (Ll : cl < length ql) by (apply nth_error_Some; congruence).
      (* the lower profile crosses no later *)
      assert (Hc : cl <= cu).
      { destruct (le_lt_dec cl cu) as [|Hlt]; auto. exfalso.
        destruct (Hll cu ltac:(lia)) as [a Ha]. apply (Bl cu a Hlt Ha).
        unfold crossed in *. eapply xle_trans; [eapply Hle; eauto|auto]. }
      (* the upper choice is one of the two samples around its crossing *)
      assert (Hu : cu <= S iu).
      { destruct (le_lt_dec cu (S iu)) as [|Hlt]; auto. exfalso.
        destruct (Hlu (cu - 1) ltac:(lia)) as [b Hb].
        assert (D : xle (dist eta xu) (dist eta b)) by (apply (Mu (cu - 1)); auto; lia).
        assert (L : xlt b xu) by (apply (Hdec iu (cu - 1)); auto; lia).
        assert (Nb : xlt (Fin eta) b).
        { apply not_crossed_dec.
          - apply nth_error_In in Hb. rewrite Forall_forall in Hqu. auto.
          - apply (Bu (cu - 1)); auto; lia. }
        clear - D L Nb. unfold xle, xlt in *. destruct xu, b; cbn in *; try discriminate.
        all: rewrite ?Rleb_iff, ?Rltb_iff in *; unfold Rabs in *;
          repeat match goal with H : context [Rcase_abs ?x] |- _ => destruct (Rcase_abs x) end;
          try discriminate; lra. }
      destruct (le_lt_dec il iu) as [|Hlt]; auto. exfalso.
      assert (cl = cu /\ il = cu /\ iu = cu - 1 /\ 0 < cu) as (-> & -> & -> & Hpos) by lia.
      assert (xl = zl) by congruence. subst zl.
      destruct (Hll (cu - 1) ltac:(lia)) as [bl Hbl].
      assert (D1 : xlt (dist eta xl) (dist eta bl)) by (apply (Fl (cu - 1)); auto; lia).
      assert (D2 : xle (dist eta xu) (dist eta zu)) by (apply (Mu cu); auto).
      assert (Nl : xlt (Fin eta) bl).
      { apply not_crossed_dec.
        - apply nth_error_In in Hbl. rewrite Forall_forall in Hql. auto.
        - apply (Bl (cu - 1)); auto; lia. }
      assert (L1 : xle xl zu) by (apply (Hle cu); auto).
      assert (L2 : xle bl xu) by (apply (Hle (cu - 1)); auto).
      clear - D1 D2 Nl L1 L2 Cl Cu. unfold crossed, xle, xlt in *.
      destruct xl, zu, bl, xu; cbn in *; try discriminate.
      all: rewrite ?Rleb_iff, ?Rltb_iff in *; unfold Rabs in *;
           repeat match goal with H : context [Rcase_abs ?x] |- _ => destruct (Rcase_abs x) end;
           try discriminate; lra. }
    unfold index in *. rewrite nth_error_map in *.
    destruct (nth_error g iu) as [b1|] eqn:G1; [|discriminate].
    destruct (nth_error g il) as [b2|] eqn:G2; [|discriminate]. cbn in *.
    apply Ok_inj in H1, H2. injection H1 as <-. injection H2 as <-.
    assert (iu < length g) by (apply nth_error_Some; congruence).
    assert (il < length g) by (apply nth_error_Some; congruence).
    rewrite at_nth_error in G1, G2 by auto. injs. now apply nondec_le.
  Qed.

  Lemma petro_r_err_spec x rs y ps e es eta ik num v err :
    1 <= length rs -> length ps = length rs -> length es = length rs ->
    calculate_petrosian_r mk (x :: map Fin rs) (y :: ps) (Some (e :: es)) (Fin eta) ik num = Ok (v, err) ->
    (v = NaN /\ err = NaN) \/
    exists g q qu ql up lo,
      resampled mk ik num (0%R :: rs) (Fin 1 :: ps) g q /\
      resampled mk ik num (0%R :: rs) (Fin 1 :: plus_err ps es) g qu /\
      resampled mk ik num (0%R :: rs) (Fin 1 :: minus_err ps es) g ql /\
      found_radius false eta g q v /\
      found_radius false eta g qu up /\ found_radius false eta g ql lo /\
      err = xdiv (xsub up lo) (Fin 2).
  Proof.
    intros Hl Hp He H.
    destruct (petro_r_err_unfold _ _ _ _ _ _ _ _ _ _ _ Hl Hp He H)
      as (g & q & R & P & [D|(Hv & qu & ql & up & lo & Ru & Rl & Pu & Pl & Herr)]); auto.
    right. exists g, q, qu, ql, up, lo.
    replace (1 + 0)%R with 1%R in Ru by ring. replace (1 - 0)%R with 1%R in Rl by ring.
    repeat split; auto using pick_found.
  Qed.

  (** a strictly decreasing raised profile gives a non-negative error *)
  Lemma petro_r_err_nonneg x rs y ps e es eta ik num v err :
    1 <= length rs -> length ps = length rs -> length es = length rs ->
    (ik = None -> nondecreasing (0%R :: rs)) ->
    (forall g q qu ql, resampled mk ik num (0%R :: rs) (Fin 1 :: plus_err ps es) g qu ->
       resampled mk ik num (0%R :: rs) (Fin 1 :: minus_err ps es) q ql ->
       Forall xok qu /\ Forall xok ql /\
       (forall i j a b, i < j -> nth_error qu i = Some a -> nth_error qu j = Some b -> xlt b a) /\
       (forall i a b, nth_error ql i = Some a -> nth_error qu i = Some b -> xle a b)) ->
    calculate_petrosian_r mk (x :: map Fin rs) (y :: ps) (Some (e :: es)) (Fin eta) ik num = Ok (v, err) ->
    err = NaN \/ exists s, err = Fin s /\ (0 <= s)%R.
  Proof.
    intros Hl Hp He Hs Hh H.
    destruct (petro_r_err_unfold _ _ _ _ _ _ _ _ _ _ _ Hl Hp He H)
      as (g & q & R & P & [[_ D]|(Hv & qu & ql & up & lo & Ru & Rl & Pu & Pl & Herr)]); auto.
    replace (1 + 0)%R with 1%R in Ru by ring. replace (1 - 0)%R with 1%R in Rl by ring.
    destruct (Hh g g qu ql Ru Rl) as (Q1 & Q2 & Q3 & Q4).
    assert (Hl2 : 2 <= length (0%R :: rs)) by (cbn; lia).
    assert (Lu := resampled_length _ _ _ _ _ _ _ Ru).
    assert (Ll := resampled_length _ _ _ _ _ _ _ Rl).
    cbn [length] in Lu, Ll. unfold plus_err, minus_err in *. rewrite length_map2 in *.
    assert (Fu := pick_found _ _ _ _ _ Pu). assert (Fl := pick_found _ _ _ _ _ Pl).
    destruct Fu as [[_ ->]|[_ (iu & au & -> & _)]]; [left; subst err; reflexivity|].
    destruct Fl as [[_ ->]|[_ (il & al & -> & _)]]; [left; subst err; reflexivity|].
    right. exists ((au - al) / 2)%R. split.
    - subst err. rewrite <- xdiv_fin by lra. reflexivity.
    - assert (al <= au)%R; [|lra].
      eapply (found_order g qu ql eta); eauto.
      + eapply resampled_sorted; eauto.
      + lia.
  Qed.
End PetroRErr.
