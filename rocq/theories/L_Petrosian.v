(** Proofs about calculate_petrosian. *)
From Verif Require Import Base Num Numpy M_Utils M_Petrosian L_Numpy S_Petrosian.

Lemma at_nth_error l i : i < length l -> nth_error l i = Some (at_ l i).
Proof. intros H. unfold at_. now apply nth_error_nth'. Qed.

Lemma nth_error_diff {T} {N : Num T} (l : list T) i :
  nth_error (diff l) i =
  match nth_error l i, nth_error l (S i) with
  | Some x, Some y => Some (nsub y x)
  | _, _ => None
  end.
Proof.
  revert i; induction l as [|x [|y l] IH]; intros i.
  - now destruct i.
  - destruct i; simpl; auto. now destruct i.
  - destruct i as [|i]; [reflexivity|]. change (diff (x :: y :: l)) with (nsub y x :: diff (y :: l)).
    cbn [nth_error]. rewrite IH. reflexivity.
Qed.

Lemma length_diff {T} {N : Num T} (l : list T) : length (diff l) = length l - 1.
Proof.
  induction l as [|x [|y l] IH]; simpl; auto. simpl in IH. rewrite IH. lia.
Qed.

Lemma nth_error_tl {A} (l : list A) i : nth_error (tl l) i = nth_error l (S i).
Proof. destruct l; simpl; auto. now destruct i. Qed.

Lemma length_tl {A} (l : list A) : length (tl l) = length l - 1.
Proof. destruct l; simpl; lia. Qed.

Lemma nth_fin l i : i < length l -> nth_error (map Fin l) i = Some (Fin (at_ l i)).
Proof. intros H. now rewrite nth_error_map, at_nth_error. Qed.

Lemma xsub_fin a b : nsub (Fin a) (Fin b) = Fin (a - b).
Proof. reflexivity. Qed.

(** ** the assertions *)

Lemma diff_nonneg (A : list R) :
  forallb (fun x => nleb n0 x) (diff (map Fin A)) = true <-> nondecreasing A.
Proof.
  rewrite forallb_forall. unfold nondecreasing. split.
  - intros H i Hi.
    assert (E : nth_error (diff (map Fin A)) i = Some (Fin (at_ A (S i) - at_ A i))).
    { rewrite nth_error_diff, !nth_fin by lia. reflexivity. }
    apply nth_error_In in E. apply H in E. cbn in E. apply Rleb_iff in E. lra.
  - intros H x Hx. apply In_nth_error in Hx. destruct Hx as [i Hi].
    assert (Hl : i < length (diff (map Fin A))) by (apply nth_error_Some; congruence).
    rewrite length_diff, map_length in Hl.
    rewrite nth_error_diff, !nth_fin in Hi by lia. injs. cbn.
    apply Rleb_true. specialize (H i ltac:(lia)). lra.
Qed.

(** ** ranks *)

Lemma nondec_le A i j : nondecreasing A -> i <= j -> j < length A -> (at_ A i <= at_ A j)%R.
Proof.
  intros H Hij Hj. induction Hij; [lra|].
  assert (at_ A i <= at_ A m)%R by (apply IHHij; lia).
  specialize (H m). specialize (H Hj). lra.
Qed.
Lemma inc_nondec A : increasing A -> nondecreasing A.
Proof. intros H i Hi. specialize (H i Hi). lra. Qed.
Lemma inc_lt A i j : increasing A -> i < j -> j < length A -> (at_ A i < at_ A j)%R.
Proof.
  intros H Hij Hj. assert (at_ A i < at_ A (S i))%R by (apply H; lia).
  assert (at_ A (S i) <= at_ A j)%R by (apply nondec_le; auto using inc_nondec). lra.
Qed.

Fixpoint steps (A : list R) (i : nat) : nat :=
  match i with
  | O => O
  | S k => if Req_EM_T (at_ A (S k)) (at_ A k) then steps A k else S (steps A k)
  end.

Lemma ranks_from_nth (l : list R) : forall (p : R) (k i : nat), i < length l ->
  nth_error (ranks_from (Fin p) k (map Fin l)) i = Some (k + steps (p :: l) (S i)).
Proof.
  induction l as [|x l IH]; intros p k i Hi; simpl in Hi; [lia|].
  cbn [map ranks_from]. cbn [neqb XRnum xeqb]. destruct i as [|i].
  - cbn [nth_error]. unfold steps. change (at_ (p :: x :: l) 1) with x.
    change (at_ (p :: x :: l) 0) with p. unfold Reqb.
    destruct (Req_EM_T x p); f_equal; lia.
  - cbn [nth_error]. rewrite IH by lia. f_equal.
    assert (E : forall j, steps (p :: x :: l) (S j) =
        (if Req_EM_T x p then 0 else 1) + steps (x :: l) j).
    { induction j as [|j IHj].
      - cbn. unfold at_. cbn. destruct (Req_EM_T x p); reflexivity.
      - remember (S j) as j'. cbn [steps]. rewrite IHj. subst j'.
        change (at_ (p :: x :: l) (S (S j))) with (at_ (x :: l) (S j)).
        change (at_ (p :: x :: l) (S j)) with (at_ (x :: l) j). cbn [steps].
        destruct (Req_EM_T (at_ (x :: l) (S j)) (at_ (x :: l) j)); lia. }
    rewrite (E (S i)). unfold Reqb. destruct (Req_EM_T x p); lia.
Qed.

Lemma ranks_nth (A : list R) i : i < length A ->
  nth_error (ranks (map Fin A)) i = Some (steps A i).
Proof.
  destruct A as [|x l]; simpl length; [lia|]. intros Hi. cbn [map ranks].
  destruct i as [|i]; [reflexivity|]. cbn [nth_error].
  rewrite ranks_from_nth by lia. f_equal.
Qed.

Lemma length_ranks_from {T} {N : Num T} (l : list T) p k : length (ranks_from p k l) = length l.
Proof. revert p k; induction l; intros; cbn; auto. Qed.
Lemma length_ranks {T} {N : Num T} (l : list T) : length (ranks l) = length l.
Proof. destruct l; cbn; auto. now rewrite length_ranks_from. Qed.

Lemma same_elements_length (l m : list R) :
  NoDup l -> NoDup m -> (forall x, In x l <-> In x m) -> length l = length m.
Proof.
  intros Hl Hm H. apply Nat.le_antisymm; apply NoDup_incl_length; auto; intros x; apply H.
Qed.

Lemma in_below A i x : In x (nodup Req_EM_T (filter (fun a => Rltb a (at_ A i)) A)) <->
  In x A /\ (x < at_ A i)%R.
Proof. rewrite nodup_In, filter_In, Rltb_iff. tauto. Qed.

Lemma steps_distinct A i : nondecreasing A -> i < length A -> steps A i = distinct_below A i.
Proof.
  intros HA. induction i as [|i IH]; intros Hi; cbn [steps].
  - unfold distinct_below. destruct (nodup _ _) as [|x l] eqn:E; auto.
    assert (Hx : In x (nodup Req_EM_T (filter (fun a => Rltb a (at_ A 0)) A))) by (rewrite E; left; auto).
    apply in_below in Hx. destruct Hx as [Hx Hlt]. apply In_nth_error in Hx. destruct Hx as [j Hj].
    assert (j < length A) by (apply nth_error_Some; congruence).
    rewrite at_nth_error in Hj by auto. injs.
    pose proof (nondec_le A 0 j HA ltac:(lia) H). lra.
  - rewrite IH by lia. destruct (Req_EM_T (at_ A (S i)) (at_ A i)) as [E|E].
    + unfold distinct_below. now rewrite E.
    + assert (Hlt : (at_ A i < at_ A (S i))%R) by (specialize (HA i Hi); lra).
      unfold distinct_below. set (m := nodup _ (filter (fun a => Rltb a (at_ A i)) A)).
      change (S (length m)) with (length (at_ A i :: m)).
      apply same_elements_length.
      * constructor; [|apply NoDup_nodup]. unfold m. rewrite in_below. lra.
      * apply NoDup_nodup.
      * intros x. unfold m. cbn [In]. rewrite !in_below. split.
        -- intros [<-|[H1 H2]]; [|split; auto; lra]. split; auto.
           unfold at_. apply nth_In. lia.
        -- intros [H1 H2]. destruct (Req_EM_T (at_ A i) x); auto. right. split; auto.
           apply In_nth_error in H1. destruct H1 as [j Hj].
           assert (j < length A) by (apply nth_error_Some; congruence).
           rewrite at_nth_error in Hj by auto. injs.
           destruct (le_lt_dec j i).
           ++ pose proof (nondec_le A j i HA l ltac:(lia)). lra.
           ++ pose proof (nondec_le A (S i) j HA l ltac:(lia)). lra.
Qed.

Lemma steps_le A i : steps A i <= i.
Proof. induction i; cbn; auto. destruct (Req_EM_T _ _); lia. Qed.

Lemma steps_mono A i j : i <= j -> steps A i <= steps A j /\ steps A j <= steps A i + (j - i).
Proof.
  induction 1; [lia|]. cbn [steps]. destruct (Req_EM_T _ _); lia.
Qed.

Lemma steps_inc A i : increasing A -> i < length A -> steps A i = i.
Proof.
  intros HA Hi. induction i; cbn; auto. rewrite IHi by lia.
  specialize (HA i Hi). destruct (Req_EM_T _ _); auto. lra.
Qed.

Lemma steps_repeat A k j : at_ A k = at_ A (S k) -> S k <= j -> steps A j < j.
Proof.
  intros E H. pose proof (steps_mono A (S k) j H). pose proof (steps_le A k).
  cbn [steps] in H0. destruct (Req_EM_T _ _); [lia|congruence].
Qed.

(** ** the profile without errors *)

Definition stored (d : dtype) (x : R) : xr := store d (Fin x).

Definition raw_d (d : dtype) (A L : list R) (j : nat) : xr :=
  match j with
  | O => NaN
  | S k => xdiv (if Rltb (at_ A k) (at_ A (S k)) then stored d (local_sb A L (S k)) else Fin 0)
              (xdiv (Fin (at_ L (S k))) (Fin (at_ A (S k))))
  end.

Lemma raw_d_float A L j : raw_d DFloat A L j = raw_entry A L j.
Proof. destruct j; auto. unfold raw_d, raw_entry. now rewrite Nat.sub_succ, Nat.sub_0_r. Qed.

Lemma I_at_nth d A L k : S k < length A -> length A = length L ->
  nth_error (I_at d (map Fin A) (map Fin L)) k =
  Some (if Rltb (at_ A k) (at_ A (S k)) then stored d (local_sb A L (S k)) else Fin 0).
Proof.
  intros Hk Hl. unfold I_at. rewrite nth_error_map2, !nth_error_diff, !nth_fin by lia.
  rewrite !xsub_fin. f_equal. unfold local_sb. rewrite Nat.sub_succ, Nat.sub_0_r.
  cbn [nltb XRnum n0 nofZ xltb].
  replace (Rltb 0 (at_ A (S k) - at_ A k)) with (Rltb (at_ A k) (at_ A (S k)))
    by (rdec; auto).
  destruct (Rltb_spec (at_ A k) (at_ A (S k))); auto.
  unfold stored. f_equal. apply xdiv_fin. lra.
Qed.

Lemma raw_nth d A L j : j < length A -> length A = length L ->
  nth_error (nnan :: map2 ndiv (I_at d (map Fin A) (map Fin L)) (I_avg (map Fin A) (map Fin L))) j
  = Some (raw_d d A L j).
Proof.
  intros Hj Hl. destruct j as [|k]; [reflexivity|]. cbn [nth_error].
  rewrite nth_error_map2, I_at_nth by auto. unfold I_avg.
  rewrite nth_error_map2, !nth_error_tl, !nth_fin by lia. reflexivity.
Qed.

Lemma gather_ok (a : list xr) (g : nat -> xr) (A : list R) :
  (forall j, j < length A -> nth_error a j = Some (g j)) ->
  gather a (ranks (map Fin A)) = Ok (map (fun i => g (steps A i)) (seq 0 (length A))).
Proof.
  intros H. unfold gather.
  replace (ranks (map Fin A)) with (map (steps A) (seq 0 (length A))).
  - rewrite (mapM_Ok_map _ g).
    + now rewrite map_map.
    + intros i Hi. apply in_map_iff in Hi. destruct Hi as (k & <- & Hk). apply in_seq in Hk.
      pose proof (steps_le A k). rewrite H by lia. reflexivity.
  - apply nth_error_ext. intros i. rewrite nth_error_map, nth_error_seq.
    destruct (Nat.ltb_spec i (length A)).
    + now rewrite ranks_nth.
    + symmetry. apply nth_error_None. rewrite length_ranks, map_length. auto.
Qed.

Definition profile (d : dtype) (A L : list R) : list xr :=
  map (fun i => raw_d d A L (steps A i)) (seq 0 (length A)).

Lemma cp_none d A L : length A = length L -> 2 < length A -> nondecreasing A ->
  calculate_petrosian d (map Fin A) (map Fin L) None None = Ok (profile d A L, None).
Proof.
  intros Hl Hn HA. unfold calculate_petrosian. rewrite !map_length, Hl, Nat.eqb_refl.
  cbn [assert_]. rewrite <- Hl. apply Nat.ltb_lt in Hn. rewrite Hn. cbn [assert_].
  apply diff_nonneg in HA. rewrite HA. cbn [assert_].
  rewrite (gather_ok _ (raw_d d A L)).
  - reflexivity.
  - intros j Hj. now apply raw_nth.
Qed.

Lemma profile_nth d A L i : i < length A ->
  nth_error (profile d A L) i = Some (raw_d d A L (steps A i)).
Proof.
  intros Hi. unfold profile. rewrite nth_error_map, nth_error_seq.
  apply Nat.ltb_lt in Hi. now rewrite Hi.
Qed.

Lemma length_profile d A L : length (profile d A L) = length A.
Proof. unfold profile. now rewrite map_length, seq_length. Qed.

Lemma cp_reject d A L ae fe :
  ~ (length A = length L /\ 2 < length A /\ nondecreasing A) ->
  calculate_petrosian d (map Fin A) (map Fin L) ae fe = Err AssertionError.
Proof.
  intros H. unfold calculate_petrosian. rewrite !map_length.
  destruct (Nat.eqb_spec (length A) (length L)); [|reflexivity]. cbn [assert_].
  destruct (Nat.ltb_spec 2 (length A)); [|reflexivity]. cbn [assert_].
  destruct (forallb _ _) eqn:E; [|reflexivity]. apply diff_nonneg in E. tauto.
Qed.

(** ** C15 *)

Lemma xdiv_chain a b c : b <> 0%R -> c <> 0%R ->
  xdiv (Fin a) (xdiv (Fin b) (Fin c)) = Fin (a / (b / c)).
Proof.
  intros Hb Hc. rewrite (xdiv_fin b c) by auto. apply xdiv_fin.
  apply Rmult_integral_contrapositive_currified; auto. now apply Rinv_neq_0_compat.
Qed.

Lemma raw_float_inc A L i : increasing A -> nonzero_tail A -> nonzero_tail L ->
  length A = length L -> 1 <= i < length A -> raw_d DFloat A L i = Fin (petro_ratio A L i).
Proof.
  intros HA HA0 HL0 Hl Hi. destruct i as [|k]; [lia|]. unfold raw_d.
  rewrite Rltb_true by (apply HA; lia). unfold stored, store.
  rewrite xdiv_chain; [reflexivity|apply HL0; lia|apply HA0; lia].
Qed.

Lemma petrosian_formula (A L : list R) :
  length A = length L -> 2 < length A -> increasing A ->
  nonzero_tail A -> nonzero_tail L ->
  exists P, calculate_petrosian DFloat (map Fin A) (map Fin L) None None = Ok (P, None) /\
    length P = length A /\
    nth_error P 0 = Some NaN /\
    forall i, 1 <= i < length A -> nth_error P i = Some (Fin (petro_ratio A L i)).
Proof.
  intros Hl Hn HA HA0 HL0. exists (profile DFloat A L).
  split; [apply cp_none; auto using inc_nondec|].
  split; [apply length_profile|]. split.
  - rewrite profile_nth by lia. now rewrite steps_inc by (auto; lia).
  - intros i Hi. rewrite profile_nth, steps_inc by (auto; lia).
    now rewrite raw_float_inc.
Qed.

(** the outcome is decided by the three assertions only *)
Lemma petrosian_accepts (d : dtype) (A L : list R) :
  (is_ok (calculate_petrosian d (map Fin A) (map Fin L) None None) = true <->
   length A = length L /\ 2 < length A /\ nondecreasing A) /\
  (forall e, calculate_petrosian d (map Fin A) (map Fin L) None None = Err e -> e = AssertionError).
Proof.
  destruct (Nat.eq_dec (length A) (length L)) as [E1|E1];
  [destruct (lt_dec 2 (length A)) as [E2|E2];
   [destruct (forallb (fun x => nleb n0 x) (diff (map Fin A))) eqn:E3|]|].
  - apply diff_nonneg in E3. rewrite cp_none by auto. split; [tauto|discriminate].
  - assert (H : ~ nondecreasing A) by (rewrite <- diff_nonneg; congruence).
    rewrite cp_reject by tauto. cbn. split; [split; [discriminate|tauto]|congruence].
  - rewrite cp_reject by tauto. cbn. split; [split; [discriminate|tauto]|congruence].
  - rewrite cp_reject by tauto. cbn. split; [split; [discriminate|tauto]|congruence].
Qed.

(** ** C16 *)

Lemma petrosian_repeats (A L : list R) :
  length A = length L -> 2 < length A -> nondecreasing A ->
  exists P, calculate_petrosian DFloat (map Fin A) (map Fin L) None None = Ok (P, None) /\
    (forall i, i < length A ->
       nth_error P i = Some (raw_entry A L (distinct_below A i))) /\
    (* equal areas only at the end *)
    (forall m, m < length A -> (forall i, i < m -> (at_ A i < at_ A (S i))%R) ->
       (forall i, m <= i < length A -> at_ A i = at_ A m) ->
       forall i, i < length A -> nth_error P i = Some (raw_entry A L (Nat.min i m))) /\
    (* an equal pair followed by a larger area *)
    (forall k j, at_ A k = at_ A (S k) -> S k < j -> j < length A ->
       distinct_below A j < j /\ nth_error P j = Some (raw_entry A L (distinct_below A j))).
Proof.
  intros Hl Hn HA. exists (profile DFloat A L).
  split; [now apply cp_none|].
  assert (G : forall i, i < length A ->
     nth_error (profile DFloat A L) i = Some (raw_entry A L (distinct_below A i))).
  { intros i Hi. rewrite profile_nth, raw_d_float by auto. now rewrite steps_distinct. }
  split; auto. split.
  - intros m Hm Hinc Heq i Hi. rewrite G by auto. do 2 f_equal.
    rewrite <- steps_distinct by auto.
    assert (Hs : forall i, i <= m -> steps A i = i).
    { intros k Hk. induction k; cbn; auto. rewrite IHk by lia.
      specialize (Hinc k ltac:(lia)). destruct (Req_EM_T _ _); auto. lra. }
    destruct (le_lt_dec i m); [rewrite Hs by auto; lia|].
    rewrite Nat.min_r by lia.
    assert (Hc : forall d, m + d < length A -> steps A (m + d) = m).
    { induction d as [|d IHd]; intros Hd; [rewrite Nat.add_0_r; auto|].
      rewrite Nat.add_succ_r. cbn [steps]. rewrite IHd by lia.
      rewrite (Heq (S (m + d))), (Heq (m + d)) by lia.
      destruct (Req_EM_T _ _); auto; congruence. }
    replace i with (m + (i - m)) by lia. apply Hc. lia.
  - intros k j E Hk Hj. split; auto. rewrite <- steps_distinct by auto.
    apply (steps_repeat A k); auto. lia.
Qed.

Lemma steps_eq A k : at_ A (S k) = at_ A k -> steps A (S k) = steps A k.
Proof. intros H. cbn. destruct (Req_EM_T _ _); auto. contradiction. Qed.
Lemma steps_ne A k : at_ A (S k) <> at_ A k -> steps A (S k) = S (steps A k).
Proof. intros H. cbn. destruct (Req_EM_T _ _); auto. contradiction. Qed.

Lemma petrosian_repeats_witness :
  exists A L : list R,
    increasing (firstn 2 A) /\ nondecreasing A /\ nondecreasing L /\
    (* constant surface brightness 1: the true profile is 1 everywhere *)
    A = [1; 2; 2; 3]%R /\ L = A /\
    calculate_petrosian DFloat (map Fin A) (map Fin L) None None
      = Ok ([NaN; Fin 1; Fin 1; Fin 0], None).
Proof.
  exists [1; 2; 2; 3]%R, [1; 2; 2; 3]%R.
  assert (HN : nondecreasing [1; 2; 2; 3]%R).
  { intros [|[|[|[|i]]]] Hi; cbn in *; try lia; unfold at_; cbn; lra. }
  split; [|split; [|split; [|split; [|split]]]]; auto.
  - intros [|[|i]] Hi; cbn in *; try lia. unfold at_; cbn; lra.
  - rewrite cp_none by (auto; cbn; lia).
    unfold profile. cbn [length seq map].
    assert (E0 : steps [1;2;2;3]%R 0 = 0) by reflexivity.
    assert (E1 : steps [1;2;2;3]%R 1 = 1).
    { rewrite steps_ne, E0; auto. unfold at_; cbn; lra. }
    assert (E2 : steps [1;2;2;3]%R 2 = 1).
    { rewrite steps_eq, E1; auto. }
    assert (E3 : steps [1;2;2;3]%R 3 = 2).
    { rewrite steps_ne, E2; auto. unfold at_; cbn; lra. }
    rewrite E0, E1, E2, E3. unfold raw_d, at_, stored, store, local_sb, at_. cbn [nth Nat.sub].
    rewrite Rltb_true by lra. rewrite Rltb_false by lra.
    rewrite !xdiv_chain by lra.
    replace ((2 - 1) / (2 - 1) / (2 / 2))%R with 1%R by field.
    replace (0 / (2 / 2))%R with 0%R by field. reflexivity.
Qed.

(** ** C17 *)

Lemma Rtrunc_spec x : truncated x (Rtrunc x).
Proof.
  unfold truncated, Rtrunc. destruct (Rleb_spec 0 x).
  - left. pose proof (Int_part_bounds x). lra.
  - right. pose proof (Int_part_bounds (- x)). rewrite opp_IZR. lra.
Qed.

Lemma truncated_unique x z1 z2 : truncated x z1 -> truncated x z2 -> z1 = z2.
Proof.
  intros [[H1 H2]|[H1 H2]] [[H3 H4]|[H3 H4]]; try lra.
  - assert (IZR z1 < IZR (z2 + 1))%R by (rewrite plus_IZR; lra).
    assert (IZR z2 < IZR (z1 + 1))%R by (rewrite plus_IZR; lra).
    apply lt_IZR in H. apply lt_IZR in H0. lia.
  - assert (IZR (z1 - 1) < IZR z2)%R by (rewrite minus_IZR; lra).
    assert (IZR (z2 - 1) < IZR z1)%R by (rewrite minus_IZR; lra).
    apply lt_IZR in H. apply lt_IZR in H0. lia.
Qed.

Lemma truncated_eq x z : truncated x z -> (x = IZR z <-> is_integer x).
Proof.
  intros H. split; [now exists z|]. intros [y ->].
  f_equal. apply truncated_unique with (IZR y); auto.
  unfold truncated. destruct (Rle_dec 0 (IZR y)); [left|right]; lra.
Qed.

Definition int64_range (z : Z) : Prop := (- 2 ^ 63 <= z < 2 ^ 63)%Z.

Lemma petrosian_integer_areas (AZ : list Z) (L : list R) :
  let A := map IZR AZ in
  length A = length L -> 2 < length A -> increasing A ->
  nonzero_tail A -> nonzero_tail L ->
  (forall i z, 1 <= i < length A -> truncated (local_sb A L i) z -> int64_range z) ->
  exists PI PF, calculate_petrosian DInt (map Fin A) (map Fin L) None None = Ok (PI, None) /\
    calculate_petrosian DFloat (map Fin A) (map Fin L) None None = Ok (PF, None) /\
    forall i, 1 <= i < length A ->
      (forall z, truncated (local_sb A L i) z ->
         nth_error PI i = Some (Fin (IZR z / mean_sb A L i))) /\
      (nth_error PI i = nth_error PF i <-> is_integer (local_sb A L i)).
Proof.
  intros A Hl Hn HA HA0 HL0 Hr. exists (profile DInt A L), (profile DFloat A L).
  split; [apply cp_none; auto using inc_nondec|].
  split; [apply cp_none; auto using inc_nondec|].
  intros i Hi.
  assert (E : forall z, truncated (local_sb A L i) z ->
         nth_error (profile DInt A L) i = Some (Fin (IZR z / mean_sb A L i))).
  { intros z Hz. rewrite profile_nth, steps_inc by (auto; lia). f_equal.
    destruct i as [|k]; [lia|]. unfold raw_d. rewrite Rltb_true by (apply HA; lia).
    assert (Ez : stored DInt (local_sb A L (S k)) = Fin (IZR z)).
    { unfold stored, store. cbn [ntrunc XRnum xtrunc].
      rewrite (truncated_unique (local_sb A L (S k)) (Rtrunc (local_sb A L (S k))) z); auto using Rtrunc_spec.
      destruct (Hr (S k) z Hi Hz) as [Hz1 Hz2].
      apply Z.leb_le in Hz1. apply Z.ltb_lt in Hz2. now rewrite Hz1, Hz2. }
    rewrite Ez, xdiv_chain; [reflexivity|apply HL0; lia|apply HA0; lia]. }
  split; auto.
  pose proof (Rtrunc_spec (local_sb A L i)) as Hz. rewrite (E _ Hz).
  rewrite <- (truncated_eq _ _ Hz).
  rewrite profile_nth, steps_inc, raw_float_inc by (auto; lia). unfold petro_ratio.
  assert (Hm : mean_sb A L i <> 0%R).
  { unfold mean_sb. apply Rmult_integral_contrapositive_currified; [apply HL0; lia|].
    apply Rinv_neq_0_compat. apply HA0; lia. }
  split.
  - intros H. assert (H' : (IZR (Rtrunc (local_sb A L i)) / mean_sb A L i
                          = local_sb A L i / mean_sb A L i)%R) by congruence.
    apply Rmult_eq_reg_r in H'; auto. now apply Rinv_neq_0_compat.
  - intros H. do 2 f_equal. now rewrite <- H.
Qed.

(** ** C18 *)

Lemma at_map (f : R -> R) l i : i < length l -> at_ (map f l) i = f (at_ l i).
Proof. intros H. unfold at_. rewrite (nth_indep (map f l) 0%R (f 0%R)) by now rewrite map_length.
  apply map_nth. Qed.

Lemma increasing_scale k A : (0 < k)%R -> increasing A -> increasing (map (Rmult k) A).
Proof.
  intros Hk HA i Hi. rewrite map_length in Hi. rewrite !at_map by lia.
  apply Rmult_lt_compat_l; auto.
Qed.

Lemma nonzero_scale k A : k <> 0%R -> nonzero_tail A -> nonzero_tail (map (Rmult k) A).
Proof.
  intros Hk HA i Hi. rewrite map_length in Hi. rewrite at_map by lia.
  apply Rmult_integral_contrapositive_currified; auto.
Qed.

Lemma nondec_scale k A : (0 < k)%R -> nondecreasing A -> nondecreasing (map (Rmult k) A).
Proof.
  intros Hk HA i Hi. rewrite map_length in Hi. rewrite !at_map by lia.
  apply Rmult_le_compat_l; auto. lra.
Qed.

Lemma steps_scale k A i : (0 < k)%R -> i < length A -> steps (map (Rmult k) A) i = steps A i.
Proof.
  intros Hk Hi. induction i; cbn [steps]; auto. rewrite IHi, !at_map by lia.
  destruct (Req_EM_T (k * at_ A (S i)) (k * at_ A i)) as [E|E];
  destruct (Req_EM_T (at_ A (S i)) (at_ A i)) as [F|F]; auto.
  - apply Rmult_eq_reg_l in E; lra.
  - rewrite F in E. lra.
Qed.

Lemma petrosian_scale_free (A L : list R) (c k : R) :
  length A = length L -> c <> 0%R -> (0 < k)%R -> nonzero_tail A -> nonzero_tail L ->
  calculate_petrosian DFloat (map Fin (map (Rmult k) A)) (map Fin (map (Rmult c) L)) None None
  = calculate_petrosian DFloat (map Fin A) (map Fin L) None None.
Proof.
  intros Hl Hc Hk HA0 HL0.
  destruct (lt_dec 2 (length A)) as [Hn|Hn].
  2:{ rewrite !cp_reject; auto; rewrite ?map_length; tauto. }
  destruct (forallb (fun x => nleb n0 x) (diff (map Fin A))) eqn:E.
  2:{ assert (H : ~ nondecreasing A) by (rewrite <- diff_nonneg; congruence).
      rewrite !cp_reject; auto; try tauto. intros (_ & _ & H'). apply H.
      intros i Hi. specialize (H' i). rewrite map_length, !at_map in H' by lia.
      specialize (H' Hi). apply Rmult_le_reg_l in H'; auto. }
  apply diff_nonneg in E.
  rewrite !cp_none; rewrite ?map_length; auto using nondec_scale.
  do 2 f_equal. unfold profile. rewrite map_length. apply map_ext_in.
  intros i Hi. apply in_seq in Hi. rewrite steps_scale by (auto; lia).
  pose proof (steps_le A i). destruct (steps A i) as [|j]; auto.
  unfold raw_d, stored, store, local_sb. rewrite !Nat.sub_succ, !Nat.sub_0_r.
  rewrite !at_map by lia.
  assert (HLj : at_ L (S j) <> 0%R) by (apply HL0; lia).
  assert (HAj : at_ A (S j) <> 0%R) by (apply HA0; lia).
  replace (Rltb (k * at_ A j) (k * at_ A (S j))) with (Rltb (at_ A j) (at_ A (S j))).
  2:{ destruct (Rltb_spec (at_ A j) (at_ A (S j))) as [G|G]; symmetry.
      - apply Rltb_true. now apply Rmult_lt_compat_l.
      - apply Rltb_false. apply Rmult_le_compat_l; lra. }
  assert (Hk0 : k <> 0%R) by lra.
  assert (HkA : (k * at_ A (S j) <> 0)%R) by (apply Rmult_integral_contrapositive_currified; auto).
  assert (HcL : (c * at_ L (S j) <> 0)%R) by (apply Rmult_integral_contrapositive_currified; auto).
  destruct (Rltb_spec (at_ A j) (at_ A (S j))).
  - rewrite (xdiv_chain _ (c * at_ L (S j))), xdiv_chain by auto.
    f_equal. field. repeat split; auto; try lra; rewrite <- Rmult_minus_distr_l; apply Rmult_integral_contrapositive_currified; lra.
  - rewrite (xdiv_chain _ (c * at_ L (S j))), xdiv_chain by auto. f_equal. field. auto.
Qed.

Lemma petrosian_constant_sb (A L : list R) (s : R) :
  2 < length A -> increasing A -> nonzero_tail A -> s <> 0%R -> L = map (Rmult s) A ->
  exists P, calculate_petrosian DFloat (map Fin A) (map Fin L) None None = Ok (P, None) /\
    forall i, 1 <= i < length A -> nth_error P i = Some (Fin 1).
Proof.
  intros Hn HA HA0 Hs ->.
  destruct (petrosian_formula A (map (Rmult s) A)) as (P & E & _ & _ & H);
    rewrite ?map_length; auto using nonzero_scale.
  exists P. split; auto. intros i Hi. rewrite H by auto. do 2 f_equal.
  unfold petro_ratio, local_sb, mean_sb. rewrite !at_map by lia.
  assert (at_ A (i - 1) < at_ A i)%R by (apply inc_lt; auto; lia).
  assert (at_ A i <> 0%R) by (apply HA0; auto).
  field. repeat split; auto. lra.
Qed.

Lemma petrosian_declining (A L : list R) :
  length A = length L -> 2 < length A -> increasing A -> (0 < at_ A 0)%R ->
  (forall i, i < length L -> (0 < at_ L i)%R) ->
  (* annulus brightness non-negative and never increasing, the first aperture
     being at least as bright as the first annulus *)
  (forall i, 1 <= i < length A -> (0 <= local_sb A L i)%R) ->
  (local_sb A L 1 <= mean_sb A L 0)%R ->
  (forall i, 1 <= i -> S i < length A -> (local_sb A L (S i) <= local_sb A L i)%R) ->
  exists P, calculate_petrosian DFloat (map Fin A) (map Fin L) None None = Ok (P, None) /\
    forall i, 1 <= i < length A ->
      exists v, nth_error P i = Some (Fin v) /\ (0 <= v <= 1)%R.
Proof.
  intros Hl Hn HA HA0 HL Hb H1 Hdec.
  assert (HApos : forall i, i < length A -> (0 < at_ A i)%R).
  { intros i Hi. pose proof (nondec_le A 0 i (inc_nondec A HA) ltac:(lia) Hi). lra. }
  destruct (petrosian_formula A L) as (P & E & _ & _ & H); auto.
  { intros i Hi. specialize (HApos i ltac:(lia)). lra. }
  { intros i Hi. specialize (HL i ltac:(lia)). lra. }
  exists P. split; auto. intros i Hi. exists (petro_ratio A L i). split; auto.
  assert (Hm : forall i, S i < length A -> (local_sb A L (S i) <= mean_sb A L i)%R /\
      (local_sb A L (S i) <= mean_sb A L (S i))%R).
  { induction i0 as [|k IH]; intros Hk.
    - split; auto. unfold local_sb, mean_sb in *. cbn [Nat.sub] in *.
      pose proof (HA 0 Hk). pose proof (HApos 0 ltac:(lia)). pose proof (HApos 1 ltac:(lia)).
      set (q := ((at_ L 1 - at_ L 0) / (at_ A 1 - at_ A 0))%R) in *.
      assert (at_ L 1 = at_ L 0 + q * (at_ A 1 - at_ A 0))%R as -> by (unfold q; field; lra).
      assert (q * at_ A 0 <= at_ L 0)%R.
      { replace (at_ L 0)%R with (at_ L 0 / at_ A 0 * at_ A 0)%R by (field; lra).
        apply Rmult_le_compat_r; lra. }
      apply Rmult_le_reg_r with (at_ A 1); auto.
      replace ((at_ L 0 + q * (at_ A 1 - at_ A 0)) / at_ A 1 * at_ A 1)%R
        with (at_ L 0 + q * (at_ A 1 - at_ A 0))%R by (field; lra). nra.
    - destruct IH as [_ IH]; [lia|].
      assert (G : (local_sb A L (S (S k)) <= mean_sb A L (S k))%R).
      { pose proof (Hdec (S k) ltac:(lia) Hk). lra. }
      split; auto. unfold local_sb, mean_sb in *. rewrite !Nat.sub_succ, !Nat.sub_0_r in *.
      pose proof (HA (S k) Hk). pose proof (HApos (S k) ltac:(lia)). pose proof (HApos (S (S k)) Hk).
      set (q := ((at_ L (S (S k)) - at_ L (S k)) / (at_ A (S (S k)) - at_ A (S k)))%R) in *.
      assert (at_ L (S (S k)) = at_ L (S k) + q * (at_ A (S (S k)) - at_ A (S k)))%R as ->
        by (unfold q; field; lra).
      assert (q * at_ A (S k) <= at_ L (S k))%R.
      { replace (at_ L (S k))%R with (at_ L (S k) / at_ A (S k) * at_ A (S k))%R by (field; lra).
        apply Rmult_le_compat_r; lra. }
      apply Rmult_le_reg_r with (at_ A (S (S k))); auto.
      replace ((at_ L (S k) + q * (at_ A (S (S k)) - at_ A (S k))) / at_ A (S (S k)) * at_ A (S (S k)))%R
        with (at_ L (S k) + q * (at_ A (S (S k)) - at_ A (S k)))%R by (field; lra). nra. }
  destruct i as [|k]; [lia|]. destruct (Hm k) as [_ G]; [lia|].
  pose proof (Hb (S k) Hi) as Hb'. unfold petro_ratio.
  assert (0 < mean_sb A L (S k))%R.
  { unfold mean_sb. apply Rdiv_lt_0_compat; [apply HL; lia|apply HApos; lia]. }
  split.
  - apply Rmult_le_pos; auto. left. now apply Rinv_0_lt_compat.
  - apply Rmult_le_reg_r with (mean_sb A L (S k)); auto.
    replace (local_sb A L (S k) / mean_sb A L (S k) * mean_sb A L (S k))%R
      with (local_sb A L (S k)) by (field; lra). lra.
Qed.
