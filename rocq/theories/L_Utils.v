(** Proofs about the model of utils.py. *)
From Verif Require Import Base Num Numpy M_Utils L_Numpy S_Utils.

(** ** closest_value_index *)

Lemma dist_model v x : nabs (nsub x (Fin v)) = dist v x.
Proof. destruct x; simpl; auto. Qed.

Lemma crossed_model (growing : bool) (v x : xr) :
  (if growing then nleb v x else nleb x v) = true <-> crossed growing v x.
Proof. destruct growing; unfold crossed, xle; reflexivity. Qed.

Lemma nth_error_firstn {A} (l : list A) n i :
  nth_error (firstn n l) i = if Nat.ltb i n then nth_error l i else None.
Proof.
  revert n i; induction l as [|x xs IH]; intros [|n] [|i]; simpl; auto.
  - now destruct (S i <? S n)%nat.
  - rewrite IH. reflexivity.
Qed.

Lemma closest_value_index_spec v (a : list xr) growing :
  Forall xok a ->
  (closest_value_index (Fin v) a growing = None <->
     forall x, In x a -> ~ crossed growing (Fin v) x) /\
  (forall i, closest_value_index (Fin v) a growing = Some i ->
     exists c x, first_crossing growing (Fin v) a c /\ i <= c /\
       nth_error a i = Some x /\
       (forall j y, j <= c -> nth_error a j = Some y -> xle (dist v x) (dist v y)) /\
       (forall j y, j < i -> nth_error a j = Some y -> xlt (dist v x) (dist v y))).
Proof.
  intros Ha. unfold closest_value_index.
  set (p := fun x => if growing then nleb (Fin v) x else nleb x (Fin v)).
  assert (Hp : forall x, p x = true <-> crossed growing (Fin v) x).
  { intros x. apply crossed_model. }
  destruct (find_index p a) as [c|] eqn:Hc.
  - apply find_index_Some in Hc. destruct Hc as [(xc & Hxc & Hpc) Hbefore].
    assert (Hfc : first_crossing growing (Fin v) a c).
    { split.
      - exists xc. split; auto. now apply Hp.
      - intros j y Hj Hy Hcr. apply Hp in Hcr. rewrite (Hbefore j y) in Hcr; auto. discriminate. }
    set (l := map (fun x => nabs (nsub x (Fin v))) (firstn (S c) a)).
    assert (Hnth : forall j y, nth_error l j = Some y <->
              j <= c /\ exists x, nth_error a j = Some x /\ y = dist v x).
    { intros j y. unfold l. rewrite nth_error_map, nth_error_firstn.
      destruct (Nat.ltb_spec j (S c)).
      - destruct (nth_error a j) as [x|]; simpl.
        + rewrite dist_model. split.
          * intros E; inversion E; subst. split; [lia|eauto].
          * intros [_ (x' & E & ->)]. inversion E; auto.
        + split; [discriminate|]. intros [_ (x' & E & _)]; discriminate.
      - simpl. split; [discriminate|]. intros [? _]; lia. }
    assert (Hl : Forall xok l).
    { apply Forall_forall. intros y Hy. apply In_nth_error in Hy. destruct Hy as [j Hj].
      apply Hnth in Hj. destruct Hj as [_ (x & Hx & ->)].
      apply nth_error_In in Hx. rewrite Forall_forall in Ha. specialize (Ha x Hx).
      destruct x; simpl; unfold xok in *; congruence. }
    split.
    + split.
      * intros E. apply argmin_None in E. exfalso.
        assert (Hc0 : nth_error l c = Some (dist v xc)) by (apply Hnth; eauto).
        rewrite E in Hc0. destruct c; discriminate.
      * intros H. exfalso. apply (H xc).
        { eapply nth_error_In; eauto. }
        { now apply Hp. }
    + intros i Hi. destruct (argmin_spec l i Hl Hi) as (d & Hd & Hmin & Hfirst).
      apply Hnth in Hd. destruct Hd as [Hic (x & Hx & ->)].
      exists c, x. split; auto. split; auto. split; auto. split.
      * intros j y Hj Hy. apply (Hmin j). apply Hnth. eauto.
      * intros j y Hj Hy. apply (Hfirst j); auto. apply Hnth. split; [lia|eauto].
  - rewrite find_index_None in Hc. split.
    + split; auto. intros _ x Hx Hcr. apply Hp in Hcr. rewrite Hc in Hcr; auto. discriminate.
    + intros i H; discriminate.
Qed.

Lemma not_crossed_grow v x : xok x -> ~ crossed true (Fin v) x -> xlt x (Fin v).
Proof. intros H1 H2. apply xnle_lt; auto. discriminate. Qed.
Lemma not_crossed_dec v x : xok x -> ~ crossed false (Fin v) x -> xlt (Fin v) x.
Proof. intros H1 H2. apply xnle_lt; auto. discriminate. Qed.

Ltac distcases :=
  unfold xle, xlt in *;
  repeat match goal with x : xr |- _ => destruct x end;
  cbn in *; try discriminate; try congruence;
  repeat match goal with
  | H : Rltb _ _ = true |- _ => apply Rltb_iff in H
  | H : Rleb _ _ = true |- _ => apply Rleb_iff in H
  end;
  unfold Rabs in *;
  repeat match goal with
  | H : context [Rcase_abs ?a] |- _ => destruct (Rcase_abs a)
  end; try lra.

(** core of the monotonicity proofs *)
Lemma grow_mono_core v1 v2 (xi1 xi2 xc1 : xr) :
  (v1 <= v2)%R -> xok xi1 -> xok xi2 ->
  xlt xi2 (Fin v1) -> xle (Fin v1) xc1 -> xlt xc1 (Fin v2) ->
  xle (dist v2 xi2) (dist v2 xc1) -> False.
Proof. intros. distcases. Qed.

Lemma grow_mono_core2 v1 v2 (xi1 xi2 : xr) :
  (v1 <= v2)%R -> xlt xi2 (Fin v1) -> xlt xi1 (Fin v1) ->
  xlt (dist v1 xi1) (dist v1 xi2) ->
  xle (dist v2 xi2) (dist v2 xi1) -> False.
Proof. intros. distcases. Qed.

Lemma grow_mono_core3 v1 v2 (xi1 xi2 : xr) :
  (v1 <= v2)%R -> xlt xi2 (Fin v1) -> xle (Fin v2) xi1 ->
  xlt (dist v1 xi1) (dist v1 xi2) ->
  xle (dist v2 xi2) (dist v2 xi1) -> False.
Proof. intros. distcases. Qed.

Lemma dec_mono_core v1 v2 (xi1 xi2 xc1 : xr) :
  (v2 <= v1)%R -> xlt (Fin v1) xi2 -> xle xc1 (Fin v1) -> xlt (Fin v2) xc1 ->
  xle (dist v2 xi2) (dist v2 xc1) -> False.
Proof. intros. distcases. Qed.

Lemma dec_mono_core2 v1 v2 (xi1 xi2 : xr) :
  (v2 <= v1)%R -> xlt (Fin v1) xi2 -> xlt (Fin v1) xi1 ->
  xlt (dist v1 xi1) (dist v1 xi2) ->
  xle (dist v2 xi2) (dist v2 xi1) -> False.
Proof. intros. distcases. Qed.

Lemma dec_mono_core3 v1 v2 (xi1 xi2 : xr) :
  (v2 <= v1)%R -> xlt (Fin v1) xi2 -> xle xi1 (Fin v2) ->
  xlt (dist v1 xi1) (dist v1 xi2) ->
  xle (dist v2 xi2) (dist v2 xi1) -> False.
Proof. intros. distcases. Qed.

(** One statement for both directions: [v1] is reached before [v2]. *)
Definition before (growing : bool) (v1 v2 : R) : Prop :=
  if growing then (v1 <= v2)%R else (v2 <= v1)%R.

Lemma crossed_before growing v1 v2 x :
  before growing v1 v2 -> crossed growing (Fin v2) x -> crossed growing (Fin v1) x.
Proof.
  destruct growing; simpl; intros H Hx; unfold crossed in *.
  - apply xle_trans with (Fin v2); auto. now apply xle_fin.
  - apply xle_trans with (Fin v2); auto. now apply xle_fin.
Qed.

Lemma closest_mono growing v1 v2 (a : list xr) i1 i2 :
  Forall xok a -> before growing v1 v2 ->
  closest_value_index (Fin v1) a growing = Some i1 ->
  closest_value_index (Fin v2) a growing = Some i2 -> i1 <= i2.
Proof.
  intros Ha Hv H1 H2.
  destruct (closest_value_index_spec v1 a growing Ha) as [_ S1].
  destruct (closest_value_index_spec v2 a growing Ha) as [_ S2].
  destruct (S1 i1 H1) as (c1 & x1 & [(xc1 & Hc1 & Hcr1) Hb1] & Hi1 & Hx1 & Hmin1 & Hf1).
  destruct (S2 i2 H2) as (c2 & x2 & [(xc2 & Hc2 & Hcr2) Hb2] & Hi2 & Hx2 & Hmin2 & Hf2).
  clear S1 S2.
  assert (Hok : forall j y, nth_error a j = Some y -> xok y).
  { intros j y Hy. apply nth_error_In in Hy. rewrite Forall_forall in Ha. auto. }
  assert (Hc12 : c1 <= c2).
  { destruct (le_lt_dec c1 c2) as [|Hlt]; auto. exfalso.
    apply (Hb1 c2 xc2 Hlt Hc2). now apply crossed_before with v2. }
  destruct (le_lt_dec i1 i2) as [|Hlt]; auto. exfalso.
  assert (Hn2 : ~ crossed growing (Fin v1) x2) by (apply (Hb1 i2); auto; lia).
  assert (D1 : xlt (dist v1 x1) (dist v1 x2)) by (apply (Hf1 i2); auto).
  destruct (Nat.eq_dec c1 c2) as [->|Hne].
  - assert (D2 : xle (dist v2 x2) (dist v2 x1)) by (apply (Hmin2 i1); auto).
    destruct (Nat.eq_dec i1 c2) as [->|Hi1c].
    + assert (x1 = xc2) by congruence. subst x1.
      destruct growing; simpl in Hv.
      * eapply (grow_mono_core3 v1 v2 xc2 x2); eauto using not_crossed_grow.
      * eapply (dec_mono_core3 v1 v2 xc2 x2); eauto using not_crossed_dec.
    + assert (Hn1 : ~ crossed growing (Fin v1) x1) by (apply (Hb1 i1); auto; lia).
      destruct growing; simpl in Hv.
      * eapply (grow_mono_core2 v1 v2 x1 x2); eauto using not_crossed_grow.
      * eapply (dec_mono_core2 v1 v2 x1 x2); eauto using not_crossed_dec.
  - assert (Hnc : ~ crossed growing (Fin v2) xc1) by (apply (Hb2 c1); auto; lia).
    assert (D2 : xle (dist v2 x2) (dist v2 xc1)) by (apply (Hmin2 c1); auto).
    destruct growing; simpl in Hv.
    + eapply (grow_mono_core v1 v2 x1 x2 xc1); eauto using not_crossed_grow.
    + eapply (dec_mono_core v1 v2 x1 x2 xc1); eauto using not_crossed_dec.
Qed.

Lemma closest_reachable growing v1 v2 (a : list xr) :
  Forall xok a -> before growing v1 v2 ->
  closest_value_index (Fin v2) a growing <> None ->
  closest_value_index (Fin v1) a growing <> None.
Proof.
  intros Ha Hv H2 H1.
  destruct (closest_value_index_spec v1 a growing Ha) as [[N1 _] _].
  destruct (closest_value_index_spec v2 a growing Ha) as [[_ N2] _].
  apply H2, N2. intros x Hx Hcr. apply (N1 H1 x Hx). now apply crossed_before with v2.
Qed.
