(** Proofs about segmentation.py: masks, call histories, order_cat. *)
From Coq Require Import String Sorting.Permutation FunctionalExtensionality.
From Verif Require Import Base Num Numpy M_Utils M_Photometry S_Photometry M_PSF M_Fitting M_Segm S_Segm.
Local Open Scope list_scope.

(** ** segm_mask *)
Lemma set_nth_length {A} (l : list A) k v : List.length (set_nth l k v) = List.length l.
Proof. revert k. induction l as [|x l IH]; intros [|k]; cbn; auto. Qed.
Lemma nth_set_nth {A} (l : list A) k v d n : nth n (set_nth l k v) d =
  if Nat.eqb n k && (k <? List.length l)%nat then v else nth n l d.
Proof.
  revert k n. induction l as [|x l IH]; intros [|k] [|n]; cbn [set_nth nth List.length]; auto.
  - destruct (Nat.eqb _ _); reflexivity.
  - rewrite IH. reflexivity.
Qed.

Definition or_label (segm : img Z) (mask : option (img bool)) (s : item) : option (img bool) :=
  let m := mkimg (iny segm) (inx segm) (fun j i => (px segm j i =? item_label s)%Z) in
  match mask with
  | None => Some m
  | Some mask => Some (mkimg (iny segm) (inx segm) (fun j i => px m j i || px mask j i))
  end.
Lemma loop_step segm items : segm_loop segm items = fold_left (or_label segm) items None.
Proof. reflexivity. Qed.

Lemma loop_some segm items : forall m, iny m = iny segm -> inx m = inx segm ->
  exists r, fold_left (or_label segm) items (Some m) = Some r /\ iny r = iny segm /\ inx r = inx segm /\
    forall j i, px r j i = existsb (fun s => (px segm j i =? item_label s)%Z) items || px m j i.
Proof.
  induction items as [|s items IH]; intros m Hy Hx.
  - exists m. repeat split; auto.
  - cbn [fold_left or_label].
    match goal with |- context [fold_left _ _ (Some ?x)] => destruct (IH x eq_refl eq_refl) as (r & -> & Ry & Rx & Rp) end.
    exists r. repeat split; auto.
    intros j i. rewrite Rp. cbn. now rewrite !orb_assoc, (orb_comm (existsb _ items)).
Qed.

Lemma loop_ok segm items : items <> [] -> exists r, segm_loop segm items = Some r /\ iny r = iny segm /\ inx r = inx segm /\
    forall j i, px r j i = existsb (fun s => (px segm j i =? item_label s)%Z) items.
Proof.
  destruct items as [|s items]; [congruence|]. intros _. rewrite loop_step. cbn [fold_left or_label].
  match goal with |- context [fold_left _ _ (Some ?x)] =>
    destruct (loop_some segm items x eq_refl eq_refl) as (r & -> & Ry & Rx & Rp) end.
  exists r. repeat split; auto.
  intros j i. rewrite Rp. cbn. now rewrite orb_comm.
Qed.

Lemma existsb_label z items : existsb (fun s => (z =? item_label s)%Z) items = true <->
  exists s, In s items /\ (s = LInt z \/ s = LCat z).
Proof.
  rewrite existsb_exists. split; intros (s & Hs & H); exists s; split; auto.
  - apply Z.eqb_eq in H. subst z. destruct s; auto.
  - destruct H as [->| ->]; cbn; apply Z.eqb_refl.
Qed.

Lemma requested_app z items : existsb (fun s => (z =? item_label s)%Z) (items ++ [LInt 0]) = true <-> requested items false z.
Proof.
  rewrite existsb_app, orb_true_iff, existsb_label. unfold requested. cbn.
  rewrite orb_false_r, Z.eqb_eq. intuition.
Qed.
Lemma requested_plain z items : existsb (fun s => (z =? item_label s)%Z) items = true <-> requested items true z.
Proof. rewrite existsb_label. unfold requested. intuition discriminate. Qed.

Lemma mask_items segm items mb : (items <> [] \/ mb = false) ->
  exists m, segm_loop segm (if mb then items else items ++ [LInt 0]) = Some m /\
    iny m = iny segm /\ inx m = inx segm /\
    forall j i, px m j i = true <-> requested items mb (px segm j i).
Proof.
  intros H. assert (NE : (if mb then items else items ++ [LInt 0]) <> []).
  { destruct mb; [destruct H; congruence|]. now destruct items. }
  destruct (loop_ok segm _ NE) as (r & -> & Ry & Rx & Rp). exists r. repeat split; auto.
  - rewrite Rp. destruct mb; [apply requested_plain|apply requested_app].
  - rewrite Rp. destruct mb; [apply requested_plain|apply requested_app].
Qed.

Lemma mask_item mem s segm mb :
  exists m, segm_mask mem (AItem s) segm mb = (Ok (Some m), mem) /\ iny m = iny segm /\ inx m = inx segm /\
    forall j i, px m j i = true <-> requested [s] mb (px segm j i).
Proof.
  destruct (mask_items segm [s] mb) as (m & E & H); [left; discriminate|]. exists m. split; auto.
  unfold segm_mask. now rewrite E.
Qed.

Lemma mask_list mem l segm mb : (nth l mem [] <> [] \/ mb = false) ->
  exists m, fst (segm_mask mem (AList l) segm mb) = Ok (Some m) /\ iny m = iny segm /\ inx m = inx segm /\
    forall j i, px m j i = true <-> requested (nth l mem []) mb (px segm j i).
Proof.
  intros H. destruct (mask_items segm (nth l mem []) mb H) as (m & E & H'). exists m. split; auto.
  unfold segm_mask. destruct mb; cbn [fst]; now rewrite E.
Qed.

Lemma mask_empty mem l segm : nth l mem [] = [] -> segm_mask mem (AList l) segm true = (Ok None, mem).
Proof. intros H. unfold segm_mask. now rewrite H. Qed.

Lemma mask_other mem segm mb : segm_mask mem AOther segm mb = (Err TypeError, mem).
Proof. reflexivity. Qed.

(** ** Histories *)
Lemma mem_unchanged mem src segm mb : (mb = true \/ forall l, src <> AList l) ->
  snd (segm_mask mem src segm mb) = mem.
Proof.
  intros H. destruct src; auto. unfold segm_mask. destruct mb; auto. destruct H; [discriminate|]. now destruct (H l).
Qed.

Lemma item_independent mem1 mem2 s segm mb : fst (segm_mask mem1 (AItem s) segm mb) = fst (segm_mask mem2 (AItem s) segm mb).
Proof. reflexivity. Qed.

Lemma repeat_end {A} (a : A) n : repeat a n ++ [a] = a :: repeat a n.
Proof. induction n; cbn; auto. now rewrite IHn. Qed.

Lemma after_length h : forall mem, List.length (after mem h) = List.length mem.
Proof.
  induction h as [|c h IH]; intros mem; auto. cbn. rewrite IH. unfold segm_mask.
  destruct (k_src c); auto. destruct (k_mb c); auto. apply set_nth_length.
Qed.

Lemma after_list h : forall mem l, (l < List.length mem)%nat ->
  nth l (after mem h) [] = nth l mem [] ++ repeat (LInt 0) (List.length (filter (appends l) h)).
Proof.
  induction h as [|c h IH]; intros mem l Hl.
  - cbn. now rewrite app_nil_r.
  - cbn [after filter]. rewrite IH.
    + unfold segm_mask, appends. destruct (k_src c) as [s|l'|]; auto.
      destruct (k_mb c); [rewrite andb_false_r; auto|]. cbn [snd]. rewrite nth_set_nth, andb_true_r.
      rewrite (Nat.eqb_sym l' l). destruct (Nat.eqb_spec l l') as [->|N]; auto.
      destruct (Nat.ltb_spec l' (List.length mem)); [|lia]. cbn. now rewrite <- app_assoc.
    + unfold segm_mask. destruct (k_src c); auto. destruct (k_mb c); auto. cbn. now rewrite set_nth_length.
Qed.

(** once mask_background=False has been used with a list, the background stays requested *)
Lemma background_sticks mem l h segm j i m : (l < List.length mem)%nat -> existsb (appends l) h = true ->
  fst (segm_mask (after mem h) (AList l) segm true) = Ok (Some m) ->
  px segm j i = 0%Z -> px m j i = true.
Proof.
  intros Hl Hh E Z0.
  assert (HN : (0 < List.length (filter (appends l) h))%nat).
  { apply existsb_exists in Hh as (c & Hc & A). assert (K : In c (filter (appends l) h)) by (apply filter_In; auto).
    destruct (filter (appends l) h); [destruct K|cbn; lia]. }
  assert (IN : In (LInt 0) (nth l (after mem h) [])).
  { rewrite after_list by auto. apply in_or_app. right. destruct (List.length (filter (appends l) h)); [lia|]. now left. }
  destruct (mask_list (after mem h) l segm true) as (m' & E' & _ & _ & H).
  { left. intros C. rewrite C in IN. exact IN. }
  rewrite E in E'. injection E' as <-. apply H. left. exists (LInt 0). rewrite Z0. auto.
Qed.

Lemma background_clean mem l h segm j i m : (l < List.length mem)%nat -> existsb (appends l) h = false ->
  (forall s, In s (nth l mem []) -> s <> LInt 0 /\ s <> LCat 0) ->
  fst (segm_mask (after mem h) (AList l) segm true) = Ok (Some m) ->
  px segm j i = 0%Z -> px m j i = false.
Proof.
  intros Hl Hh Hn E Z0.
  assert (HN : filter (appends l) h = []).
  { clear -Hh. induction h as [|c h IH]; auto. cbn in *. apply orb_false_iff in Hh as [A B]. rewrite A. auto. }
  assert (EL : nth l (after mem h) [] = nth l mem []).
  { rewrite after_list by auto. rewrite HN. cbn. now rewrite app_nil_r. }
  destruct (nth l mem []) as [|s t] eqn:EM.
  { unfold segm_mask in E. rewrite EL in E. discriminate. }
  destruct (mask_list (after mem h) l segm true) as (m' & E' & _ & _ & H).
  { left. rewrite EL. discriminate. }
  rewrite E in E'. injection E' as <-. apply not_true_is_false. intros C. apply H in C.
  rewrite EL in C. destruct C as [(s' & Hs & D)|[_ D]]; [|discriminate]. rewrite Z0 in D.
  destruct (Hn s' Hs). tauto.
Qed.

(** ** order_cat *)
Lemma find_first (table : list (string * list xr)) key c : find (fun c => String.eqb (fst c) key) table = Some c -> fst c = key /\ In c table.
Proof. intros H. apply find_some in H as [H1 H2]. apply String.eqb_eq in H2. auto. Qed.

Lemma order_cat_sorted argsort (table : list (string * list xr)) key keys : sorts argsort ->
  find (fun c => String.eqb (fst c) key) table = Some (key, keys) ->
  forall reverse, exists o, order_cat argsort table key reverse = Ok o /\
    Permutation o (seq 0 (List.length keys)) /\
    forall a b p q, nth_error o a = Some p -> nth_error o b = Some q -> (a < b)%nat ->
      if reverse then key_le (nth q keys NaN) (nth p keys NaN) else key_le (nth p keys NaN) (nth q keys NaN).
Proof.
  intros Hs Hf reverse. destruct (Hs keys) as [Hp Ho]. unfold order_cat. rewrite Hf. cbn [snd]. destruct reverse.
  - exists (rev (argsort keys)). split; auto. split.
    + transitivity (argsort keys); auto. symmetry. apply Permutation_rev.
    + intros a b p q Ha Hb L.
      assert (R : forall n x, nth_error (rev (argsort keys)) n = Some x -> (n < List.length (argsort keys))%nat /\
                   nth_error (argsort keys) (List.length (argsort keys) - S n) = Some x).
      { intros n x Hn. assert (n < List.length (rev (argsort keys)))%nat by (apply nth_error_Some; congruence).
        rewrite rev_length in *. split; auto. rewrite (nth_error_nth' _ 0%nat) in Hn by (rewrite rev_length; auto).
        rewrite rev_nth in Hn by auto. injection Hn as <-. apply nth_error_nth'. lia. }
      destruct (R a p Ha) as [La Ra]. destruct (R b q Hb) as [Lb Rb].
      eapply Ho; [exact Rb|exact Ra|]. lia.
  - exists (argsort keys). split; auto.
Qed.

Lemma order_cat_key argsort (table : list (string * list xr)) key reverse :
  (forall c, In c table -> fst c <> key) -> order_cat argsort table key reverse = Err KeyError.
Proof.
  intros H. unfold order_cat. destruct (find _ table) as [c|] eqn:E; auto. apply find_first in E as [E1 E2].
  now destruct (H c E2).
Qed.

Lemma amplitude (iso : xr -> result xr) (r : pyv xr) x : (r = VFloat x \/ exists z, r = VInt z /\ x = Fin (IZR z)) ->
  (forall a, iso x = Ok a -> get_amplitude_at_r iso r = Ok a) /\
  (forall e, iso x = Err e -> get_amplitude_at_r iso r = Ok NaN).
Proof.
  intros [->|(z & -> & ->)]; unfold get_amplitude_at_r; cbn [to_float bind]; split; intros ? H.
  - now rewrite H.
  - now rewrite H.
  - change (nofZ z) with (Fin (IZR z)). now rewrite H.
  - change (nofZ z) with (Fin (IZR z)). now rewrite H.
Qed.
