(** Proofs about the correction grid: copies, generation, radii, table utilities. *)
From Coq Require Import String Permutation.
From Verif Require Import Base Num Numpy M_Utils L_Numpy M_Petrosian S_Petrosian L_Photometry
  M_Heap S_PetObj L_PetObj M_Correction M_CorHeap S_Correction L_Correction L_Correction2.
Local Open Scope list_scope.

(** ** copies (C30) *)
Section Copies.
  Context {T : Type} {N : Num T} {NL : NumLog T}.
  Variable mk : kind -> list T -> list T -> result (T -> T).
  Implicit Types w : world T.

  Lemma nth_set_obj (l : list (hpetrosian T)) i o k : i < List.length l ->
    nth_error (set_obj l i o) k = if Nat.eqb k i then Some o else nth_error l k.
  Proof.
    unfold set_obj. revert i k. induction l as [|x l IH]; intros i k H; [cbn in H; lia|].
    destruct i as [|i].
    - cbn. destruct k; reflexivity.
    - destruct k as [|k]; [reflexivity|]. cbn [firstn skipn app nth_error Nat.eqb].
      apply IH. cbn in H. lia.
  Qed.

  Lemma length_set_obj (l : list (hpetrosian T)) i o : i < List.length l ->
    List.length (set_obj l i o) = List.length l.
  Proof.
    intros H. unfold set_obj. rewrite app_length, firstn_length. cbn [List.length].
    rewrite skipn_length. lia.
  Qed.

  Lemma see_assign w i a k :
    see (w_assign w i a) k
    = if Nat.eqb k i then option_map (fun p => do_assign p a) (see w i) else see w k.
  Proof.
    unfold see, w_assign. destruct (nth_error (w_objs w) i) as [o|] eqn:E.
    - cbn [w_heap w_objs]. assert (i < List.length (w_objs w)) by (apply nth_error_Some; congruence).
      rewrite nth_set_obj by auto. destruct (Nat.eqb_spec k i) as [->|Hk]; reflexivity.
    - destruct (Nat.eqb_spec k i) as [->|Hk]; cbn; [|reflexivity]. now rewrite E.
  Qed.

  Lemma see_run h : forall w k,
    see (w_run w h) k = option_map (fun p => run mk p (addressed k h)) (see w k).
  Proof.
    induction h as [|[i a] h IH]; intros w k.
    - unfold w_run, addressed. cbn. now destruct (see w k).
    - unfold w_run in *. cbn [fold_left fst snd]. rewrite IH, see_assign.
      unfold addressed. cbn [filter fst]. rewrite (Nat.eqb_sym i k).
      destruct (Nat.eqb_spec k i) as [->|Hk]; [|reflexivity].
      cbn [map]. destruct (see w i); reflexivity.
  Qed.

  Lemma correct_spec c i w p : see w i = Some p ->
    exists r w', w_correct mk c i w = Some (r, w') /\
      (* every object that existed before is unchanged *)
      (forall k, k < List.length (w_objs w) -> see w' k = see w k) /\
      match estimate_epsilon mk c p with
      | Err e => r = Err e
      | Ok e => exists j p', r = Ok j /\ List.length (w_objs w) <= j /\ see w' j = Some p' /\
          correct mk c p = Ok p' /\
          p_data p' = p_data p /\ p_list p' = p_list p /\ p_err p' = p_err p /\
          s_epsilon (p_set p') = e /\
          s_eta (p_set p') = s_eta (p_set p) /\
          s_epsilon_fraction (p_set p') = s_epsilon_fraction (p_set p) /\
          s_total_flux_fraction (p_set p') = s_total_flux_fraction (p_set p) /\
          s_kind (p_set p') = s_kind (p_set p) /\ s_num (p_set p') = s_num (p_set p) /\
          read mk p' A_r_petrosian = read mk p A_r_petrosian /\
          read mk p' A_r_petrosian_err = read mk p A_r_petrosian_err
      end.
  Proof.
    intros Hp. unfold w_correct, w_copy. unfold see in Hp.
    destruct (nth_error (w_objs w) i) as [o|] eqn:E; [|discriminate]. cbn in Hp. injection Hp as <-.
    assert (Hi : i < List.length (w_objs w)) by (apply nth_error_Some; congruence).
    set (w1 := mkworld (w_heap w) (w_objs w ++ [o])).
    assert (S1 : forall k, k < List.length (w_objs w) -> see w1 k = see w k).
    { intros k Hk. unfold see, w1. cbn. now rewrite nth_error_app1. }
    assert (S2 : see w1 (List.length (w_objs w)) = Some (view (w_heap w) o)).
    { unfold see, w1. cbn [w_heap w_objs]. rewrite nth_error_app2 by lia. now rewrite Nat.sub_diag. }
    assert (S3 : see w1 i = Some (view (w_heap w) o)).
    { rewrite S1 by auto. unfold see. now rewrite E. }
    rewrite S3. unfold correct.
    destruct (estimate_epsilon mk c (view (w_heap w) o)) as [e|e] eqn:Ee.
    - eexists _, _. split; [reflexivity|]. split.
      + intros k Hk. rewrite see_assign. destruct (Nat.eqb_spec k (List.length (w_objs w))); [lia|].
        now apply S1.
      + exists (List.length (w_objs w)). eexists. split; [reflexivity|]. split; [lia|].
        split; [rewrite see_assign, Nat.eqb_refl, S2; reflexivity|].
        repeat split.
    - eexists _, _. split; [reflexivity|]. split; auto.
  Qed.

  (** the copy and the original hold the same array references *)
  Lemma correct_shares c i w j w' : w_correct mk c i w = Some (Ok j, w') ->
    exists o o', nth_error (w_objs w') i = Some o /\ nth_error (w_objs w') j = Some o' /\
      h_r o' = h_r o /\ h_area o' = h_area o /\ h_flux o' = h_flux o /\
      h_area_err o' = h_area_err o /\ h_flux_err o' = h_flux_err o /\
      h_list o' = h_list o /\ h_perr o' = h_perr o.
  Proof.
    unfold w_correct, w_copy. destruct (nth_error (w_objs w) i) as [o|] eqn:E; [|discriminate].
    assert (Hi : i < List.length (w_objs w)) by (apply nth_error_Some; congruence).
    set (w1 := mkworld (w_heap w) (w_objs w ++ [o])).
    destruct (see w1 i) as [p|]; [|discriminate].
    destruct (estimate_epsilon mk c p) as [e|]; [|discriminate].
    intros H. injection H as <- <-. exists o. eexists.
    unfold w_assign, w1. cbn [w_objs w_heap].
    assert (K : nth_error (w_objs w ++ [o]) (List.length (w_objs w)) = Some o).
    { rewrite nth_error_app2 by lia. now rewrite Nat.sub_diag. }
    rewrite K. cbn [w_objs].
    assert (L : List.length (w_objs w) < List.length (w_objs w ++ [o])) by (rewrite app_length; cbn; lia).
    rewrite !nth_set_obj by auto. rewrite Nat.eqb_refl.
    destruct (Nat.eqb_spec i (List.length (w_objs w))); [lia|].
    rewrite nth_error_app1 by auto. rewrite E. split; [reflexivity|]. split; [reflexivity|].
    cbn. repeat split.
  Qed.
End Copies.

(** ** generation (C31) *)

Section Sorting.
  Context {A : Type}.

  Lemma insert_pos_perm (x : nat * A) l : Permutation (insert_pos x l) (x :: l).
  Proof.
    induction l as [|y l IH]; cbn; auto. destruct (Nat.leb _ _); auto.
    rewrite IH. constructor.
  Qed.
  Lemma sort_pos_perm (l : list (nat * A)) : Permutation (sort_pos l) l.
  Proof.
    induction l as [|x l IH]; cbn; auto. rewrite insert_pos_perm. now constructor.
  Qed.

  Fixpoint ordered (l : list (nat * A)) : Prop :=
    match l with [] => True | x :: t => (forall y, In y t -> fst x <= fst y) /\ ordered t end.

  Lemma insert_pos_ordered x l : ordered l -> ordered (insert_pos x l).
  Proof.
    induction l as [|y l IH]; cbn; [intros; split; [intros z []|auto]|].
    intros [H1 H2]. destruct (Nat.leb_spec (fst x) (fst y)).
    - cbn. split; [|auto]. intros z [<-|Hz]; [auto|]. specialize (H1 z Hz). lia.
    - cbn. split; [|auto]. intros z Hz.
      apply (Permutation_in z (insert_pos_perm x l)) in Hz. destruct Hz as [<-|Hz]; [lia|auto].
  Qed.
  Lemma sort_pos_ordered (l : list (nat * A)) : ordered (sort_pos l).
  Proof. induction l; cbn; auto. now apply insert_pos_ordered. Qed.

  Lemma ordered_unique (l m : list (nat * A)) :
    ordered l -> ordered m -> NoDup (map fst l) -> Permutation l m -> l = m.
  Proof.
    revert m. induction l as [|x l IH]; intros m Hl Hm Hn Hp.
    - apply Permutation_nil in Hp. now subst.
    - destruct m as [|y m]; [apply Permutation_sym, Permutation_nil in Hp; discriminate|].
      destruct Hl as [Hl1 Hl2]. destruct Hm as [Hm1 Hm2]. cbn in Hn. inversion Hn as [|? ? Hx Hn']; subst.
      assert (E : x = y).
      { assert (I1 : In x (y :: m)) by (apply (Permutation_in x Hp); left; auto).
        assert (I2 : In y (x :: l)) by (apply (Permutation_in y (Permutation_sym Hp)); left; auto).
        destruct I1 as [->|I1]; auto. destruct I2 as [->|I2]; auto.
        specialize (Hl1 y I2). specialize (Hm1 x I1).
        assert (Ef : fst x = fst y) by lia. exfalso. apply Hx. rewrite Ef. now apply in_map. }
      subst y. f_equal. apply IH; auto. now apply Permutation_cons_inv in Hp.
  Qed.

  Lemma ordered_combine k (l : list A) : ordered (combine (seq k (List.length l)) l).
  Proof.
    revert k. induction l as [|x l IH]; intros k; cbn; auto. split; auto.
    intros [i y] Hy. apply in_combine_l in Hy. apply in_seq in Hy. cbn. lia.
  Qed.
  Lemma map_fst_combine {B} (a : list B) (l : list A) : List.length a = List.length l ->
    map fst (combine a l) = a /\ map snd (combine a l) = l.
  Proof.
    revert l. induction a as [|x a IH]; intros [|y l] H; cbn in *; try discriminate; auto.
    destruct (IH l) as [E1 E2]; [lia|]. now rewrite E1, E2.
  Qed.
End Sorting.

Lemma collect_ok {A B} (f : A -> result B) items rows arrived :
  mapM f items = Ok rows ->
  Permutation arrived (combine (seq 0 (List.length items)) (map f items)) ->
  collect arrived = Ok rows.
Proof.
  intros Hm Hp.
  assert (Hl : List.length rows = List.length items) by now apply mapM_nth in Hm.
  assert (E : combine (seq 0 (List.length items)) (map f items)
              = map (fun x => (fst x, Ok (snd x))) (combine (seq 0 (List.length rows)) rows)).
  { rewrite <- Hl. apply mapM_nth in Hm. destruct Hm as [_ Hm].
    apply nth_error_ext. intros i. rewrite nth_error_map.
    assert (C : forall X Y (a : list X) (b : list Y) k, nth_error (combine a b) k
      = match nth_error a k, nth_error b k with Some x, Some y => Some (x, y) | _, _ => None end).
    { intros X Y a. induction a as [|x a IH]; intros [|y b] [|k]; cbn; auto. now destruct (nth_error a k). }
    rewrite !C, nth_error_map. destruct (nth_error items i) as [a|] eqn:Ea.
    - destruct (Hm i a Ea) as (b & Eb & Enb). rewrite Enb. cbn [option_map].
      destruct (nth_error (seq 0 (List.length rows)) i); cbn; [now rewrite Eb|reflexivity].
    - destruct (nth_error (seq 0 (List.length rows)) i) eqn:Es; cbn; auto.
      assert (i < List.length items) by (rewrite <- Hl; rewrite <- (seq_length (List.length rows) 0); apply nth_error_Some; congruence).
      apply nth_error_None in Ea. lia. }
  rewrite E in Hp. apply Permutation_map_inv in Hp. destruct Hp as (L & -> & HL).
  unfold collect.
  assert (M : forall L : list (nat * B),
    mapM (fun x => do v <- snd x; Ok (fst x, v)) (map (fun x => (fst x, Ok (snd x))) L) = Ok L).
  { intros L0. induction L0 as [|[i y] L0 IH]; cbn [map mapM fst snd bind]; auto. now rewrite IH. }
  rewrite M. cbn [bind]. f_equal.
  assert (S : sort_pos L = combine (seq 0 (List.length rows)) rows).
  { apply ordered_unique.
    - apply sort_pos_ordered.
    - apply ordered_combine.
    - apply Permutation_NoDup with (l := map fst (combine (seq 0 (List.length rows)) rows)).
      + apply Permutation_map. rewrite sort_pos_perm. now apply Permutation_sym.
      + destruct (map_fst_combine (seq 0 (List.length rows)) rows) as [-> _]; [now rewrite seq_length|].
        apply seq_NoDup.
    - rewrite sort_pos_perm. now apply Permutation_sym. }
  rewrite S. apply map_fst_combine. now rewrite seq_length.
Qed.

Lemma collect_err {A B} (f : A -> result B) items e arrived :
  mapM f items = Err e ->
  Permutation arrived (combine (seq 0 (List.length items)) (map f items)) ->
  exists e' a, collect arrived = Err e' /\ In a items /\ f a = Err e'.
Proof.
  intros Hm Hp. apply mapM_Err in Hm. destruct Hm as (i & a & Ha & Hf & _).
  assert (Hin : In (i, Err e) arrived).
  { apply (Permutation_in (i, Err e) (Permutation_sym Hp)).
    assert (G : forall k (l : list A) j, nth_error l j = Some a -> In (k + j, f a) (combine (seq k (List.length l)) (map f l))).
    { intros k l. revert k. induction l as [|x l IH]; intros k [|j] Hj; cbn in *; try discriminate.
      - injection Hj as ->. left. f_equal. lia.
      - right. replace (k + S j) with (S k + j) by lia. now apply IH. }
    rewrite <- Hf. apply (G 0 items i Ha). }
  unfold collect.
  destruct (mapM (fun x => do v <- snd x; Ok (fst x, v)) arrived) as [l|e'] eqn:E.
  - exfalso. apply mapM_nth in E. destruct E as [_ E]. apply In_nth_error in Hin.
    destruct Hin as (k & Hk). destruct (E k _ Hk) as (b & Eb & _). cbn in Eb. discriminate.
  - apply mapM_Err in E. destruct E as (k & [j r] & Hk & He & _). cbn in He.
    destruct r as [v|e'']; [discriminate|]. cbn in He. injection He as ->.
    assert (I : In (j, Err e') (combine (seq 0 (List.length items)) (map f items))).
    { apply (Permutation_in _ Hp). eapply nth_error_In; eauto. }
    apply in_combine_r in I. apply in_map_iff in I. destruct I as (b & Eb & Ib).
    exists e', b. auto.
Qed.

Section Gen.
  Context {T : Type} {N : Num T}.
  Variable job : T -> T -> result (list T).

  Lemma nth_gen_args (ns rs : list T) i j n r :
    nth_error ns i = Some n -> nth_error rs j = Some r ->
    nth_error (gen_args ns rs) (i * List.length rs + j) = Some (r, n).
  Proof.
    unfold gen_args. revert i. induction ns as [|m ns IH]; intros [|i] Hi Hj; cbn in Hi; try discriminate.
    - injection Hi as ->. cbn [flat_map]. rewrite nth_error_app1.
      + cbn. now rewrite nth_error_map, Hj.
      + rewrite map_length. cbn. apply nth_error_Some. congruence.
    - cbn [flat_map]. rewrite nth_error_app2; rewrite map_length; [|cbn; lia].
      replace (S i * List.length rs + j - List.length rs) with (i * List.length rs + j) by (cbn; lia).
      auto.
  Qed.
  Lemma length_gen_args (ns rs : list T) : List.length (gen_args ns rs) = List.length ns * List.length rs.
  Proof.
    unfold gen_args. induction ns; cbn; auto. now rewrite app_length, map_length, IHns.
  Qed.

  Lemma gen_serial ns rs c plot schedule write t :
    serial c = true \/ plot = false ->
    (forall l, Permutation (schedule l) l) ->
    generate job ns rs c plot schedule write = Ok t ->
    generate job ns rs CNone plot schedule write = Ok t.
  Proof.
    intros Hc Hs. unfold generate. cbn [serial]. destruct (serial c) eqn:Es; auto.
    destruct Hc as [Hc| ->]; [discriminate|]. cbn [negb assert_].
    intros H. apply bind_Ok in H. destruct H as (rows & Hr & H).
    enough (E : mapM (fun a => job (fst a) (snd a)) (gen_args (map nround6 ns) rs) = Ok rows) by now rewrite E.
    unfold progress_map in Hr.
    assert (K : forall l, l = combine (seq 0 (List.length (gen_args (map nround6 ns) rs)))
        (map (fun a => job (fst a) (snd a)) (gen_args (map nround6 ns) rs)) ->
      collect (schedule l) = Ok rows ->
      mapM (fun a => job (fst a) (snd a)) (gen_args (map nround6 ns) rs) = Ok rows).
    { intros l El Hl. pose proof (Hs l) as P. rewrite El in P at 2.
      destruct (mapM (fun a => job (fst a) (snd a)) (gen_args (map nround6 ns) rs)) as [rows'|e] eqn:E.
      - rewrite (collect_ok _ _ _ _ E P) in Hl. congruence.
      - destruct (collect_err _ _ _ _ E P) as (e' & a & E1 & _). congruence. }
    destruct c as [|[]|[|z|z]]; try discriminate; eauto.
  Qed.

  Lemma serial_gen ns rs c schedule write t :
    match c with CInt z => (0 <= z)%Z | _ => True end ->
    (forall l, Permutation (schedule l) l) ->
    generate job ns rs CNone false schedule write = Ok t ->
    generate job ns rs c false schedule write = Ok t.
  Proof.
    intros Hc Hs. unfold generate. cbn [serial negb assert_].
    intros H. apply bind_Ok in H. destruct H as (rows & Hr & H).
    destruct (serial c) eqn:Es; [now rewrite Hr|].
    enough (E : progress_map c schedule (fun a => job (fst a) (snd a)) (gen_args (map nround6 ns) rs) = Ok rows)
      by now rewrite E.
    unfold progress_map. destruct c as [|[]|[|z|z]]; try discriminate; auto; try lia.
    apply (collect_ok _ _ _ _ Hr (Hs _)).
  Qed.

  Lemma gen_rows ns rs c plot schedule write t :
    serial c = true \/ plot = false ->
    (forall l, Permutation (schedule l) l) ->
    generate job ns rs c plot schedule write = Ok t ->
    t_names t = column_names /\
    List.length (t_rows t) = List.length ns * List.length rs /\
    (forall row, In row (t_rows t) -> List.length row = List.length column_names) /\
    forall i j n r, nth_error ns i = Some n -> nth_error rs j = Some r ->
      exists row, nth_error (t_rows t) (i * List.length rs + j) = Some row /\
        job r (nround6 n) = Ok row.
  Proof.
    intros Hc Hs H. apply gen_serial in H; auto. unfold generate in H. cbn [serial] in H.
    apply bind_Ok in H. destruct H as (rows & Hr & H). apply bind_Ok in H. destruct H as (t' & Ht & H).
    assert (t' = t) by (destruct (write t'); congruence). subst t'.
    unfold Table_rows in Ht. destruct (forallb _ rows) eqn:Ef; [|discriminate]. injection Ht as <-.
    cbn [t_names t_rows]. apply mapM_nth in Hr. destruct Hr as [Hl Hr].
    split; auto. split; [rewrite Hl, length_gen_args, map_length; auto|]. split.
    - rewrite forallb_forall in Ef. intros row Hin. apply Ef in Hin. now apply Nat.eqb_eq in Hin.
    - intros i j n r Hi Hj.
      destruct (Hr (i * List.length rs + j) (r, nround6 n)) as (row & E1 & E2).
      + apply nth_gen_args; auto. now rewrite nth_error_map, Hi.
      + eauto.
  Qed.

  Lemma gen_plot ns rs c schedule write :
    serial c = false -> generate job ns rs c true schedule write = Err AssertionError.
  Proof. intros H. unfold generate. now rewrite H. Qed.

  Lemma gen_write ns rs c plot schedule w1 w2 :
    generate job ns rs c plot schedule w1 = generate job ns rs c plot schedule w2.
  Proof.
    unfold generate.
    assert (X : forall (m : result (list (list T))) (f g : list (list T) -> result (table T)),
      (forall x, f x = g x) -> bind m f = bind m g) by (intros [] f g E; cbn; auto).
    apply X. intros x. destruct (Table_rows x column_names) as [t|]; cbn; auto.
    destruct (w1 t), (w2 t); reflexivity.
  Qed.
End Gen.
