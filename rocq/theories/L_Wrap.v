(** Proofs about default bounds and wrapping. *)
From Coq Require Import String.
From Verif Require Import Base Num M_Wrap S_Wrap.
Local Open Scope string_scope.
Local Open Scope list_scope.

Lemma replace_nth_length {A} (l : list A) k v : List.length (replace_nth l k v) = List.length l.
Proof. revert k. induction l; intros [|k]; cbn; auto. Qed.
Lemma nth_replace_ne {A} (l : list A) k v d j : j <> k -> nth j (replace_nth l k v) d = nth j l d.
Proof. revert k j. induction l; intros [|k] [|j] H; cbn; auto; try lia. Qed.
Lemma nth_error_replace_ne {A} (l : list A) k v j : j <> k -> nth_error (replace_nth l k v) j = nth_error l j.
Proof. revert k j. induction l; intros [|k] [|j] H; cbn; auto; try lia. Qed.
Lemma nth_error_replace_eq {A} (l : list A) k v : (k < List.length l)%nat -> nth_error (replace_nth l k v) k = Some v.
Proof. revert k. induction l; intros [|k] H; cbn in *; auto; try lia. apply IHl. lia. Qed.
Lemma nth_replace_eq {A} (l : list A) k v d : (k < List.length l)%nat -> nth k (replace_nth l k v) d = v.
Proof. revert k. induction l; intros [|k] H; cbn in *; auto; try lia. apply IHl. lia. Qed.
Lemma replace_last {A} (l : list A) x v : replace_nth (l ++ [x]) (List.length l) v = l ++ [v].
Proof. induction l; cbn; congruence. Qed.
Lemma nth_last {A} (l : list A) x d : nth (List.length l) (l ++ [x]) d = x.
Proof. induction l; cbn; auto. Qed.

(** ** Dictionaries *)
Section Dict.
  Context {V : Type}.
  Implicit Types (d o : dict V) (k : string).
  Lemma dget_dset d k v k' : dget (dset d k v) k' = if String.eqb k' k then Some v else dget d k'.
  Proof.
    induction d as [|[a b] d IH]; cbn [dset dget].
    - destruct (String.eqb_spec k' k); auto.
    - destruct (String.eqb_spec k a) as [->|N]; cbn [dget].
      + destruct (String.eqb_spec k' a); auto.
      + destruct (String.eqb_spec k' a) as [->|N']; [destruct (String.eqb_spec a k); congruence|exact IH].
  Qed.

  Lemma dset_keys d k v : map fst (dset d k v) = map fst d \/ (~ In k (map fst d) /\ map fst (dset d k v) = map fst d ++ [k]).
  Proof.
    induction d as [|[a b] d IH]; cbn [dset map fst].
    - right. split; [intros []|reflexivity].
    - destruct (String.eqb_spec k a) as [->|N]; cbn [map fst]; [now left|].
      destruct IH as [->|[H ->]]; [now left|]. right. split; [|reflexivity]. intros [E|E]; [congruence|tauto].
  Qed.

  Lemma dset_unique d k v : unique_keys d -> unique_keys (dset d k v).
  Proof.
    intros H. unfold unique_keys in *. destruct (dset_keys d k v) as [->|[N ->]]; auto.
    clear v. induction (map fst d) as [|a l IH]; cbn; [constructor; [intros []|constructor]|].
    inversion H; subst. constructor.
    - rewrite in_app_iff. cbn. intros [E|[E|[]]]; [tauto|]. subst. apply N. now left.
    - apply IH; auto. intros E. apply N. now right.
  Qed.

  Lemma dupdate_unique o : forall d, unique_keys d -> unique_keys (dupdate d o).
  Proof. induction o as [|[k v] o IH]; intros d H; auto. cbn. apply IH. now apply dset_unique. Qed.

  Lemma dget_none d k : ~ In k (map fst d) -> dget d k = None.
  Proof.
    induction d as [|[a b] d IH]; auto. cbn. intros H. destruct (String.eqb_spec k a) as [->|N]; [exfalso; apply H; now left|].
    apply IH. tauto.
  Qed.

  Lemma dget_dupdate o : forall d k, unique_keys o -> dget (dupdate d o) k = override_or (dget o k) (dget d k).
  Proof.
    induction o as [|[a v] o IH]; intros d k H; [reflexivity|]. unfold unique_keys in H. cbn [map fst] in H. inversion H; subst.
    unfold dupdate in *. cbn [fold_left fst snd]. rewrite IH by assumption. rewrite dget_dset. cbn [dget].
    destruct (String.eqb_spec k a) as [->|N]; [|reflexivity]. now rewrite dget_none.
  Qed.
End Dict.

(** ** Default bounds *)
Section Bounds.
  Context {T : Type} {N : Num T}.
  Variable pi : T.

  Lemma sersic_literal_get k : dget (sersic_literal pi) k = default_bounds pi false k.
  Proof. reflexivity. Qed.

  Lemma gen_literal_get k :
    dget (dset (sersic_literal pi) "c_0" (Some n0, Some n2)) k = default_bounds pi true k.
  Proof.
    rewrite dget_dset, sersic_literal_get. unfold default_bounds. cbn [andb].
    destruct (String.eqb_spec k "c_0") as [->|Nk]; [reflexivity|].
    repeat match goal with |- context [String.eqb k ?s] => destruct (String.eqb k s); [reflexivity|] end. reflexivity.
  Qed.

  Definition heap_ok (h : bheap (T:=T)) : Prop :=
    (2 <= List.length h)%nat /\ nth 0 h [] = [] /\ nth 1 h [] = [] /\ forall k, unique_keys (nth k h []).

  Lemma call_spec h gen ov : heap_ok h -> (match ov with None => True | Some k => (2 <= k)%nat end) ->
    exists d, bcall pi h gen ov = (h ++ [d], List.length h) /\ unique_keys d /\
      forall k, dget d k = override_or (match ov with None => None | Some j => dget (nth j h []) k end) (default_bounds pi gen k).
  Proof.
    intros (H1 & H2 & H3 & H4) Hov.
    assert (U : unique_keys (sersic_literal pi)).
    { unfold unique_keys. cbn. repeat constructor; cbn; intuition discriminate. }
    destruct gen; unfold bcall.
    - unfold get_default_gen_sersic_bounds, get_default_sersic_bounds. rewrite H2. cbn [dupdate fold_left].
      rewrite nth_last, replace_last.
      set (o := nth _ (h ++ _) []).
      assert (Uo : unique_keys o /\ forall k, dget o k = match ov with None => None | Some j => dget (nth j h []) k end \/ (exists j, ov = Some j /\ (List.length h <= j)%nat)).
      { unfold o. destruct ov as [j|].
        - destruct (Nat.lt_ge_cases j (List.length h)) as [L|L].
          + rewrite app_nth1 by auto. split; auto.
          + split; [|eauto]. destruct (Nat.eq_dec j (List.length h)) as [->|Nj]; [now rewrite nth_last|].
            rewrite nth_overflow by (rewrite app_length; cbn; lia). constructor.
        - rewrite app_nth1 by lia. rewrite H3. split; [constructor|]. auto. }
      destruct Uo as [Uo Go].
      eexists. split; [reflexivity|]. split; [apply dupdate_unique, dset_unique; auto|].
      intros k. rewrite dget_dupdate by auto. rewrite gen_literal_get.
      destruct (Go k) as [->|(j & -> & L)]; [reflexivity|].
      rewrite (nth_overflow h) by auto. unfold o. destruct (Nat.eq_dec j (List.length h)) as [->|Nj].
      + rewrite nth_last. cbn [override_or dget]. rewrite sersic_literal_get. unfold default_bounds.
        repeat match goal with |- context [String.eqb k ?s] => destruct (String.eqb k s); [reflexivity|] end. reflexivity.
      + rewrite nth_overflow by (rewrite app_length; cbn; lia). reflexivity.
    - unfold get_default_sersic_bounds. eexists. split; [reflexivity|]. split; [now apply dupdate_unique|].
      intros k. rewrite dget_dupdate by auto. rewrite sersic_literal_get. destruct ov; auto. now rewrite H2.
  Qed.

  Lemma step_heap_ok h o : program_op o -> heap_ok h -> heap_ok (bstep pi h o).
  Proof.
    intros P H. pose proof H as (H1 & H2 & H3 & H4).
    assert (App : forall d, unique_keys d -> heap_ok (h ++ [d])).
    { intros d Ud. split; [rewrite app_length; lia|]. rewrite !app_nth1 by lia. split; auto. split; auto.
      intros k. destruct (Nat.lt_ge_cases k (List.length h)) as [L|L]; [rewrite app_nth1 by auto; auto|].
      destruct (Nat.eq_dec k (List.length h)) as [->|Nk]; [now rewrite nth_last|].
      rewrite nth_overflow by (rewrite app_length; cbn; lia). constructor. }
    destruct o as [g ov|d|k d]; cbn [bstep].
    - destruct (call_spec h g ov H) as (d & -> & U & _); [destruct ov; auto|]. cbn [fst]. auto.
    - auto.
    - destruct P as [P1 P2]. split; [now rewrite replace_nth_length|]. rewrite !nth_replace_ne by lia. split; auto. split; auto.
      intros j. destruct (Nat.eq_dec j k) as [->|Nj]; [|now rewrite nth_replace_ne].
      destruct (Nat.lt_ge_cases k (List.length h)) as [L|L]; [now rewrite nth_replace_eq|].
      rewrite nth_overflow by (rewrite replace_nth_length; lia). constructor.
  Qed.

  Lemma run_heap_ok l : forall h, Forall program_op l -> heap_ok h -> heap_ok (brun pi h l).
  Proof. induction l as [|o l IH]; intros h P H; auto. inversion P; subst. cbn. apply IH; auto. now apply step_heap_ok. Qed.

  Lemma init_ok : heap_ok binit.
  Proof. split; [cbn; lia|]. split; auto. split; auto. intros [|[|[|k]]]; constructor. Qed.

  (** C47 *)
  Lemma bounds_fresh l gen ov : Forall program_op l -> (match ov with None => True | Some k => (2 <= k)%nat end) ->
    let h := brun pi binit l in
    exists d, bcall pi h gen ov = (h ++ [d], List.length h) /\
      forall k, dget d k = override_or (match ov with None => None | Some j => dget (nth j h []) k end) (default_bounds pi gen k).
  Proof.
    intros P Q. cbv zeta. destruct (call_spec (brun pi binit l) gen ov) as (d & E & _ & G); eauto.
    apply run_heap_ok; auto. apply init_ok.
  Qed.
End Bounds.

(** ** Wrapping *)
Section Wrap.
  Context {T : Type} {N : Num T} {tied : Type}.
  Notation param := (param (T:=T) tied).
  Notation table := (table (T:=T) tied).
  Notation oheap := (oheap (T:=T) tied).

  Lemma lookup_in (t : table) s p : lookup _ t s = Some p -> In p t /\ pa_name _ p = s.
  Proof.
    induction t as [|q t IH]; cbn; [discriminate|]. destruct (String.eqb_spec s (pa_name _ q)) as [E|E].
    - intros H. apply Some_inj in H. subst. auto.
    - intros H. destruct (IH H). auto.
  Qed.

  Lemma in_lookup (t : table) p : NoDup (names _ t) -> In p t -> lookup _ t (pa_name _ p) = Some p.
  Proof.
    induction t as [|q t IH]; cbn; [intros _ []|]. intros H [->|I].
    - now rewrite String.eqb_refl.
    - inversion H; subst. destruct (String.eqb_spec (pa_name _ p) (pa_name _ q)) as [E|E]; auto.
      exfalso. apply H2. rewrite <- E. now apply in_map.
  Qed.

  Lemma upd_names (t : table) s f : (forall p, pa_name _ (f p) = pa_name _ p) -> names _ (upd _ t s f) = names _ t.
  Proof.
    intros H. unfold names, upd. rewrite map_map. apply map_ext. intros p. destruct (String.eqb _ _); auto.
  Qed.

  Definition keeps {V} (set : V -> param -> param) : Prop := forall v p, pa_name _ (set v p) = pa_name _ p.

  Lemma apply_all_spec {V} (set : V -> param -> param) (d : dict V) : keeps set -> unique_keys d ->
    forall t : table, (forall k, In k (map fst d) -> In k (names _ t)) ->
    apply_all _ set t d = Ok (map (fun p => match dget d (pa_name _ p) with Some v => set v p | None => p end) t).
  Proof.
    intros K. unfold apply_all. induction d as [|[a v] d IH]; intros U t H; cbn [fold_left].
    - cbn. f_equal. symmetry. apply map_id.
    - inversion U; subst. cbn [bind fst snd].
      assert (E : existsb (String.eqb a) (names _ t) = true).
      { apply existsb_exists. exists a. split; [apply H; now left|apply String.eqb_refl]. }
      rewrite E. rewrite IH; auto.
      + f_equal. unfold upd. rewrite map_map. apply map_ext. intros p.
        destruct (String.eqb_spec a (pa_name _ p)) as [->|Na]; cbn [dget].
        * rewrite K, String.eqb_refl. now rewrite dget_none.
        * destruct (String.eqb_spec (pa_name _ p) a); [congruence|reflexivity].
      + intros k Hk. rewrite upd_names; [apply H; now right|]. intros p. apply K.
  Qed.

  Lemma keeps_value : keeps (set_value tied (T:=T)). Proof. now intros v p. Qed.
  Lemma keeps_fixed : keeps (set_fixed tied (T:=T)). Proof. now intros v p. Qed.
  Lemma keeps_bounds : keeps (set_bounds tied (T:=T)). Proof. now intros v p. Qed.
  Lemma keeps_tied : keeps (set_tied tied (T:=T)). Proof. now intros v p. Qed.

  Lemma keys_fixed (t : table) : map fst (fixed_dict _ t) = names _ t.
  Proof. unfold fixed_dict, names. rewrite map_map. reflexivity. Qed.
  Lemma keys_bounds (t : table) : map fst (bounds_dict _ t) = names _ t.
  Proof. unfold bounds_dict, names. rewrite map_map. reflexivity. Qed.

  Lemma get_fixed (t : table) s : dget (fixed_dict _ t) s = option_map (pa_fixed _) (lookup _ t s).
  Proof. induction t as [|p t IH]; auto. cbn. destruct (String.eqb _ _); auto. Qed.
  Lemma get_bounds (t : table) s : dget (bounds_dict _ t) s = option_map (pa_bounds _) (lookup _ t s).
  Proof. induction t as [|p t IH]; auto. cbn. destruct (String.eqb _ _); auto. Qed.

  Lemma lookup_none (t : table) s : ~ In s (names _ t) -> lookup _ t s = None.
  Proof.
    induction t as [|p t IH]; auto. cbn. intros H. destruct (String.eqb_spec s (pa_name _ p)) as [->|]; [tauto|]. apply IH. tauto.
  Qed.

  Lemma load_names (t : table) : names _ (load_parameters _ t) = names _ t ++ [psf_pa].
  Proof. unfold load_parameters, names. rewrite map_app, map_map. reflexivity. Qed.

  Lemma nodup_app_psf (l : list string) : NoDup l -> ~ In psf_pa l -> NoDup (l ++ [psf_pa]).
  Proof.
    intros H1 H2.
    induction l as [|a l IH]; cbn; [constructor; [intros []|constructor]|]. inversion H1; subst. constructor.
    - rewrite in_app_iff. cbn. intros [E|[E|[]]]; [tauto|]. subst. apply H2. now left.
    - apply IH; auto. intros E. apply H2. now right.
  Qed.

  (** C45, wrapping without keyword arguments *)
  Lemma wrap_plain (h : oheap) k t : nth_error h k = Some (Plain _ t) -> NoDup (names _ t) -> ~ In psf_pa (names _ t) ->
    wrap _ h k (no_kwargs _) =
      Ok (h ++ [Wrapped _ k (map untied t ++ [fresh_param _ psf_pa n0])], List.length h).
  Proof.
    intros E U P. unfold wrap. rewrite E.
    destruct (existsb (String.eqb psf_pa) (names _ t)) eqn:Ex.
    { apply existsb_exists in Ex as (x & Hx & Ex). apply String.eqb_eq in Ex. subst. tauto. }
    cbn [no_kwargs kw_fixed kw_bounds kw_values kw_tied apply_all fold_left bind].
    rewrite apply_all_spec; [|apply keeps_fixed|unfold unique_keys; now rewrite keys_fixed|].
    2:{ intros s Hs. rewrite keys_fixed in Hs. rewrite load_names. apply in_or_app. now left. }
    cbn [bind]. set (t1 := map _ (load_parameters _ t)).
    assert (N1 : names _ t1 = names _ t ++ [psf_pa]).
    { unfold t1, names at 1. rewrite map_map. rewrite <- load_names. unfold names. apply map_ext.
      intros p. destruct (dget _ _); reflexivity. }
    rewrite apply_all_spec; [|apply keeps_bounds|unfold unique_keys; now rewrite keys_bounds|].
    2:{ intros s Hs. rewrite keys_bounds in Hs. rewrite N1. apply in_or_app. now left. }
    cbn [bind]. do 5 f_equal. unfold t1. rewrite map_map. unfold load_parameters. rewrite map_app, map_map.
    f_equal.
    - apply map_ext_in. intros p Hp. cbn [fresh_param pa_name pa_value pa_fixed pa_bounds].
      rewrite get_fixed, (in_lookup t p) by auto. cbn [option_map].
      cbn [set_fixed fresh_param pa_name]. rewrite get_bounds, (in_lookup t p) by auto. reflexivity.
    - cbn [map fresh_param pa_name]. rewrite get_fixed, lookup_none by auto. cbn [option_map pa_name fresh_param].
      rewrite get_bounds, lookup_none by auto. reflexivity.
  Qed.

  (** giving the fixed (bounds) keyword drops the sub-model's fixed flags (bounds) *)
  Lemma wrap_fixed_keyword (h : oheap) k t d : nth_error h k = Some (Plain _ t) -> NoDup (names _ t) -> ~ In psf_pa (names _ t) ->
    unique_keys d -> (forall s, In s (map fst d) -> In s (names _ t) \/ s = psf_pa) ->
    exists t', wrap _ h k (mkkw _ [] (Some d) None []) = Ok (h ++ [Wrapped _ k t'], List.length h) /\
      names _ t' = names _ t ++ [psf_pa] /\
      forall p, In p t' -> pa_fixed _ p = match dget d (pa_name _ p) with Some b => b | None => false end.
  Proof.
    intros E U P Ud Hd. unfold wrap. rewrite E.
    destruct (existsb (String.eqb psf_pa) (names _ t)) eqn:Ex.
    { apply existsb_exists in Ex as (x & Hx & Ex). apply String.eqb_eq in Ex. subst. tauto. }
    cbn [kw_fixed kw_bounds kw_values kw_tied].
    rewrite apply_all_spec; [|apply keeps_fixed|auto|].
    2:{ intros s Hs. rewrite load_names. apply in_or_app. destruct (Hd s Hs) as [I| ->]; [now left|right; now left]. }
    cbn [bind apply_all fold_left]. set (t1 := map _ (load_parameters _ t)).
    assert (N1 : names _ t1 = names _ t ++ [psf_pa]).
    { unfold t1, names at 1. rewrite map_map. rewrite <- load_names. unfold names. apply map_ext.
      intros p. destruct (dget _ _); reflexivity. }
    rewrite apply_all_spec; [|apply keeps_bounds|unfold unique_keys; now rewrite keys_bounds|].
    2:{ intros s Hs. rewrite keys_bounds in Hs. rewrite N1. apply in_or_app. now left. }
    cbn [bind]. eexists. split; [reflexivity|]. split.
    - rewrite <- N1. unfold names. rewrite map_map. apply map_ext. intros p. destruct (dget _ _); reflexivity.
    - intros p Hp. apply in_map_iff in Hp as (q & <- & Hq).
      assert (F1 : pa_fixed _ q = match dget d (pa_name _ q) with Some b => b | None => false end).
      { unfold t1 in Hq. apply in_map_iff in Hq as (r & <- & Hr).
        assert (Fr : pa_fixed _ r = false).
        { unfold load_parameters in Hr. apply in_app_or in Hr as [Hr|[<-|[]]]; [|reflexivity]. apply in_map_iff in Hr as (? & <- & _). reflexivity. }
        destruct (dget d (pa_name _ r)) eqn:Eg; cbn [set_fixed pa_name pa_fixed]; now rewrite Eg. }
      destruct (dget (bounds_dict _ t) (pa_name _ q)); cbn [set_bounds pa_fixed pa_name]; auto.
  Qed.

  (** heap invariant: plain tables have distinct names; a wrapper has its sub-model's names and psf_pa *)
  Definition wheap_ok (h : oheap) : Prop :=
    forall k o, nth_error h k = Some o ->
      match o with
      | Plain _ t => NoDup (names _ t)
      | Wrapped _ s t => exists t0, nth_error h s = Some (Plain _ t0) /\ names _ t = names _ t0 ++ [psf_pa] /\ ~ In psf_pa (names _ t0)
      end.

  Lemma apply_all_names {V} (set : V -> param -> param) (d : dict V) : keeps set -> forall r t',
    fold_left (fun r kv => do t <- r; if existsb (String.eqb (fst kv)) (names _ t) then Ok (upd _ t (fst kv) (set (snd kv))) else Err AttributeError) d r = Ok t' ->
    exists t, r = Ok t /\ names _ t' = names _ t.
  Proof.
    intros K. induction d as [|[a v] d IH]; intros r t' H; cbn [fold_left] in H.
    - eauto.
    - apply IH in H as (t1 & H1 & H2). apply bind_Ok in H1 as (t & -> & H1). cbn [fst snd] in H1.
      destruct (existsb _ _) in H1; [|discriminate]. apply Ok_inj in H1. subst t1.
      exists t. split; auto. rewrite H2. apply upd_names. intros p. apply K.
  Qed.
  Lemma apply_all_names' {V} (set : V -> param -> param) (d : dict V) t t' : keeps set -> apply_all _ set t d = Ok t' -> names _ t' = names _ t.
  Proof.
    intros K H. destruct (apply_all_names set d K _ _ H) as (t1 & E & ->). apply Ok_inj in E. now subst.
  Qed.

  Lemma wrap_shape (h h' : oheap) k kw i : wrap _ h k kw = Ok (h', i) ->
    exists t t', nth_error h k = Some (Plain _ t) /\ h' = h ++ [Wrapped _ k t'] /\ i = List.length h /\
      names _ t' = names _ t ++ [psf_pa] /\ ~ In psf_pa (names _ t).
  Proof.
    unfold wrap. destruct (nth_error h k) as [[t|]|]; try discriminate.
    destruct (existsb (String.eqb psf_pa) (names _ t)) eqn:Ex; [discriminate|]. intros H.
    apply bind_Ok in H as (t1 & H1 & H). apply bind_Ok in H as (t2 & H2 & H). apply bind_Ok in H as (t3 & H3 & H).
    apply bind_Ok in H as (t4 & H4 & H). apply bind_Ok in H as (t5 & H5 & H). apply bind_Ok in H as (t6 & H6 & H).
    apply Ok_inj in H. injection H as <- <-.
    apply apply_all_names' in H1; [|apply keeps_fixed]. apply apply_all_names' in H2; [|apply keeps_bounds].
    apply apply_all_names' in H3; [|apply keeps_tied]. apply apply_all_names' in H4; [|apply keeps_value].
    assert (N5 : names _ t5 = names _ t4).
    { destruct (kw_fixed _ kw); [apply Ok_inj in H5; now subst|]. apply apply_all_names' in H5; [auto|apply keeps_fixed]. }
    assert (N6 : names _ t6 = names _ t5).
    { destruct (kw_bounds _ kw); [apply Ok_inj in H6; now subst|]. apply apply_all_names' in H6; [auto|apply keeps_bounds]. }
    exists t, t6. split; auto. split; auto. split; auto. split; [|].
    - rewrite N6, N5, H4, H3, H2, H1. apply load_names.
    - intros I. assert (existsb (String.eqb psf_pa) (names _ t) = true); [|congruence].
      apply existsb_exists. exists psf_pa. split; auto.
  Qed.

  (** the copy of a parameter that .model returns *)
  Definition current (t : table) (p : param) : param :=
    match lookup _ t (pa_name _ p) with
    | Some q => mkparam tied (pa_name _ p) (pa_value _ q) (pa_fixed _ q) (pa_bounds _ q) (pa_tied _ p)
    | None => p
    end.

  Lemma lookup_app_l (t1 t2 : table) s : In s (names _ t1) -> lookup _ (t1 ++ t2) s = lookup _ t1 s.
  Proof.
    induction t1 as [|p t1 IH]; cbn; [intros []|]. intros H. destruct (String.eqb_spec s (pa_name _ p)); auto.
    apply IH. destruct H; [congruence|auto].
  Qed.

  Lemma lookup_some (t : table) s : In s (names _ t) -> exists q, lookup _ t s = Some q /\ pa_name _ q = s.
  Proof.
    induction t as [|p t IH]; cbn; [intros []|]. intros H. destruct (String.eqb_spec s (pa_name _ p)) as [E|E]; [eauto|].
    apply IH. destruct H; [congruence|auto].
  Qed.

  Lemma values_spec (t : table) (l : table) : (forall p, In p l -> In (pa_name _ p) (names _ t)) -> NoDup (names _ l) ->
    forall t0 : table, fold_left (fun r p => do t' <- r;
                       match lookup _ t (pa_name _ p) with
                       | Some q => Ok (upd _ t' (pa_name _ p) (set_value _ (pa_value _ q)))
                       | None => Err AttributeError
                       end) l (Ok t0) =
      Ok (map (fun p => if existsb (String.eqb (pa_name _ p)) (names _ l)
                        then match lookup _ t (pa_name _ p) with Some q => set_value _ (pa_value _ q) p | None => p end else p) t0).
  Proof.
    induction l as [|a l IH]; intros H U t0; cbn [fold_left].
    - cbn. f_equal. symmetry. apply map_id.
    - inversion U; subst. destruct (lookup_some t (pa_name _ a)) as (q & Eq & _); [apply H; now left|].
      cbn [bind]. rewrite Eq. rewrite IH; auto; [|intros; apply H; now right].
      f_equal. unfold upd. rewrite map_map. apply map_ext. intros p. cbn [names map existsb].
      destruct (String.eqb_spec (pa_name _ a) (pa_name _ p)) as [E|E].
      + cbn [set_value pa_name]. rewrite <- E in *. rewrite String.eqb_refl. cbn [orb].
        rewrite Eq. destruct (existsb _ _); reflexivity.
      + destruct (String.eqb_spec (pa_name _ p) (pa_name _ a)); [congruence|]. reflexivity.
  Qed.

  Lemma ddel_get {V} (d : dict V) s s' : s' <> s -> dget (ddel d s) s' = dget d s'.
  Proof.
    intros H. unfold ddel. induction d as [|[a v] d IH]; auto. cbn. destruct (String.eqb_spec s a) as [->|E]; cbn [negb].
    - rewrite IH. destruct (String.eqb_spec s' a); [congruence|reflexivity].
    - cbn [dget]. now rewrite IH.
  Qed.
  Lemma ddel_keys {V} (d : dict V) s k : In k (map fst (ddel d s)) -> In k (map fst d) /\ k <> s.
  Proof.
    unfold ddel. induction d as [|[a v] d IH]; cbn; [tauto|]. destruct (String.eqb_spec s a) as [->|E]; cbn.
    - intros H. destruct (IH H). auto.
    - intros [->|H]; [auto|]. destruct (IH H); auto.
  Qed.
  Lemma ddel_unique {V} (d : dict V) s : unique_keys d -> unique_keys (ddel d s).
  Proof.
    unfold unique_keys. induction d as [|[a v] d IH]; cbn; auto. intros H. inversion H; subst.
    destruct (String.eqb s a); cbn; auto. constructor; auto. intros I. apply ddel_keys in I. tauto.
  Qed.

  Lemma unwrap_spec (h : oheap) k s t : wheap_ok h -> nth_error h k = Some (Wrapped _ s t) ->
    exists t0, nth_error h s = Some (Plain _ t0) /\
      unwrap _ h k = Ok (h ++ [Plain _ (map (current t) t0)], List.length h).
  Proof.
    intros W E. pose proof (W _ _ E) as (t0 & E0 & Nt & Np). exists t0. split; auto.
    pose proof (W _ _ E0) as U. unfold unwrap. rewrite E, E0.
    assert (Sub : forall p, In p t0 -> In (pa_name _ p) (names _ t)).
    { intros p Hp. rewrite Nt. apply in_or_app. left. now apply in_map. }
    assert (Ut : NoDup (names _ t)) by (rewrite Nt; now apply nodup_app_psf).
    rewrite values_spec by auto. cbn [bind]. set (t1 := map _ t0).
    assert (N1 : names _ t1 = names _ t0).
    { unfold t1, names. rewrite map_map. apply map_ext. intros p. destruct (existsb _ _); auto. destruct (lookup _ _ _); auto. }
    rewrite apply_all_spec; [|apply keeps_fixed|apply ddel_unique; unfold unique_keys; now rewrite keys_fixed|].
    2:{ intros x Hx. apply ddel_keys in Hx as [Hx Nx]. rewrite keys_fixed, Nt in Hx. rewrite N1.
        apply in_app_or in Hx as [Hx|[Hx|[]]]; [auto|congruence]. }
    cbn [bind]. set (t2 := map _ t1).
    assert (N2 : names _ t2 = names _ t0).
    { rewrite <- N1. unfold t2, names. rewrite map_map. apply map_ext. intros p. destruct (dget _ _); auto. }
    rewrite apply_all_spec; [|apply keeps_bounds|apply ddel_unique; unfold unique_keys; now rewrite keys_bounds|].
    2:{ intros x Hx. apply ddel_keys in Hx as [Hx Nx]. rewrite keys_bounds, Nt in Hx. rewrite N2.
        apply in_app_or in Hx as [Hx|[Hx|[]]]; [auto|congruence]. }
    cbn [bind]. do 5 f_equal. unfold t2, t1. rewrite !map_map. apply map_ext_in. intros p Hp.
    assert (Ex : existsb (String.eqb (pa_name _ p)) (names _ t0) = true).
    { apply existsb_exists. exists (pa_name _ p). split; [now apply in_map|apply String.eqb_refl]. }
    rewrite Ex. unfold current. destruct (lookup_some t (pa_name _ p) (Sub p Hp)) as (q & Eq & Nq). rewrite Eq.
    cbn [set_value pa_name].
    assert (Npp : pa_name _ p <> psf_pa) by (intros Ep; apply Np; rewrite <- Ep; now apply in_map).
    rewrite (ddel_get (fixed_dict _ t) psf_pa (pa_name _ p) Npp). rewrite get_fixed, Eq. cbn [option_map set_fixed pa_name set_value].
    rewrite (ddel_get (bounds_dict _ t) psf_pa (pa_name _ p) Npp). rewrite get_bounds, Eq. reflexivity.
  Qed.

  Lemma nth_error_snoc {A} (l : list A) x k y : nth_error (l ++ [x]) k = Some y ->
    nth_error l k = Some y \/ (k = List.length l /\ y = x).
  Proof.
    intros H. destruct (Nat.lt_ge_cases k (List.length l)) as [L|L].
    - rewrite nth_error_app1 in H by auto. auto.
    - rewrite nth_error_app2 in H by auto. destruct (k - List.length l)%nat as [|m] eqn:Em; cbn in H.
      + apply Some_inj in H. right. split; [lia|auto].
      + destruct m; discriminate.
  Qed.
  Lemma nth_error_keep {A} (l : list A) x k y : nth_error l k = Some y -> nth_error (l ++ [x]) k = Some y.
  Proof. intros H. rewrite nth_error_app1; auto. apply nth_error_Some. congruence. Qed.

  Lemma snoc_ok (h : oheap) o : wheap_ok h ->
    (match o with
      | Plain _ t => NoDup (names _ t)
      | Wrapped _ s t => exists t0, nth_error h s = Some (Plain _ t0) /\ names _ t = names _ t0 ++ [psf_pa] /\ ~ In psf_pa (names _ t0)
      end) -> wheap_ok (h ++ [o]).
  Proof.
    intros W Ho k o' H. apply nth_error_snoc in H as [H|[-> ->]].
    - apply W in H. destruct o'; auto. destruct H as (t0 & E0 & R). exists t0. split; auto. now apply nth_error_keep.
    - destruct o; auto. destruct Ho as (t0 & E0 & R). exists t0. split; auto. now apply nth_error_keep.
  Qed.

  Lemma step_ok (h : oheap) o : wrap_op o -> wheap_ok h -> wheap_ok (wstep _ h o).
  Proof.
    intros P W. destruct o as [t|k kw|k|k s w]; cbn [wstep].
    - apply snoc_ok; auto.
    - destruct (wrap _ h k kw) as [[h' i]|e] eqn:E; cbn [heap_of]; auto.
      apply wrap_shape in E as (t & t' & E1 & -> & -> & E2 & E3). apply snoc_ok; auto. eauto.
    - destruct (unwrap _ h k) as [[h' i]|e] eqn:E; cbn [heap_of]; auto.
      destruct (nth_error h k) as [[t|s t]|] eqn:Ek; try (unfold unwrap in E; rewrite Ek in E; discriminate).
      destruct (unwrap_spec h k s t W Ek) as (t0 & E0 & Eu). rewrite Eu in E. apply Ok_inj in E. injection E as <- <-.
      apply snoc_ok; auto. pose proof (W _ _ E0) as U. cbn in U |- *.
      replace (names _ (map (current t) t0)) with (names _ t0); auto.
      unfold names. rewrite map_map. apply map_ext. intros p. unfold current. destruct (lookup _ _ _); auto.
    - assert (K : forall p : param, pa_name _ (apply_set _ w p) = pa_name _ p) by (intros p; destruct w; reflexivity).
      unfold assign. destruct (nth_error h k) as [[t|u t]|] eqn:Ek; auto.
      + assert (L : (k < List.length h)%nat) by (apply nth_error_Some; congruence).
        intros j o H. destruct (Nat.eq_dec j k) as [->|Nj].
        * rewrite nth_error_replace_eq in H by auto. apply Some_inj in H. subst. rewrite upd_names by auto. exact (W _ _ Ek).
        * rewrite nth_error_replace_ne in H by auto. apply W in H. destruct o as [u0|sub u0]; auto. destruct H as (t0 & E0 & R1 & R2).
          destruct (Nat.eq_dec sub k) as [->|Ns].
          -- rewrite Ek in E0. injection E0 as <-. exists (upd _ t s (apply_set _ w)). split; [now apply nth_error_replace_eq|].
             rewrite upd_names by auto. auto.
          -- exists t0. split; [|auto]. now rewrite nth_error_replace_ne.
      + assert (L : (k < List.length h)%nat) by (apply nth_error_Some; congruence).
        intros j o H. destruct (Nat.eq_dec j k) as [->|Nj].
        * rewrite nth_error_replace_eq in H by auto. apply Some_inj in H. subst. rewrite upd_names by auto.
          destruct (W _ _ Ek) as (t0 & E0 & R). exists t0. split; [|auto].
          rewrite nth_error_replace_ne; auto. congruence.
        * rewrite nth_error_replace_ne in H by auto. apply W in H. destruct o as [u0|sub u0]; auto. destruct H as (t0 & E0 & R).
          exists t0. split; [|auto]. rewrite nth_error_replace_ne; auto. congruence.
  Qed.

  Lemma run_ok l : forall h : oheap, Forall wrap_op l -> wheap_ok h -> wheap_ok (wrun _ h l).
  Proof. induction l as [|o l IH]; intros h P W; auto. inversion P; subst. cbn. apply IH; auto. now apply step_ok. Qed.

  (** C45 over histories *)
  Lemma history_ok l : Forall wrap_op l -> wheap_ok (wrun _ (nil : oheap) l).
  Proof. intros P. apply run_ok; auto. intros [|k] o H; discriminate. Qed.

  Lemma wrap_history l k t : Forall wrap_op l -> let h := wrun _ (nil : oheap) l in
    nth_error h k = Some (Plain _ t) -> ~ In psf_pa (names _ t) ->
    wrap _ h k (no_kwargs _) =
      Ok (h ++ [Wrapped _ k (map untied t ++ [fresh_param _ psf_pa n0])], List.length h).
  Proof. intros P h E Np. apply wrap_plain; auto. exact (history_ok l P k _ E). Qed.

  Lemma unwrap_history l k s t : Forall wrap_op l -> let h := wrun _ (nil : oheap) l in
    nth_error h k = Some (Wrapped _ s t) ->
    exists t0, nth_error h s = Some (Plain _ t0) /\ names _ t = names _ t0 ++ [psf_pa] /\
      unwrap _ h k = Ok (h ++ [Plain _ (map (current t) t0)], List.length h) /\
      forall p, In p t0 -> exists q, In q t /\ pa_name _ q = pa_name _ p /\
        current t p = mkparam tied (pa_name _ p) (pa_value _ q) (pa_fixed _ q) (pa_bounds _ q) (pa_tied _ p).
  Proof.
    intros P h E. pose proof (history_ok l P) as W. destruct (unwrap_spec h k s t W E) as (t0 & E0 & Eu).
    destruct (W _ _ E) as (t0' & E0' & Nt & _). fold h in E0'. rewrite E0 in E0'. injection E0' as <-.
    exists t0. repeat (split; auto). intros p Hp.
    destruct (lookup_some t (pa_name _ p)) as (q & Eq & Nq). { rewrite Nt. apply in_or_app. left. now apply in_map. }
    exists q. split; [now apply lookup_in in Eq|]. split; auto. unfold current. now rewrite Eq.
  Qed.

  (** assignments touch only the object assigned to *)
  Lemma assign_local (h : oheap) k s w j : j <> k -> nth_error (assign _ h k s w) j = nth_error h j.
  Proof. intros H. unfold assign. destruct (nth_error h k) as [[]|]; auto; now apply nth_error_replace_ne. Qed.

  (** a wrapper cannot be wrapped *)
  Lemma wrap_wrapped (h : oheap) k s t kw : nth_error h k = Some (Wrapped _ s t) -> wrap _ h k kw = Err TypeError.
  Proof. intros E. unfold wrap. now rewrite E. Qed.
End Wrap.
