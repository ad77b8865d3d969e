(** Proofs about natural_sort (C06). *)
From Verif Require Import Base M_Utils S_NatSort.
From Coq Require Import Ascii NArith Permutation.

(** ** runs *)

Lemma span_spec p s a b : span p s = (a, b) ->
  s = a ++ b /\ Forall (fun c => p c = true) a /\
  (forall c t, b = c :: t -> p c = false).
Proof.
  revert a b; induction s as [|c cs IH]; intros a b; simpl.
  - intros H; inversion H; subst. split; auto. split; auto. intros c t; discriminate.
  - destruct (p c) eqn:Hc.
    + destruct (span p cs) as [a' b'] eqn:E. intros H; inversion H; subst.
      destruct (IH a' b eq_refl) as (H1 & H2 & H3). split; [simpl; congruence|].
      split; auto.
    + intros H; inversion H; subst. split; auto. split; auto. intros c' t E; inversion E; subst; auto.
Qed.

Lemma split_runs_pieces fuel s : length s < fuel -> pieces s (split_runs fuel s).
Proof.
  revert s; induction fuel as [|fuel IH]; intros s Hs; [lia|].
  cbn [split_runs]. destruct (span (fun c => negb (is_digit c)) s) as [t r] eqn:E1.
  destruct (span is_digit r) as [d r'] eqn:E2.
  destruct (span_spec _ _ _ _ E1) as (H1 & H2 & H3).
  destruct (span_spec _ _ _ _ E2) as (H4 & H5 & H6).
  assert (H2' : Forall (fun c => is_digit c = false) t).
  { eapply Forall_impl; [|exact H2]. intros c; simpl. now destruct (is_digit c). }
  destruct d as [|c d].
  - simpl in H4. subst r'. destruct r as [|c r].
    + rewrite app_nil_r in H1. subst s. now constructor.
    + exfalso. specialize (H3 c r eq_refl). specialize (H6 c r eq_refl).
      rewrite H6 in H3. discriminate.
  - rewrite H1, H4. constructor; auto; try congruence.
    + intros (c' & t' & E & Hc'). specialize (H6 c' t' E). congruence.
    + apply IH. subst s r. rewrite !app_length in Hs. simpl in Hs. lia.
Qed.

Lemma pieces_exist s : exists ps, pieces s ps.
Proof. exists (split_runs (S (length s)) s). apply split_runs_pieces. lia. Qed.

Lemma prefix_unique (p : ascii -> bool) a b a' b' :
  a ++ b = a' ++ b' ->
  Forall (fun c => p c = true) a -> Forall (fun c => p c = true) a' ->
  (forall c t, b = c :: t -> p c = false) -> (forall c t, b' = c :: t -> p c = false) ->
  a = a' /\ b = b'.
Proof.
  revert a'; induction a as [|x a IH]; intros [|y a'] E Ha Ha' Hb Hb'; simpl in E.
  - auto.
  - exfalso. subst b. inversion Ha'; subst. specialize (Hb y _ eq_refl). congruence.
  - exfalso. subst b'. inversion Ha; subst. specialize (Hb' x _ eq_refl). congruence.
  - inversion E; subst. inversion Ha; inversion Ha'; subst.
    destruct (IH a') as [-> ->]; auto.
Qed.

Lemma pieces_unique s ps qs : pieces s ps -> pieces s qs -> ps = qs.
Proof.
  intros H; revert qs; induction H as [t Ht|t d rest ps Ht Hd1 Hd2 Hr Hp IH]; intros qs Hq.
  - inversion Hq as [t' Ht' E1 E2|t' d' rest' ps' Ht' Hd1' Hd2' Hr' Hp' E1 E2]; subst; auto.
    exfalso. destruct d' as [|c d']; [congruence|].
    rewrite Forall_app in Ht. destruct Ht as [_ Ht]. inversion Ht; inversion Hd2'; subst. congruence.
  - inversion Hq as [t' Ht' E1 E2|t' d' rest' ps' Ht' Hd1' Hd2' Hr' Hp' E1 E2]; subst.
    + exfalso. destruct d as [|c d]; [congruence|].
      rewrite Forall_app in Ht'. destruct Ht' as [_ Ht']. inversion Ht'; inversion Hd2; subst. congruence.
    + destruct (prefix_unique (fun c => negb (is_digit c)) t' (d' ++ rest') t (d ++ rest)) as [-> E].
      * auto.
      * eapply Forall_impl; [|exact Ht']. intros c Hc; simpl. now rewrite Hc.
      * eapply Forall_impl; [|exact Ht]. intros c Hc; simpl. now rewrite Hc.
      * intros c u E. destruct d' as [|x d']; [congruence|]. inversion E; subst.
        inversion Hd2'; subst. match goal with H : is_digit c = true |- _ => now rewrite H end.
      * intros c u E. destruct d as [|x d]; [congruence|]. inversion E; subst.
        inversion Hd2; subst. match goal with H : is_digit c = true |- _ => now rewrite H end.
      * destruct (prefix_unique is_digit d' rest' d rest) as [-> ->]; auto.
        { intros c u Ec. destruct (is_digit c) eqn:Hc; auto. exfalso. apply Hr'. exists c, u; auto. }
        { intros c u Ec. destruct (is_digit c) eqn:Hc; auto. exfalso. apply Hr. exists c, u; auto. }
        { do 2 f_equal. now apply IH. }
Qed.

(** alternation *)
Inductive alt : bool -> list (list ascii) -> Prop :=
| alt_nil b : alt b []
| alt_text t ps : Forall (fun c => is_digit c = false) t -> alt true ps -> alt false (t :: ps)
| alt_digits d ps : d <> [] -> Forall (fun c => is_digit c = true) d -> alt false ps ->
    alt true (d :: ps).

Lemma pieces_alt s ps : pieces s ps -> alt false ps.
Proof. induction 1; repeat constructor; auto. Qed.

(** ** keys *)

Lemma int_of_value_gen d acc :
  fold_left (fun acc c => acc * 10 + digit_val c)%N d acc
  = (acc * 10 ^ N.of_nat (length d) + value d)%N.
Proof.
  revert acc; induction d as [|c d IH]; intros acc; cbn [fold_left length value].
  - simpl. lia.
  - rewrite IH. rewrite Nnat.Nat2N.inj_succ, N.pow_succ_r'. unfold digit_val. lia.
Qed.

Lemma int_of_value d : int_of d = value d.
Proof. unfold int_of. rewrite int_of_value_gen. lia. Qed.

Lemma str_lt_lex a b : str_lt a b = match lex a b with Lt => true | _ => false end.
Proof.
  revert b; induction a as [|x a IH]; intros [|y b]; simpl; auto.
  rewrite IH, N.eqb_compare, N.ltb_compare.
  destruct (N_of_ascii x ?= N_of_ascii y)%N; auto.
Qed.

Lemma str_eq_lex a b : str_eq a b = match lex a b with Eq => true | _ => false end.
Proof.
  revert b; induction a as [|x a IH]; intros [|y b]; simpl; auto.
  rewrite IH, N.eqb_compare. destruct (N_of_ascii x ?= N_of_ascii y)%N; auto.
Qed.

Definition bad_run (r : list ascii) : bool :=
  match r with [] => false | _ => forallb is_superscript r end.

Lemma superscript_not_digit c : is_superscript c = true -> is_digit c = false.
Proof.
  unfold is_superscript, is_digit. intros H.
  apply orb_true_iff in H. destruct H as [H|H]; [apply orb_true_iff in H; destruct H as [H|H]|];
    apply N.eqb_eq in H; rewrite H; reflexivity.
Qed.

Lemma convert_text t : Forall (fun c => is_digit c = false) t ->
  convert t = if bad_run t then Err ValueError else Ok (TStr (map lower t)).
Proof.
  intros H. unfold convert, py_isdigit, bad_run. destruct t as [|c t]; auto.
  assert (E : forallb (fun c => is_digit c || is_superscript c) (c :: t)
            = forallb is_superscript (c :: t)).
  { clear - H. induction H as [|x l Hx Hl IH]; auto. cbn [forallb]. now rewrite Hx, IH. }
  rewrite E. destruct (forallb is_superscript (c :: t)) eqn:Es; auto.
  unfold py_int. inversion H as [|? ? Hc Ht]; subst. cbn [forallb]. now rewrite Hc.
Qed.

Lemma convert_digits d : d <> [] -> Forall (fun c => is_digit c = true) d ->
  convert d = Ok (TNum (value d)).
Proof.
  intros Hd H. unfold convert, py_isdigit. destruct d as [|c d]; [congruence|].
  assert (E : forallb is_digit (c :: d) = true).
  { apply forallb_forall. rewrite Forall_forall in H. auto. }
  assert (E' : forallb (fun c => is_digit c || is_superscript c) (c :: d) = true).
  { apply forallb_forall. rewrite Forall_forall in H. intros x Hx. now rewrite H. }
  rewrite E'. unfold py_int. rewrite E. cbn [bind]. now rewrite int_of_value.
Qed.

(** key of a list of alternating runs *)
Lemma key_cmp b p q kp kq :
  alt b p -> alt b q -> mapM convert p = Ok kp -> mapM convert q = Ok kq ->
  key_lt kp kq = Ok (match runs_cmp b p q with Lt => true | _ => false end).
Proof.
  revert b q kp kq; induction p as [|x p IH]; intros b [|y q] kp kq Hp Hq Ep Eq; cbn [mapM] in *.
  - injs. reflexivity.
  - apply bind_Ok in Eq. destruct Eq as (a & _ & Eq). apply bind_Ok in Eq.
    destruct Eq as (r & _ & Eq). injs. reflexivity.
  - apply bind_Ok in Ep. destruct Ep as (a & _ & Ep). apply bind_Ok in Ep.
    destruct Ep as (r & _ & Ep). injs. reflexivity.
  - apply bind_Ok in Ep. destruct Ep as (kx & Ex & Ep). apply bind_Ok in Ep.
    destruct Ep as (kp' & Ep' & Ep). apply bind_Ok in Eq. destruct Eq as (ky & Ey & Eq).
    apply bind_Ok in Eq. destruct Eq as (kq' & Eq' & Eq). injs.
    cbn [key_lt runs_cmp].
    inversion Hp as [|? ? Hx Hp'|? ? Hx0 Hx Hp']; subst; inversion Hq as [|? ? Hy Hq'|? ? Hy0 Hy Hq']; subst.
    + rewrite convert_text in Ex, Ey by auto.
      destruct (bad_run x); [discriminate|]. destruct (bad_run y); [discriminate|]. injs.
      cbn [tok_eq tok_lt]. rewrite str_eq_lex, str_lt_lex.
      destruct (lex (map lower x) (map lower y)); auto; now apply (IH true).
    + rewrite convert_digits in Ex, Ey by auto. injs.
      cbn [tok_eq tok_lt]. rewrite N.eqb_compare, N.ltb_compare.
      destruct (value x ?= value y)%N; auto; now apply (IH false).
Qed.

Lemma alphanum_key_ok s k : alphanum_key s = Ok k ->
  exists ps, pieces s ps /\ mapM convert ps = Ok k.
Proof.
  intros H. exists (split_runs (S (length s)) s). split; auto. apply split_runs_pieces. lia.
Qed.

Lemma mapM_convert_err b ps :
  alt b ps -> (exists r, In r ps /\ r <> [] /\ Forall (fun c => is_superscript c = true) r) ->
  mapM convert ps = Err ValueError.
Proof.
  intros H. induction H as [b|t ps Ht Hp IH|d ps Hd Hd' Hp IH]; intros (r & Hin & Hr & Hs).
  - destruct Hin.
  - cbn [mapM]. rewrite convert_text by auto. destruct (bad_run t) eqn:E; auto.
    cbn [bind]. rewrite IH; auto. destruct Hin as [->|Hin]; [|eauto]. exfalso.
    unfold bad_run in E. destruct r; [congruence|].
    assert (forallb is_superscript (a :: r) = true).
    { apply forallb_forall. rewrite Forall_forall in Hs; auto. }
    congruence.
  - cbn [mapM]. rewrite convert_digits by auto. cbn [bind]. rewrite IH; auto.
    destruct Hin as [->|Hin]; [|eauto]. exfalso.
    destruct r as [|c r]; [congruence|]. inversion Hs; inversion Hd'; subst.
    match goal with H1 : is_superscript c = true |- _ => apply superscript_not_digit in H1 end.
    congruence.
Qed.

Lemma mapM_convert_ok b ps :
  alt b ps -> (forall r, In r ps -> r <> [] -> ~ Forall (fun c => is_superscript c = true) r) ->
  exists k, mapM convert ps = Ok k.
Proof.
  intros H. induction H as [b|t ps Ht Hp IH|d ps Hd Hd' Hp IH]; intros Hr.
  - exists []. reflexivity.
  - destruct IH as [k Hk]; [intros r Hin; apply Hr; right; auto|].
    cbn [mapM]. rewrite convert_text by auto. destruct (bad_run t) eqn:E.
    + exfalso. apply (Hr t).
      * left; auto.
      * intros ->. discriminate.
      * unfold bad_run in E. destruct t as [|c t]; [discriminate|].
        rewrite forallb_forall in E. now apply Forall_forall.
    + cbn [bind]. rewrite Hk. cbn. eauto.
  - destruct IH as [k Hk]; [intros r Hin; apply Hr; right; auto|].
    cbn [mapM]. rewrite convert_digits by auto. cbn [bind]. rewrite Hk. cbn. eauto.
Qed.

(** ** the comparison is a total preorder *)

Lemma lex_antisym a b : lex b a = CompOpp (lex a b).
Proof.
  revert b; induction a as [|x a IH]; intros [|y b]; simpl; auto.
  rewrite N.compare_antisym. destruct (N_of_ascii x ?= N_of_ascii y)%N; simpl; auto.
Qed.

Lemma runs_antisym b p q : runs_cmp b q p = CompOpp (runs_cmp b p q).
Proof.
  revert b q; induction p as [|x p IH]; intros b [|y q]; simpl; auto.
  destruct b.
  - rewrite N.compare_antisym. destruct (value x ?= value y)%N; simpl; auto.
  - rewrite lex_antisym. destruct (lex _ _); simpl; auto.
Qed.

(** transitivity packaged for a comparison function *)
Definition trans_cmp {A} (c : A -> A -> comparison) : Prop :=
  forall x y z r, c x y = r -> c y z = r -> c x z = r.

Lemma lex_trans3 x y z :
  (lex x y = Eq -> lex x z = lex y z) /\
  (lex y z = Eq -> lex x z = lex x y) /\
  (lex x y = Lt -> lex y z = Lt -> lex x z = Lt).
Proof.
  revert y z; induction x as [|a x IH]; intros [|b y] [|c z]; simpl; repeat split; auto; try discriminate.
  - destruct (N.compare_spec (N_of_ascii a) (N_of_ascii b)) as [E|E|E]; try discriminate.
    rewrite E. intros H. destruct (N_of_ascii b ?= N_of_ascii c)%N; auto. now apply IH.
  - destruct (N.compare_spec (N_of_ascii b) (N_of_ascii c)) as [E|E|E]; try discriminate.
    rewrite E. intros H. destruct (N_of_ascii a ?= N_of_ascii c)%N; auto. now apply IH.
  - destruct (N.compare_spec (N_of_ascii a) (N_of_ascii b)) as [E|E|E];
    destruct (N.compare_spec (N_of_ascii b) (N_of_ascii c)) as [E'|E'|E']; try discriminate; intros H1 H2.
    + rewrite E, E', N.compare_refl. eapply IH; eauto.
    + rewrite E. now apply N.compare_lt_iff in E' as ->.
    + rewrite <- E'. now apply N.compare_lt_iff in E as ->.
    + assert (E2 : (N_of_ascii a < N_of_ascii c)%N) by lia.
      now apply N.compare_lt_iff in E2 as ->.
Qed.

Lemma runs_trans3 b x y z :
  (runs_cmp b x y = Eq -> runs_cmp b x z = runs_cmp b y z) /\
  (runs_cmp b y z = Eq -> runs_cmp b x z = runs_cmp b x y) /\
  (runs_cmp b x y = Lt -> runs_cmp b y z = Lt -> runs_cmp b x z = Lt).
Proof.
  revert b y z; induction x as [|r x IH]; intros b [|s y] [|t z]; simpl; repeat split; auto; try discriminate.
  - destruct b.
    + destruct (N.compare_spec (value r) (value s)) as [E|E|E]; try discriminate.
      rewrite E. intros H. destruct (value s ?= value t)%N; auto. now apply IH.
    + destruct (lex_trans3 (map lower r) (map lower s) (map lower t)) as (H1 & H2 & H3).
      destruct (lex (map lower r) (map lower s)) eqn:E; try discriminate.
      intros H. rewrite H1 by auto. destruct (lex (map lower s) (map lower t)); auto. now apply IH.
  - destruct b.
    + destruct (N.compare_spec (value s) (value t)) as [E|E|E]; try discriminate.
      rewrite E. intros H. destruct (value r ?= value t)%N; auto. now apply IH.
    + destruct (lex_trans3 (map lower r) (map lower s) (map lower t)) as (H1 & H2 & H3).
      destruct (lex (map lower s) (map lower t)) eqn:E; try discriminate.
      intros H. rewrite H2 by auto. destruct (lex (map lower r) (map lower s)); auto. now apply IH.
  - destruct b.
    + destruct (N.compare_spec (value r) (value s)) as [E|E|E];
      destruct (N.compare_spec (value s) (value t)) as [E'|E'|E']; try discriminate; intros H1 H2.
      * rewrite E, E', N.compare_refl. eapply IH; eauto.
      * rewrite E. now apply N.compare_lt_iff in E' as ->.
      * rewrite <- E'. now apply N.compare_lt_iff in E as ->.
      * assert (E2 : (value r < value t)%N) by lia. now apply N.compare_lt_iff in E2 as ->.
    + destruct (lex_trans3 (map lower r) (map lower s) (map lower t)) as (H1 & H2 & H3).
      destruct (lex (map lower r) (map lower s)) eqn:E; try discriminate;
      destruct (lex (map lower s) (map lower t)) eqn:E'; try discriminate; intros K1 K2.
      * rewrite H1 by auto. rewrite ?E'. eapply IH; eauto.
      * rewrite H1 by auto. now rewrite ?E'.
      * rewrite H2 by auto. now rewrite ?E.
      * now rewrite H3 by auto.
Qed.

Lemma runs_refl b p : runs_cmp b p p = Eq.
Proof.
  revert b; induction p as [|x p IH]; intros b; simpl; auto.
  destruct b; [now rewrite N.compare_refl|].
  assert (lex (map lower x) (map lower x) = Eq) as ->; auto.
  generalize (map lower x). induction l as [|c l IHl]; simpl; auto.
  now rewrite N.compare_refl.
Qed.

(** ** sorting *)

(** entries of the list being sorted: key, runs, string *)
Definition entry_ok (e : list tok * nat_sort_item) (ps : list (list ascii)) : Prop :=
  exists s, snd e = IStr s /\ pieces s ps /\ mapM convert ps = Ok (fst e).

Definition entry_le (e f : list tok * nat_sort_item) : Prop :=
  forall p q, entry_ok e p -> entry_ok f q -> runs_cmp false p q <> Gt.

Definition good (e : list tok * nat_sort_item) : Prop := exists p, entry_ok e p.

Lemma entry_ok_unique e p q : entry_ok e p -> entry_ok e q -> p = q.
Proof.
  intros (s & H1 & H2 & _) (t & H3 & H4 & _). assert (s = t) by congruence. subst.
  eapply pieces_unique; eauto.
Qed.

Lemma key_lt_good e f p q :
  entry_ok e p -> entry_ok f q ->
  key_lt (fst e) (fst f) = Ok (match runs_cmp false p q with Lt => true | _ => false end).
Proof.
  intros (s & H1 & H2 & H3) (t & H4 & H5 & H6).
  eapply key_cmp; eauto using pieces_alt.
Qed.

Inductive sorted_by {A} (le : A -> A -> Prop) : list A -> Prop :=
| sb_nil : sorted_by le []
| sb_cons a l : Forall (le a) l -> sorted_by le l -> sorted_by le (a :: l).

(** P selects entries that compare equal *)
Definition equal_class (P : list tok * nat_sort_item -> bool) : Prop :=
  forall e f p q, P e = true -> P f = true -> entry_ok e p -> entry_ok f q ->
    runs_cmp false p q = Eq.

Lemma insert_key_spec e l :
  good e -> Forall good l -> sorted_by entry_le l ->
  exists l', insert_key e l = Ok l' /\ Permutation (e :: l) l' /\ sorted_by entry_le l' /\
    (forall P, equal_class P -> filter P l' = filter P (e :: l)).
Proof.
  intros [p Hp] Hl Hs. induction Hs as [|f l Hf Hs IH].
  - exists [e]. simpl. split; auto. split; auto. split; [repeat constructor|].
    intros P HP; auto.
  - inversion Hl as [|? ? [q Hq] Hl']; subst. cbn [insert_key].
    rewrite (key_lt_good f e q p) by auto. cbn [bind].
    destruct (runs_cmp false q p) eqn:E.
    + exists (e :: f :: l). split; auto. split; auto. split; auto.
      constructor; [|constructor; auto].
      assert (Hef : entry_le e f).
      { intros p' q' Hp' Hq'. rewrite (entry_ok_unique _ _ _ Hp' Hp), (entry_ok_unique _ _ _ Hq' Hq).
        rewrite runs_antisym, E. discriminate. }
      constructor; auto. rewrite Forall_forall in *. intros g Hg p' r Hp' Hr.
      specialize (Hf g Hg q r Hq Hr).
      rewrite (entry_ok_unique _ _ _ Hp' Hp).
      destruct (runs_trans3 false p q r) as (K1 & _). rewrite K1; auto.
      rewrite runs_antisym, E. reflexivity.
    + destruct (IH Hl') as (l' & El & Hperm & Hsort & Hstab). rewrite El. cbn [bind].
      exists (f :: l'). split; auto. split.
      { eapply Permutation_trans; [apply perm_swap|]. now constructor. }
      split.
      { constructor; auto. rewrite Forall_forall in *. intros g Hg.
        apply (Permutation_in g (Permutation_sym Hperm)) in Hg. destruct Hg as [<-|Hg]; auto.
        intros q' p' Hq' Hp'. rewrite (entry_ok_unique _ _ _ Hp' Hp), (entry_ok_unique _ _ _ Hq' Hq), E.
        discriminate. }
      { intros P HP. cbn [filter]. rewrite Hstab by auto. cbn [filter].
        destruct (P e) eqn:Pe; auto. destruct (P f) eqn:Pf; auto.
        exfalso. specialize (HP f e q p Pf Pe Hq Hp). congruence. }
    + exists (e :: f :: l). split; auto. split; auto. split; auto.
      constructor; [|constructor; auto].
      assert (Hef : runs_cmp false p q = Lt) by (rewrite runs_antisym, E; auto).
      constructor.
      { intros p' q' Hp' Hq'. rewrite (entry_ok_unique _ _ _ Hp' Hp), (entry_ok_unique _ _ _ Hq' Hq), Hef.
        discriminate. }
      rewrite Forall_forall in *. intros g Hg p' r Hp' Hr.
      specialize (Hf g Hg q r Hq Hr).
      rewrite (entry_ok_unique _ _ _ Hp' Hp).
      destruct (runs_trans3 false p q r) as (_ & K2 & K3).
      destruct (runs_cmp false q r) eqn:Er; try congruence.
      * rewrite K2 by auto. rewrite Hef. discriminate.
      * rewrite K3 by auto. discriminate.
Qed.

Lemma sort_keys_spec l :
  Forall good l ->
  exists l', sort_keys l = Ok l' /\ Permutation l l' /\ sorted_by entry_le l' /\
    (forall P, equal_class P -> filter P l' = filter P l).
Proof.
  induction l as [|e l IH]; intros Hl.
  - exists []. repeat split; auto. constructor.
  - inversion Hl as [|? ? He Hl']; subst. destruct (IH Hl') as (l1 & E & Hp & Hs & Hst).
    cbn [sort_keys]. rewrite E. cbn [bind].
    assert (Forall good l1).
    { rewrite Forall_forall in *. intros x Hx. apply Hl'. eapply Permutation_in; [|exact Hx].
      now apply Permutation_sym. }
    destruct (insert_key_spec e l1) as (l2 & E2 & Hp2 & Hs2 & Hst2); auto.
    exists l2. split; auto. split.
    + eapply Permutation_trans; [|exact Hp2]. now constructor.
    + split; auto. intros P HP. rewrite Hst2 by auto. cbn [filter]. now rewrite Hst.
Qed.

Lemma mapM_item_key l kl :
  mapM item_key (map IStr l) = Ok kl -> Forall good kl /\ map snd kl = map IStr l.
Proof.
  revert kl; induction l as [|s l IH]; intros kl; cbn [map mapM].
  - intros H; injs. auto.
  - intros H. apply bind_Ok in H. destruct H as (e & He & H). apply bind_Ok in H.
    destruct H as (kl' & Hkl & H). injs. destruct (IH kl' Hkl) as [H1 H2].
    cbn [item_key] in He. apply bind_Ok in He. destruct He as (k & Hk & He). injs.
    split.
    + constructor; auto. destruct (alphanum_key_ok s k Hk) as (ps & P1 & P2).
      exists ps, s. auto.
    + cbn [map snd]. now rewrite H2.
Qed.

Lemma superscript_key_err s : superscript_run s -> alphanum_key s = Err ValueError.
Proof.
  intros (ps & r & Hps & Hin & Hr & Hs). unfold alphanum_key.
  rewrite (pieces_unique s (split_runs (S (length s)) s) ps); auto.
  - eapply mapM_convert_err; eauto using pieces_alt.
  - apply split_runs_pieces. lia.
Qed.

Lemma no_superscript_key_ok s : ~ superscript_run s -> exists k, alphanum_key s = Ok k.
Proof.
  intros H. unfold alphanum_key.
  assert (Hp : pieces s (split_runs (S (length s)) s)) by (apply split_runs_pieces; lia).
  apply (mapM_convert_ok false).
  - eapply pieces_alt; eauto.
  - intros r Hin Hr Hs. apply H. eexists _, r. eauto.
Qed.

Lemma natural_sort_strings l :
  (forall s, In s l -> ~ superscript_run s) ->
  exists l', natural_sort (map IStr l) = Ok (map IStr l') /\
    Permutation l l' /\
    (forall i j s t, i < j -> nth_error l' i = Some s -> nth_error l' j = Some t ->
       natural_cmp s t Lt \/ natural_cmp s t Eq) /\
    (forall P : list ascii -> bool,
       (forall s t, P s = true -> P t = true -> natural_cmp s t Eq) ->
       filter P l' = filter P l).
Proof.
  intros Hl. unfold natural_sort.
  assert (exists kl, mapM item_key (map IStr l) = Ok kl) as [kl Hkl].
  { clear - Hl. induction l as [|s l IH]; [exists []; auto|].
    destruct IH as [kl Hkl]; [intros t Ht; apply Hl; right; auto|].
    destruct (no_superscript_key_ok s) as [k Hk]; [apply Hl; left; auto|].
    cbn [map mapM item_key]. rewrite Hk. cbn [bind]. rewrite Hkl. cbn. eauto. }
  rewrite Hkl. cbn [bind].
  destruct (mapM_item_key l kl Hkl) as [Hgood Hsnd].
  destruct (sort_keys_spec kl Hgood) as (sl & Esl & Hperm & Hsort & Hstab).
  rewrite Esl. cbn [bind].
  assert (Hgood' : Forall good sl).
  { rewrite Forall_forall in *. intros x Hx. apply Hgood. eapply Permutation_in; [|exact Hx].
    now apply Permutation_sym. }
  set (strs := fun e : list tok * nat_sort_item => match snd e with IStr s => s | INum _ => [] end).
  assert (Hstr : forall e, good e -> snd e = IStr (strs e)).
  { intros e (p & s & H1 & _). unfold strs. now rewrite H1. }
  assert (Hmap : forall m, Forall good m -> map snd m = map IStr (map strs m)).
  { intros m Hm. rewrite map_map. apply map_ext_in. intros e He. apply Hstr.
    rewrite Forall_forall in Hm. auto. }
  assert (Hl2 : l = map strs kl).
  { rewrite Hmap in Hsnd by auto. clear - Hsnd. revert Hsnd. generalize (map strs kl).
    intros m. revert l. induction m as [|x m IH]; intros [|y l]; simpl; try discriminate; auto.
    intros H. inversion H. f_equal. now apply IH. }
  exists (map strs sl). split; [now rewrite Hmap|]. split.
  { rewrite Hl2. now apply Permutation_map. }
  split.
  - intros i j s t Hij Hs Ht. rewrite nth_error_map in Hs, Ht.
    destruct (nth_error sl i) as [e|] eqn:Ei; [|discriminate].
    destruct (nth_error sl j) as [f|] eqn:Ej; [|discriminate]. cbn [option_map] in *. injs.
    assert (Hle : entry_le e f).
    { clear - Hsort Hij Ei Ej. revert i j Hij Ei Ej. induction Hsort as [|a m Ha Hm IH]; intros [|i] [|j] Hij Ei Ej;
        simpl in *; try discriminate; try lia.
      - injs. apply nth_error_In in Ej. rewrite Forall_forall in Ha. auto.
      - apply (IH i j); auto. lia. }
    rewrite Forall_forall in Hgood'.
    destruct (Hgood' e (nth_error_In _ _ Ei)) as [p Hp].
    destruct (Hgood' f (nth_error_In _ _ Ej)) as [q Hq].
    specialize (Hle p q Hp Hq).
    destruct Hp as (s & S1 & S2 & _). destruct Hq as (t & T1 & T2 & _).
    unfold strs. rewrite S1, T1.
    destruct (runs_cmp false p q) eqn:E; [right|left|congruence]; exists p, q; auto.
  - intros P HP. rewrite Hl2.
    assert (Hfm : forall m, filter P (map strs m) = map strs (filter (fun e => P (strs e)) m)).
    { induction m as [|e m IH]; auto. cbn [map filter]. rewrite IH.
      destruct (P (strs e)); reflexivity. }
    rewrite !Hfm. f_equal. apply Hstab.
    intros e f p q Pe Pf He Hf.
    destruct (HP (strs e) (strs f) Pe Pf) as (p' & q' & H1 & H2 & H3).
    destruct He as (s & S1 & S2 & _). destruct Hf as (t & T1 & T2 & _).
    unfold strs in H1, H2. rewrite S1 in H1. rewrite T1 in H2.
    now rewrite (pieces_unique _ _ _ S2 H1), (pieces_unique _ _ _ T2 H2).
Qed.

(** an element that is a number, or a string with a superscript-only run, makes
    the call raise *)
Lemma natural_sort_err l :
  (exists x, In x l /\ (exists z, x = INum z)) ->
  (forall s, In (IStr s) l -> ~ superscript_run s) ->
  natural_sort l = Err TypeError.
Proof.
  intros (x & Hx & z & ->) Hs. unfold natural_sort.
  assert (mapM item_key l = Err TypeError) as ->; auto.
  induction l as [|y l IH]; [destruct Hx|]. cbn [mapM].
  destruct y as [s|z']; auto.
  destruct (no_superscript_key_ok s) as [k Hk]; [apply Hs; left; auto|].
  cbn [item_key]. rewrite Hk. cbn [bind]. destruct Hx as [Hx|Hx]; [discriminate|].
  rewrite IH; auto. intros t Ht. apply Hs. right; auto.
Qed.

Lemma natural_sort_superscript l :
  (exists s, In s l /\ superscript_run s) -> natural_sort (map IStr l) = Err ValueError.
Proof.
  intros (s & Hin & Hs). unfold natural_sort.
  assert (mapM item_key (map IStr l) = Err ValueError) as ->; auto.
  induction l as [|t l IH]; [destruct Hin|]. cbn [map mapM item_key].
  destruct (alphanum_key t) as [k|e] eqn:Ek; cbn [bind].
  - destruct Hin as [->|Hin].
    + rewrite superscript_key_err in Ek by auto. discriminate.
    + now rewrite IH.
  - unfold alphanum_key in Ek. apply mapM_Err in Ek. destruct Ek as (r & _ & Hr).
    unfold convert in Hr. destruct (py_isdigit r); [|discriminate].
    unfold py_int in Hr. destruct (forallb is_digit r); [discriminate|].
    cbn in Hr. congruence.
Qed.

(** ** numbered names sort numerically *)

Definition ends_with_digit (s : list ascii) : Prop :=
  exists t c, s = t ++ [c] /\ is_digit c = true.

Lemma pieces_app p0 P d s S :
  pieces p0 P -> ~ ends_with_digit p0 ->
  d <> [] -> Forall (fun c => is_digit c = true) d ->
  ~ starts_with_digit s -> pieces s S ->
  pieces (p0 ++ d ++ s) (P ++ d :: S).
Proof.
  intros Hp. revert d s S. induction Hp as [t Ht|t e rest ps Ht He1 He2 Hr Hp IH];
    intros d s S Hend Hd1 Hd2 Hs HS.
  - cbn [app]. now constructor.
  - rewrite <- !app_assoc. cbn [app]. constructor; auto.
    + intros (c & u & E & Hc). destruct rest as [|x rest].
      * apply Hend. destruct (exists_last He1) as (e' & c' & ->).
        exists (t ++ e'), c'. rewrite app_nil_r, app_assoc. split; auto.
        rewrite Forall_app in He2. destruct He2 as [_ H]. now inversion H.
      * simpl in E. inversion E; subst. apply Hr. exists c, rest. auto.
    + apply IH; auto. intros (u & c & E & Hc). apply Hend. exists (t ++ e ++ u), c.
      rewrite E, !app_assoc. auto.
Qed.

Lemma split_trailing_digits p :
  exists p0 pd, p = p0 ++ pd /\ ~ ends_with_digit p0 /\ Forall (fun c => is_digit c = true) pd.
Proof.
  induction p as [|c p IH] using rev_ind.
  - exists [], []. repeat split; auto. intros (t & c & E & _). destruct t; discriminate.
  - destruct (is_digit c) eqn:Hc.
    + destruct IH as (p0 & pd & -> & H1 & H2). exists p0, (pd ++ [c]).
      rewrite app_assoc. repeat split; auto. rewrite Forall_app. auto.
    + exists (p ++ [c]), []. rewrite app_nil_r. repeat split; auto.
      intros (t & c' & E & Hc'). apply app_inj_tail in E. destruct E as [_ <-]. congruence.
Qed.

Lemma value_app a b : value (a ++ b) = (value a * 10 ^ N.of_nat (length b) + value b)%N.
Proof.
  induction a as [|c a IH]; cbn [app value]; [lia|].
  rewrite IH, app_length, Nnat.Nat2N.inj_add, N.pow_add_r. lia.
Qed.

Lemma value_bound d : Forall (fun c => is_digit c = true) d ->
  (value d < 10 ^ N.of_nat (length d))%N.
Proof.
  induction 1 as [|c d Hc Hd IH]; cbn [value length]; [simpl; lia|].
  rewrite Nnat.Nat2N.inj_succ, N.pow_succ_r'.
  unfold is_digit in Hc. apply andb_true_iff in Hc. destruct Hc as [H1 H2].
  apply N.leb_le in H1, H2. nia.
Qed.

Lemma ascii_code_inj c : N_of_ascii c = 48%N -> c = "0"%char.
Proof.
  intros H. rewrite <- (ascii_N_embedding c), H. reflexivity.
Qed.

Lemma decimal_length n m d e :
  decimal_of n d -> decimal_of m e -> (n < m)%N -> length d <= length e.
Proof.
  intros (Hd1 & Hd2 & Hd3 & Hd4) (He1 & He2 & He3 & He4) Hnm.
  destruct (le_lt_dec (length d) (length e)) as [|Hlt]; auto. exfalso.
  pose proof (value_bound e He2) as Hb. rewrite He3 in Hb.
  destruct Hd4 as [->|(c & t & -> & Hc)].
  - simpl in Hlt. destruct e; [congruence|simpl in Hlt; lia].
  - cbn [value] in Hd3. simpl in Hlt.
    assert (Hc' : (N_of_ascii c - 48 >= 1)%N).
    { inversion Hd2 as [|? ? Hdc _]; subst. unfold is_digit in Hdc.
      apply andb_true_iff in Hdc. destruct Hdc as [H1 _]. apply N.leb_le in H1.
      assert (N_of_ascii c <> 48%N) by (intros E; apply Hc; now apply ascii_code_inj). lia. }
    assert (10 ^ N.of_nat (length e) <= 10 ^ N.of_nat (length t))%N.
    { apply N.pow_le_mono_r; lia. }
    nia.
Qed.

Lemma runs_cmp_app b P a b' S S' :
  alt b P -> (Nat.odd (length P) = negb b) ->
  runs_cmp b (P ++ a :: S) (P ++ b' :: S') =
  match (value a ?= value b')%N with Eq => runs_cmp false S S' | c => c end.
Proof.
  intros H. revert a b' S S'. induction H as [b|t ps Ht Hp IH|d ps Hd Hd' Hp IH]; intros a b' S S' Hodd.
  - destruct b; [|discriminate]. cbn [app runs_cmp]. reflexivity.
  - cbn [app runs_cmp]. assert (lex (map lower t) (map lower t) = Eq) as ->.
    { generalize (map lower t). induction l as [|c l IHl]; simpl; auto. now rewrite N.compare_refl. }
    cbn [negb]. apply IH. cbn [length] in Hodd. rewrite Nat.odd_succ in Hodd.
    rewrite <- Nat.negb_even, Hodd. reflexivity.
  - cbn [app runs_cmp]. rewrite N.compare_refl. cbn [negb]. apply IH.
    cbn [length] in Hodd. rewrite Nat.odd_succ in Hodd.
    rewrite <- Nat.negb_even, Hodd. reflexivity.
Qed.

Lemma pieces_odd s ps : pieces s ps -> Nat.odd (length ps) = true.
Proof. induction 1; auto. Qed.

Lemma natural_numbered prefix n m d e s t :
  decimal_of n d -> decimal_of m e -> (n < m)%N ->
  ~ starts_with_digit s -> ~ starts_with_digit t ->
  natural_cmp (prefix ++ d ++ s) (prefix ++ e ++ t) Lt.
Proof.
  intros Hd He Hnm Hs Ht.
  pose proof (decimal_length n m d e Hd He Hnm) as Hlen.
  destruct Hd as (Hd1 & Hd2 & Hd3 & _). destruct He as (He1 & He2 & He3 & _).
  destruct (split_trailing_digits prefix) as (p0 & pd & -> & Hp0 & Hpd).
  destruct (pieces_exist p0) as [P HP].
  destruct (pieces_exist s) as [S HS]. destruct (pieces_exist t) as [T HT].
  exists (P ++ (pd ++ d) :: S), (P ++ (pd ++ e) :: T).
  split; [|split].
  - replace ((p0 ++ pd) ++ d ++ s) with (p0 ++ (pd ++ d) ++ s) by now rewrite <- !app_assoc.
    apply pieces_app; auto.
    + destruct pd; simpl; congruence.
    + rewrite Forall_app; auto.
  - replace ((p0 ++ pd) ++ e ++ t) with (p0 ++ (pd ++ e) ++ t) by now rewrite <- !app_assoc.
    apply pieces_app; auto.
    + destruct pd; simpl; congruence.
    + rewrite Forall_app; auto.
  - rewrite runs_cmp_app.
    + assert (Hv : (value (pd ++ d) < value (pd ++ e))%N).
      { rewrite !value_app, Hd3, He3.
        assert (10 ^ N.of_nat (length d) <= 10 ^ N.of_nat (length e))%N
          by (apply N.pow_le_mono_r; lia).
        nia. }
      apply N.compare_lt_iff in Hv. now rewrite Hv.
    + eapply pieces_alt; eauto.
    + rewrite (pieces_odd p0 P HP). reflexivity.
Qed.
