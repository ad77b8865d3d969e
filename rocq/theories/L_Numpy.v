(** Lemmas about the numpy primitives on extended reals. *)
From Verif Require Import Base Num Numpy.

(** Order on extended reals as propositions. *)
Definition xle (a b : xr) : Prop := xleb a b = true.
Definition xlt (a b : xr) : Prop := xltb a b = true.
Definition xok (x : xr) : Prop := x <> NaN.

Ltac xcases :=
  repeat match goal with
  | x : xr |- _ => destruct x
  end;
  unfold xle, xlt, xok in *; cbn in *;
  repeat match goal with
  | H : context [Rltb ?a ?b] |- _ => destruct (Rltb_spec a b)
  | H : context [Rleb ?a ?b] |- _ => destruct (Rleb_spec a b)
  | |- context [Rltb ?a ?b] => destruct (Rltb_spec a b)
  | |- context [Rleb ?a ?b] => destruct (Rleb_spec a b)
  end;
  try discriminate; try congruence; try lra; auto.

Lemma xle_refl x : xok x -> xle x x.
Proof. intros H. xcases. Qed.
Lemma xle_trans x y z : xle x y -> xle y z -> xle x z.
Proof. intros H1 H2. xcases. Qed.
Lemma xlt_trans x y z : xlt x y -> xlt y z -> xlt x z.
Proof. intros H1 H2. xcases. Qed.
Lemma xlt_le x y : xlt x y -> xle x y.
Proof. intros H. xcases. Qed.
Lemma xlt_le_trans x y z : xlt x y -> xle y z -> xlt x z.
Proof. intros H1 H2. xcases. Qed.
Lemma xle_lt_trans x y z : xle x y -> xlt y z -> xlt x z.
Proof. intros H1 H2. xcases. Qed.
Lemma xnle_lt x y : xok x -> xok y -> ~ xle x y -> xlt y x.
Proof. intros H1 H2 H3. xcases; exfalso; apply H3; auto. Qed.
Lemma xnlt_le x y : xok x -> xok y -> ~ xlt x y -> xle y x.
Proof. intros H1 H2 H3. xcases; exfalso; apply H3; auto. Qed.
Lemma xlt_nle x y : xlt x y -> ~ xle y x.
Proof. intros H1 H2. xcases. Qed.
Lemma xle_ok_l x y : xle x y -> xok x.
Proof. intros H. xcases. Qed.
Lemma xle_ok_r x y : xle x y -> xok y.
Proof. intros H. xcases. Qed.
Lemma xle_antisym x y : xle x y -> xle y x -> x = y.
Proof. intros H1 H2. xcases. f_equal; lra. Qed.
Lemma xle_fin a b : xle (Fin a) (Fin b) <-> (a <= b)%R.
Proof. unfold xle; simpl. apply Rleb_iff. Qed.
Lemma xlt_fin a b : xlt (Fin a) (Fin b) <-> (a < b)%R.
Proof. unfold xlt; simpl. apply Rltb_iff. Qed.

(** ** find_index *)

Lemma find_index_Some {A} (p : A -> bool) l i :
  find_index p l = Some i <->
  (exists x, nth_error l i = Some x /\ p x = true) /\
  (forall j y, j < i -> nth_error l j = Some y -> p y = false).
Proof.
  revert i; induction l as [|x xs IH]; intros i; simpl.
  - split; [discriminate|]. intros [(y & Hy & _) _]. destruct i; discriminate.
  - destruct (p x) eqn:Hx.
    + split.
      * intros H; inversion H; subst. split; [exists x; auto|]. intros j y Hj; lia.
      * intros [_ H]. destruct i as [|i]; auto.
        specialize (H 0 x ltac:(lia) eq_refl). congruence.
    + split.
      * destruct (find_index p xs) as [k|] eqn:Hk; simpl; [|discriminate].
        intros H; inversion H; subst.
        destruct (proj1 (IH k) eq_refl) as [H1 H2]. split; auto.
        intros [|j] y Hj; simpl; [congruence|]. apply H2; lia.
      * destruct i as [|i]; intros [(y & Hy & Hpy) H2].
        { simpl in Hy; congruence. }
        assert (find_index p xs = Some i) as ->; auto.
        apply IH. split; [exists y; auto|].
        intros j z Hj Hz. apply (H2 (S j) z); [lia|auto].
Qed.

Lemma find_index_None {A} (p : A -> bool) l :
  find_index p l = None <-> forall x, In x l -> p x = false.
Proof.
  induction l as [|x xs IH]; simpl.
  - split; auto. intros _ y [].
  - destruct (p x) eqn:Hx.
    + split; [discriminate|]. intros H. specialize (H x (or_introl eq_refl)); congruence.
    + destruct (find_index p xs) as [k|]; simpl.
      * split; [discriminate|]. intros H. exfalso.
        assert (E : Some k = None) by (apply IH; intros y Hy; apply H; auto). discriminate.
      * split; auto. intros _ y [<-|Hy]; auto. now apply IH.
Qed.

(** ** argmin *)

Lemma argmin_go_spec (l : list xr) : forall best bi i,
  xok best -> Forall xok l -> bi < i ->
  let k := argmin_go l best bi i in
  (k = bi /\ (forall j y, nth_error l j = Some y -> xle best y)) \/
  (exists d y, k = i + d /\ nth_error l d = Some y /\ xlt y best /\
     (forall j z, nth_error l j = Some z -> xle y z) /\
     (forall j z, j < d -> nth_error l j = Some z -> xlt y z)).
Proof.
  induction l as [|x xs IH]; intros best bi i Hb Hl Hbi; cbn [argmin_go].
  - left. destruct (nisnan best); split; auto; intros [|j] y; discriminate.
  - assert (nisnan best = false) as -> by (destruct best; simpl; auto; exfalso; apply Hb; auto).
    inversion Hl as [|? ? Hx Hxs]; subst.
    change (nleb best x) with (xleb best x).
    destruct (xleb best x) eqn:E.
    + destruct (IH best bi (S i) Hb Hxs ltac:(lia)) as [[Hk Hmin]|(d & y & Hk & Hd & Hlt & Hmin & Hfirst)].
      * left. split; auto. intros [|j] y Hy; simpl in Hy; [|eauto].
        inversion Hy; subst; auto.
      * right. exists (S d), y. split; [lia|]. split; auto. split; auto.
        assert (xlt y x) by (eapply xlt_le_trans; eauto).
        split.
        { intros [|j] z Hz; simpl in Hz; [|eauto]. inversion Hz; subst. now apply xlt_le. }
        { intros [|j] z Hj Hz; simpl in Hz; [inversion Hz; subst; auto|].
          apply (Hfirst j z); [lia|auto]. }
    + assert (Hlt : xlt x best) by (apply xnle_lt; auto; unfold xle; congruence).
      right. destruct (IH x i (S i) Hx Hxs ltac:(lia)) as [[Hk Hmin]|(d & y & Hk & Hd & Hlt' & Hmin & Hfirst)].
      * exists 0, x. split; [lia|]. split; auto. split; auto. split.
        { intros [|j] z Hz; simpl in Hz; [inversion Hz; subst; now apply xle_refl|eauto]. }
        { intros j z Hj; lia. }
      * exists (S d), y. split; [lia|]. split; auto. split; [eapply xlt_trans; eauto|]. split.
        { intros [|j] z Hz; simpl in Hz; [inversion Hz; subst; now apply xlt_le|eauto]. }
        { intros [|j] z Hj Hz; simpl in Hz; [inversion Hz; subst; auto|].
          apply (Hfirst j z); [lia|auto]. }
Qed.

Lemma argmin_spec (l : list xr) i :
  Forall xok l -> argmin l = Some i ->
  exists x, nth_error l i = Some x /\
    (forall j y, nth_error l j = Some y -> xle x y) /\
    (forall j y, j < i -> nth_error l j = Some y -> xlt x y).
Proof.
  destruct l as [|a l]; simpl; [discriminate|]. intros Hl H; inversion H as [Hk].
  inversion Hl as [|? ? Ha Hl']; subst.
  destruct (argmin_go_spec l a 0 1 Ha Hl' ltac:(lia)) as [[Hk Hmin]|(d & y & Hk & Hd & Hlt & Hmin & Hfirst)];
    cbv zeta in Hk; rewrite Hk.
  - exists a. split; auto. split.
    + intros [|j] y Hy; simpl in Hy; [inversion Hy; subst; now apply xle_refl|eauto].
    + intros j y Hj; lia.
  - exists y. split; auto. split.
    + intros [|j] z Hz; simpl in Hz; [inversion Hz; subst; now apply xlt_le|eauto].
    + intros [|j] z Hj Hz; simpl in Hz; [inversion Hz; subst; auto|].
      apply (Hfirst j z); [lia|auto].
Qed.

Lemma argmin_None {T} {N : Num T} (l : list T) : argmin l = None <-> l = [].
Proof. destruct l; simpl; split; auto; discriminate. Qed.

Lemma argmin_go_bound {T} {N : Num T} (l : list T) : forall best bi i,
  bi < i -> argmin_go l best bi i < i + length l.
Proof.
  induction l as [|x xs IH]; intros best bi i Hbi; cbn [argmin_go length].
  - destruct (nisnan best); lia.
  - destruct (nisnan best); [lia|]. destruct (nleb best x).
    + specialize (IH best bi (S i) ltac:(lia)). lia.
    + specialize (IH x i (S i) ltac:(lia)). lia.
Qed.

Lemma argmin_bound {T} {N : Num T} (l : list T) i : argmin l = Some i -> i < length l.
Proof.
  destruct l as [|x xs]; simpl; [discriminate|]. intros H; inversion H.
  apply (argmin_go_bound xs x 0 1). lia.
Qed.

(** a NaN anywhere makes argmin return the first NaN *)
Lemma argmin_go_nan (l : list xr) : forall best bi i,
  xok best ->
  forall d, nth_error l d = Some NaN ->
  (forall j y, j < d -> nth_error l j = Some y -> xok y) ->
  argmin_go l best bi i = i + d.
Proof.
  induction l as [|x xs IH]; intros best bi i Hb d Hd Hbefore; [destruct d; discriminate|].
  cbn [argmin_go].
  assert (nisnan best = false) as -> by (destruct best; simpl; auto; exfalso; apply Hb; auto).
  destruct d as [|d]; simpl in Hd.
  - inversion Hd; subst. assert (nleb best NaN = false) as -> by (destruct best; auto).
    destruct xs; simpl; lia.
  - assert (Hx : xok x) by (apply (Hbefore 0); auto; lia).
    assert (forall j y, j < d -> nth_error xs j = Some y -> xok y).
    { intros j y Hj Hy. apply (Hbefore (S j)); auto. lia. }
    destruct (nleb best x).
    + rewrite (IH best bi (S i) Hb d); auto. lia.
    + rewrite (IH x i (S i) Hx d); auto. lia.
Qed.

Lemma argmin_nan (l : list xr) d :
  nth_error l d = Some NaN ->
  (forall j y, j < d -> nth_error l j = Some y -> xok y) ->
  argmin l = Some d.
Proof.
  destruct l as [|x xs]; [destruct d; discriminate|]. simpl. intros Hd Hb.
  destruct d as [|d]; simpl in Hd.
  - inversion Hd; subst. destruct xs; reflexivity.
  - f_equal. rewrite (argmin_go_nan xs x 0 1) with (d := d); auto.
    + apply (Hb 0 x); auto; lia.
    + intros j y Hj Hy. apply (Hb (S j) y); auto; lia.
Qed.

(** ** min / max *)

Lemma pymax_from_spec (l : list xr) : forall a, xok a -> Forall xok l ->
  let m := pymax_from a l in
  (m = a \/ In m l) /\ xle a m /\ (forall x, In x l -> xle x m) /\ xok m.
Proof.
  induction l as [|x xs IH]; intros a Ha Hl; cbn.
  - split; auto. split; [now apply xle_refl|]. split; auto. intros y [].
  - inversion Hl as [|? ? Hx Hxs]; subst.
    change (fold_left _ xs ?b) with (pymax_from b xs).
    destruct (xltb a x) eqn:E.
    + destruct (IH x Hx Hxs) as (H1 & H2 & H3 & H4). cbv zeta in *.
      split; [destruct H1 as [->|?]; auto|]. split; [|split; auto].
      * apply xle_trans with x; auto. now apply xlt_le.
      * intros y [<-|Hy]; auto.
    + destruct (IH a Ha Hxs) as (H1 & H2 & H3 & H4). cbv zeta in *.
      split; [destruct H1 as [H1|?]; auto|]. split; auto. split; auto.
      intros y [<-|Hy]; auto. apply xle_trans with a; auto.
      apply xnlt_le; auto. unfold xlt; congruence.
Qed.

Lemma pymin_from_spec (l : list xr) : forall a, xok a -> Forall xok l ->
  let m := pymin_from a l in
  (m = a \/ In m l) /\ xle m a /\ (forall x, In x l -> xle m x) /\ xok m.
Proof.
  induction l as [|x xs IH]; intros a Ha Hl; cbn.
  - split; auto. split; [now apply xle_refl|]. split; auto. intros y [].
  - inversion Hl as [|? ? Hx Hxs]; subst.
    change (fold_left _ xs ?b) with (pymin_from b xs).
    destruct (xltb x a) eqn:E.
    + destruct (IH x Hx Hxs) as (H1 & H2 & H3 & H4). cbv zeta in *.
      split; [destruct H1 as [->|?]; auto|]. split; [|split; auto].
      * apply xle_trans with x; auto. now apply xlt_le.
      * intros y [<-|Hy]; auto.
    + destruct (IH a Ha Hxs) as (H1 & H2 & H3 & H4). cbv zeta in *.
      split; [destruct H1 as [H1|?]; auto|]. split; auto. split; auto.
      intros y [<-|Hy]; auto. apply xle_trans with a; auto.
      apply xnlt_le; auto. unfold xlt; congruence.
Qed.

Lemma pymax_spec (l : list xr) m : Forall xok l -> pymax l = Ok m ->
  In m l /\ forall x, In x l -> xle x m.
Proof.
  destruct l as [|a l]; simpl; [discriminate|]. intros Hl H; inversion H; subst.
  inversion Hl as [|? ? Ha Hl']; subst.
  destruct (pymax_from_spec l a Ha Hl') as (H1 & H2 & H3 & _). cbv zeta in *.
  split; [destruct H1 as [->|?]; auto|]. intros x [<-|Hx]; auto.
Qed.

Lemma pymin_spec (l : list xr) m : Forall xok l -> pymin l = Ok m ->
  In m l /\ forall x, In x l -> xle m x.
Proof.
  destruct l as [|a l]; simpl; [discriminate|]. intros Hl H; inversion H; subst.
  inversion Hl as [|? ? Ha Hl']; subst.
  destruct (pymin_from_spec l a Ha Hl') as (H1 & H2 & H3 & _). cbv zeta in *.
  split; [destruct H1 as [->|?]; auto|]. intros x [<-|Hx]; auto.
Qed.

(** on lists of reals *)
Lemma Forall_xok_fin (l : list R) : Forall xok (map Fin l).
Proof. induction l; simpl; constructor; auto. discriminate. Qed.

Lemma pymax_fin (l : list R) : l <> [] ->
  exists m, pymax (map Fin l) = Ok (Fin m) /\ In m l /\ forall x, In x l -> (x <= m)%R.
Proof.
  intros Hl. destruct (pymax (map Fin l)) as [m|e] eqn:E; [|destruct l; simpl in *; congruence].
  destruct (pymax_spec _ _ (Forall_xok_fin l) E) as [H1 H2].
  apply in_map_iff in H1. destruct H1 as (r & <- & Hr). exists r. split; auto. split; auto.
  intros x Hx. apply xle_fin. apply H2. now apply in_map.
Qed.

Lemma pymin_fin (l : list R) : l <> [] ->
  exists m, pymin (map Fin l) = Ok (Fin m) /\ In m l /\ forall x, In x l -> (m <= x)%R.
Proof.
  intros Hl. destruct (pymin (map Fin l)) as [m|e] eqn:E; [|destruct l; simpl in *; congruence].
  destruct (pymin_spec _ _ (Forall_xok_fin l) E) as [H1 H2].
  apply in_map_iff in H1. destruct H1 as (r & <- & Hr). exists r. split; auto. split; auto.
  intros x Hx. apply xle_fin. apply H2. now apply in_map.
Qed.

(** ** linspace on reals *)

Lemma length_linspace {T} {N : Num T} a b n : length (linspace a b n) = n.
Proof. destruct n as [|[|n]]; simpl; auto. now rewrite map_length, seq_length. Qed.

Lemma nth_linspace_fin (a b : R) (n k : nat) :
  2 <= n -> k < n ->
  nth_error (linspace (Fin a) (Fin b) n) k
  = Some (Fin (a + INR k * ((b - a) / INR (n - 1)))).
Proof.
  intros Hn Hk. destruct n as [|[|n]]; try lia.
  unfold linspace. rewrite nth_error_tabulate_lt by auto. f_equal.
  assert (Hd : INR (S n) <> 0%R) by (apply not_0_INR; lia).
  replace (S (S n) - 1)%nat with (S n) by lia.
  unfold nofnat. cbn [nofZ nadd nsub nmul ndiv neqb XRnum].
  rewrite <- !INR_IZR_INZ.
  unfold xsub at 2 3. cbn [xopp xadd].
  change (xsub (Fin b) (Fin a)) with (Fin (b + - a)).
  rewrite !xdiv_fin by auto.
  destruct (Nat.eqb_spec k (S n)) as [->|Hne].
  - f_equal. field. auto.
  - cbn [xeqb]. destruct (Reqb_spec ((b + - a) / INR (S n)) 0) as [E|E].
    + cbn [xmul xadd]. f_equal. field. auto.
    + cbn [xmul xadd]. f_equal. field. auto.
Qed.

Lemma linspace_one_fin (a b : R) : linspace (Fin a) (Fin b) 1 = [Fin a].
Proof. unfold linspace. cbn. f_equal. f_equal. lra. Qed.
