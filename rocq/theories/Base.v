(** Exceptions as values and list helpers shared by the whole model. *)
From Coq Require Export List Arith ZArith Lia Bool.
Export ListNotations.

(** Python exceptions petrofit (or the library code it calls) can raise. *)
Inductive exn : Set :=
| AssertionError | ValueError | TypeError | KeyError | AttributeError
| NotImplementedError | ZeroDivisionError | IndexError | OverflowError | GenericException.

Inductive result (A : Type) : Type :=
| Ok (a : A)
| Err (e : exn).
Arguments Ok {A} a.
Arguments Err {A} e.

Definition bind {A B} (m : result A) (f : A -> result B) : result B :=
  match m with Ok a => f a | Err e => Err e end.

Notation "'do' x <- m ; f" := (bind m (fun x => f))
  (at level 200, x name, m at level 100, f at level 200).

(** Python [assert b]. *)
Definition assert_ {A} (b : bool) (k : result A) : result A :=
  if b then k else Err AssertionError.

Definition is_ok {A} (m : result A) : bool :=
  match m with Ok _ => true | Err _ => false end.

Fixpoint mapM {A B} (f : A -> result B) (l : list A) : result (list B) :=
  match l with
  | [] => Ok []
  | x :: xs => do y <- f x; do ys <- mapM f xs; Ok (y :: ys)
  end.

Fixpoint map2 {A B C} (f : A -> B -> C) (l : list A) (m : list B) : list C :=
  match l, m with
  | x :: xs, y :: ys => f x y :: map2 f xs ys
  | _, _ => []
  end.

(** [tabulate n f] is the list [f 0; ...; f (n-1)]. *)
Definition tabulate {A} (n : nat) (f : nat -> A) : list A := map f (seq 0 n).

Definition set_head {A} (a : A) (l : list A) : list A :=
  match l with [] => [] | _ :: xs => a :: xs end.

(** ** Lemmas *)

Lemma length_map2 {A B C} (f : A -> B -> C) l m :
  length (map2 f l m) = Nat.min (length l) (length m).
Proof.
  revert m; induction l as [|x xs IH]; intros [|y ys]; simpl; auto.
Qed.

Lemma nth_error_map2 {A B C} (f : A -> B -> C) l m i :
  nth_error (map2 f l m) i =
  match nth_error l i, nth_error m i with
  | Some x, Some y => Some (f x y)
  | _, _ => None
  end.
Proof.
  revert m i; induction l as [|x xs IH]; intros [|y ys] [|i]; simpl; auto.
  - now destruct (nth_error xs i).
Qed.

Lemma length_tabulate {A} n (f : nat -> A) : length (tabulate n f) = n.
Proof. unfold tabulate. now rewrite map_length, seq_length. Qed.

Lemma nth_error_seq a n i :
  nth_error (seq a n) i = if i <? n then Some (a + i) else None.
Proof.
  revert a i; induction n as [|n IH]; intros a [|i]; cbn [seq nth_error]; auto.
  - now rewrite Nat.add_0_r.
  - rewrite IH. change (S i <? S n) with (i <? n). destruct (i <? n); auto.
    f_equal; lia.
Qed.

Lemma nth_error_tabulate {A} n (f : nat -> A) i :
  nth_error (tabulate n f) i = if i <? n then Some (f i) else None.
Proof.
  unfold tabulate. rewrite nth_error_map, nth_error_seq. simpl.
  now destruct (i <? n).
Qed.

Lemma nth_error_tabulate_lt {A} n (f : nat -> A) i :
  i < n -> nth_error (tabulate n f) i = Some (f i).
Proof.
  intros H. rewrite nth_error_tabulate. now apply Nat.ltb_lt in H; rewrite H.
Qed.

Lemma nth_error_ext {A} (l m : list A) :
  (forall i, nth_error l i = nth_error m i) -> l = m.
Proof.
  revert m; induction l as [|x xs IH]; intros [|y ys] H; auto.
  - specialize (H 0); discriminate.
  - specialize (H 0); discriminate.
  - f_equal.
    + specialize (H 0); simpl in H; congruence.
    + apply IH. intros i. exact (H (S i)).
Qed.

Lemma mapM_Ok_iff {A B} (f : A -> result B) l ys :
  mapM f l = Ok ys <-> Forall2 (fun x y => f x = Ok y) l ys.
Proof.
  revert ys; induction l as [|x xs IH]; intros ys; simpl.
  - split; intros H; inversion H; auto.
  - split.
    + destruct (f x) as [y|e] eqn:Hx; simpl; [|discriminate].
      destruct (mapM f xs) as [zs|e] eqn:Hxs; simpl; [|discriminate].
      intros H; inversion H; subst. constructor; auto. now apply IH.
    + intros H; inversion H as [|? y ? zs Hx Hxs]; subst.
      rewrite Hx; simpl. apply IH in Hxs. now rewrite Hxs.
Qed.

Lemma mapM_Ok_map {A B} (f : A -> result B) (g : A -> B) l :
  (forall x, In x l -> f x = Ok (g x)) -> mapM f l = Ok (map g l).
Proof.
  induction l as [|x xs IH]; simpl; intros H; auto.
  rewrite (H x) by auto. simpl. rewrite IH by auto. reflexivity.
Qed.

Lemma mapM_Err {A B} (f : A -> result B) l e :
  mapM f l = Err e -> exists x, In x l /\ f x = Err e.
Proof.
  induction l as [|x xs IH]; simpl; [discriminate|].
  destruct (f x) as [y|e'] eqn:Hx; simpl.
  - destruct (mapM f xs) as [ys|e'']; simpl; [discriminate|].
    intros H; inversion H; subst. destruct IH as (z & Hz & Hz'); auto. eauto.
  - intros H; inversion H; subst. eauto.
Qed.

Lemma mapM_length {A B} (f : A -> result B) l ys :
  mapM f l = Ok ys -> length ys = length l.
Proof.
  intros H. apply mapM_Ok_iff in H. induction H; simpl; auto.
Qed.

Lemma mapM_nth {A B} (f : A -> result B) l ys i x :
  mapM f l = Ok ys -> nth_error l i = Some x ->
  exists y, nth_error ys i = Some y /\ f x = Ok y.
Proof.
  intros H. apply mapM_Ok_iff in H. revert i.
  induction H as [|a b l m Hab HF IH]; intros [|i]; simpl; try discriminate.
  - intros Hx; inversion Hx; subst; eauto.
  - auto.
Qed.

Lemma Some_inj {A} (x y : A) : Some x = Some y -> x = y.
Proof. congruence. Qed.
Lemma Ok_inj {A} (x y : A) : Ok x = Ok y -> x = y.
Proof. congruence. Qed.
Ltac injs :=
  repeat match goal with
  | H : Some _ = Some _ |- _ => apply Some_inj in H
  | H : Ok _ = Ok _ |- _ => apply Ok_inj in H
  end; subst.

Lemma bind_Ok {A B} (m : result A) (f : A -> result B) b :
  bind m f = Ok b -> exists a, m = Ok a /\ f a = Ok b.
Proof. destruct m; simpl; [eauto|discriminate]. Qed.
