(** A search for neighbours, and two catalogs. *)
From Verif Require Import Base Num M_Match S_Match L_Match.
Local Open Scope R_scope.

(** the first closest point *)
Fixpoint nearest_index (l : list point) (p : point) : nat :=
  match l with
  | [] => 0%nat
  | x :: l' => match l' with
               | [] => 0%nat
               | _ => let m := nearest_index l' p in
                      if Rleb (dist2 x p) (dist2 (nth m l' x) p) then 0%nat else S m
               end
  end.

Lemma step x y l p : nearest_index (x :: y :: l) p =
  if Rleb (dist2 x p) (dist2 (nth (nearest_index (y :: l) p) (y :: l) x) p) then 0%nat else S (nearest_index (y :: l) p).
Proof. reflexivity. Qed.

Lemma nearest_index_ok : finds_nearest nearest_index.
Proof.
  intros l a b c N.
  assert (G : exists q, nth_error l (nearest_index l (a, b, c)) = Some q /\ forall q', In q' l -> dist2 q (a, b, c) <= dist2 q' (a, b, c)).
  { induction l as [|x l IH]; [congruence|]. destruct l as [|y l].
    - exists x. split; auto. intros q' [->|[]]. lra.
    - destruct IH as (q & Hq & M); [discriminate|]. rewrite step.
      generalize (nth_error_nth _ _ x Hq). intros E. unfold point in *. rewrite E. destruct (Rleb_spec (dist2 x (a, b, c)) (dist2 q (a, b, c))) as [H|H].
      + exists x. split; auto. intros q' [<-|Hq']; [lra|]. specialize (M q' Hq'). lra.
      + exists q. split; auto. intros q' [<-|Hq']; [lra|]. apply M. auto. }
  destruct G as ([[d e] f] & Hq & M). exists d, e, f. split; auto. intros d' e' f' H. specialize (M _ H). unfold dist2 in M. exact M.
Qed.

Lemma quarter (k : Z) : cos (90 * PI / 180 + 2 * IZR k * PI) = 0.
Proof. rewrite cos_turn. replace (90 * PI / 180) with (PI / 2) by field. apply cos_PI2. Qed.

Lemma not_apart r1 r2 : cos (r1 * PI / 180) * cos (r2 * PI / 180) + sin (r1 * PI / 180) * sin (r2 * PI / 180) <> 1 -> ~ apart r1 0 r2 0 0.
Proof.
  intros H [_ A]. specialize (A _ _ _ _ _ _ eq_refl eq_refl).
  replace (0 * PI / 180) with 0 in A by field. rewrite cos_0, sin_0 in A. apply H. lra.
Qed.

Lemma apart_zero r1 r2 (k : Z) : r2 = r1 + 360 * IZR k -> apart r1 0 r2 0 0.
Proof.
  intros ->. split; [generalize PI_RGT_0; lra|]. intros a b c d e f T1 T2. unfold toward in *. injection T1 as -> -> ->. injection T2 as -> -> ->.
  replace ((r1 + 360 * IZR k) * PI / 180) with (r1 * PI / 180 + 2 * IZR k * PI) by field. rewrite cos_turn, sin_turn.
  replace (0 * PI / 180) with 0 by field. rewrite cos_0, sin_0. generalize (sc (r1 * PI / 180)). lra.
Qed.

Lemma away : ~ apart 0 0 450 0 0 /\ ~ apart 90 0 0 0 0.
Proof.
  split; apply not_apart.
  - replace (0 * PI / 180) with 0 by field. replace (450 * PI / 180) with (90 * PI / 180 + 2 * IZR 1 * PI) by field.
    rewrite quarter, sin_0. lra.
  - replace (0 * PI / 180) with 0 by field. rewrite sin_0. replace (90 * PI / 180) with (PI / 2) by field. rewrite cos_PI2. lra.
Qed.

Lemma two_sources : match_catalogs nearest_index [0; 90] [0; 0] [450; 0] [0; 0] 1 = Ok ([1; 0]%nat, [0; 0], [0; 0]).
Proof.
  assert (P : polar [0; 0] 1) by (intros d [<-|[<-|[]]]; lra).
  destruct (match_nearest nearest_index [0; 90] [0; 0] [450; 0] [0; 0] 1 nearest_index_ok eq_refl eq_refl ltac:(discriminate) P P)
    as (idx & d2 & d3 & -> & L1 & L2 & L3 & H). cbn [length] in *.
  destruct (H 0%nat 0 0 eq_refl eq_refl) as (m & s & Hm & Hs & H3 & r' & d' & Hr & Hd & A & M).
  destruct (H 1%nat 90 0 eq_refl eq_refl) as (n & s' & Hn & Hs' & H3' & q' & e' & Hq & He & A' & M').
  assert (s = 0).
  { destruct A as [A _]. apply Rle_antisym; [|lra]. apply (M 1%nat 0 0 0 eq_refl eq_refl). rewrite !Rmult_1_r. apply (apart_zero _ _ 0). ring. }
  assert (s' = 0).
  { destruct A' as [A' _]. apply Rle_antisym; [|lra]. apply (M' 0%nat 450 0 0 eq_refl eq_refl). rewrite !Rmult_1_r. apply (apart_zero _ _ 1). ring. }
  subst s s'. destruct away as [W1 W2]. 
  replace (2 * sin (0 / 2)) with 0 in * by (unfold Rdiv; rewrite Rmult_0_l, sin_0; ring).
  assert (m = 1%nat).
  { destruct m as [|[|m]]; auto; cbn in Hr, Hd; [|destruct m; discriminate]. injection Hr as <-. injection Hd as <-. rewrite !Rmult_1_r in A. contradiction. }
  assert (n = 0%nat).
  { destruct n as [|[|n]]; auto; cbn in Hq, He; [|destruct n; discriminate]. injection Hq as <-. injection He as <-. rewrite !Rmult_1_r in A'. contradiction. }
  subst. destruct idx as [|i1 [|i2 [|]]], d2 as [|x1 [|x2 [|]]], d3 as [|y1 [|y2 [|]]]; try discriminate. cbn in *. congruence.
Qed.

Lemma itself_ex : (forall k m r d r' d', k <> m -> nth_error [0; 90] k = Some r -> nth_error [0; 0] k = Some d ->
   nth_error [0; 90] m = Some r' -> nth_error [0; 0] m = Some d' -> ~ apart (r * 1) (d * 1) (r' * 1) (d' * 1) 0) /\
  match_catalogs nearest_index [0; 90] [0; 0] [0; 90] [0; 0] 1 = Ok ([0; 1]%nat, [0; 0], [0; 0]).
Proof.
  assert (D : forall k m r d r' d', k <> m -> nth_error [0; 90] k = Some r -> nth_error [0; 0] k = Some d ->
   nth_error [0; 90] m = Some r' -> nth_error [0; 0] m = Some d' -> ~ apart (r * 1) (d * 1) (r' * 1) (d' * 1) 0).
  { assert (Z : cos (0 * PI / 180) = 1 /\ sin (0 * PI / 180) = 0 /\ cos (90 * PI / 180) = 0).
    { replace (0 * PI / 180) with 0 by field. replace (90 * PI / 180) with (PI / 2) by field. rewrite cos_0, sin_0, cos_PI2. auto. }
    destruct Z as (Z1 & Z2 & Z3).
    intros [|[|k]] [|[|m]] r d r' d' K Hr Hd Hr' Hd'; cbn in *; try congruence; try (destruct k; discriminate); try (destruct m; discriminate);
      injection Hr as <-; injection Hd as <-; injection Hr' as <-; injection Hd' as <-; rewrite !Rmult_1_r; apply not_apart; rewrite Z1, Z2, Z3; lra. }
  split; auto. apply (match_itself nearest_index [0; 90] [0; 0] 1 nearest_index_ok); auto; try discriminate.
  intros d [<-|[<-|[]]]; lra.
Qed.

Lemma turn_ex : same_turn 15 [1; 2] [25; -22].
Proof. apply (st_cons 15 1 25 1); [lra|]. apply (st_cons 15 2 (-22) (-1)); [lra|]. constructor. Qed.
