(** Interpolation by steps and chords. *)
From Verif Require Import Base Num Numpy M_Utils M_Petrosian M_Interp M_Cubic M_Kinds S_PetObj S_Zoom S_Utils S_Petrosian S_PetroR S_Conv S_Noise S_Kinds
  L_Numpy L_Petrosian L_PetObj L_PetroR L_Conv L_Conv2 L_Zoom E_Petrosian E_Zoom E_Conv L_CubicEq.
Local Open Scope R_scope.

Lemma abs_le_both a b : Rabs a <= b -> - b <= a <= b.
Proof. unfold Rabs. destruct Rcase_abs; lra. Qed.

(** ** counting *)
Lemma count_prefix {A} (P : A -> bool) l d c : (c <= length l)%nat ->
  (forall j, (j < c)%nat -> P (nth j l d) = true) -> (forall j, (c <= j < length l)%nat -> P (nth j l d) = false) ->
  length (filter P l) = c.
Proof.
  revert c. induction l as [|x l IH]; intros c Hc Ht Hf; cbn [length] in *; [cbn; lia|]. cbn [filter].
  destruct c as [|c].
  - pose proof (Hf 0%nat ltac:(lia)) as H0. cbn [nth] in H0. rewrite H0. apply IH; [lia|intros; lia|]. intros j Hj. apply (Hf (S j)). lia.
  - pose proof (Ht 0%nat ltac:(lia)) as H0. cbn [nth] in H0. rewrite H0. cbn [length]. f_equal. apply IH; [lia| |]; intros j Hj; [apply (Ht (S j)); lia|apply (Hf (S j)); lia].
Qed.
Lemma nth_finR (l : list R) j : (j < length l)%nat -> nth j (map Fin l) (Fin 0) = Fin (at_ l j).
Proof. intros H. unfold at_. now rewrite (map_nth Fin). Qed.

Lemma left_count l x c : (c <= length l)%nat -> (forall j, (j < c)%nat -> at_ l j < x) -> (forall j, (c <= j < length l)%nat -> x <= at_ l j) ->
  searchsorted_left (map Fin l) (Fin x) = c.
Proof.
  intros Hc Ht Hf. unfold searchsorted_left. cbn [nisnan XRnum xisnan]. apply count_prefix with (d := Fin 0); rewrite ?map_length; auto.
  - intros j Hj. rewrite nth_finR by lia. cbn. now apply Rltb_true, Ht.
  - intros j Hj. rewrite nth_finR by lia. cbn. now apply Rltb_false, Hf.
Qed.
Lemma right_count l x c : (c <= length l)%nat -> (forall j, (j < c)%nat -> at_ l j <= x) -> (forall j, (c <= j < length l)%nat -> x < at_ l j) ->
  searchsorted_right (map Fin l) (Fin x) = c.
Proof.
  intros Hc Ht Hf. unfold searchsorted_right. cbn [nisnan XRnum xisnan]. apply count_prefix with (d := Fin 0); rewrite ?map_length; auto.
  - intros j Hj. rewrite nth_finR by lia. cbn. now apply Rleb_true, Ht.
  - intros j Hj. rewrite nth_finR by lia. cbn. now apply Rleb_false, Hf.
Qed.

(** the midpoints *)
Definition mids (xs : list R) : list R := map (fun i => (at_ xs i + at_ xs (S i)) / 2) (seq 0 (length xs - 1)).
Lemma mids_length xs : length (mids xs) = (length xs - 1)%nat.
Proof. unfold mids. now rewrite map_length, seq_length. Qed.
Lemma mids_at xs i : (S i < length xs)%nat -> at_ (mids xs) i = (at_ xs i + at_ xs (S i)) / 2.
Proof.
  intros H. unfold at_ at 1, mids. rewrite nth_indep with (d' := (fun i => (at_ xs i + at_ xs (S i)) / 2) 0%nat) by (rewrite map_length, seq_length; lia).
  rewrite (map_nth (fun i => (at_ xs i + at_ xs (S i)) / 2)), seq_nth by lia. reflexivity.
Qed.
Lemma midpoints_fin xs : midpoints (map Fin xs) = map Fin (mids xs).
Proof.
  induction xs as [|x0 xs IH]; [reflexivity|]. destruct xs as [|x1 xs]; [reflexivity|].
  assert (E : mids (x0 :: x1 :: xs) = (x0 + x1) / 2 :: mids (x1 :: xs)).
  { unfold mids. cbn [length]. replace (S (S (length xs)) - 1)%nat with (S (S (length xs) - 1)) by lia. cbn [seq map]. f_equal.
    rewrite <- seq_shift, map_map. apply map_ext. reflexivity. }
  rewrite E. cbn [map]. rewrite <- IH. unfold midpoints. cbn [map tl combine fst snd]. f_equal.
  cbn [ndiv XRnum nadd]. change (@n2 xr XRnum) with (Fin 2). rewrite !xdiv_fin by lra. cbn [xadd]. f_equal. lra.
Qed.

(** ** positions *)
Section Steps.
  Variables xs : list R.
  Hypothesis I : increasing xs.
  Variables (i : nat) (x : R).
  Hypothesis Hi : (S i < length xs)%nat.
  Hypothesis Hx : at_ xs i <= x <= at_ xs (S i).

  Lemma before j : (j < i)%nat -> at_ xs j < x.
  Proof. intros H. apply Rlt_le_trans with (at_ xs i); [apply inc_lt; auto; lia|lra]. Qed.
  Lemma after j : (S i < j < length xs)%nat -> x < at_ xs j.
  Proof. intros H. apply Rle_lt_trans with (at_ xs (S i)); [lra|apply inc_lt; auto; lia]. Qed.

  Lemma previous_at : previous_ix (map Fin xs) (Fin x) = if Rlt_dec x (at_ xs (S i)) then i else S i.
  Proof.
    unfold previous_ix. rewrite map_length. destruct Rlt_dec as [H|H].
    - rewrite (right_count xs x (S i)); [lia|lia| |].
      + intros j Hj. destruct (Nat.eq_dec j i) as [->|]; [lra|]. left. apply before. lia.
      + intros j Hj. destruct (Nat.eq_dec j (S i)) as [->|]; [lra|]. apply after. lia.
    - rewrite (right_count xs x (S (S i))); [lia|lia| |].
      + intros j Hj. destruct (Nat.eq_dec j (S i)) as [->|]; [lra|]. destruct (Nat.eq_dec j i) as [->|]; [lra|]. left. apply before. lia.
      + intros j Hj. apply after. lia.
  Qed.
  Lemma next_at : next_ix (map Fin xs) (Fin x) = if Rlt_dec (at_ xs i) x then S i else i.
  Proof.
    unfold next_ix. rewrite map_length. destruct Rlt_dec as [H|H].
    - rewrite (left_count xs x (S i)); [lia|lia| |].
      + intros j Hj. destruct (Nat.eq_dec j i) as [->|]; [lra|]. apply before. lia.
      + intros j Hj. destruct (Nat.eq_dec j (S i)) as [->|]; [lra|]. left. apply after. lia.
    - rewrite (left_count xs x i); [lia|lia| |].
      + intros j Hj. apply before. lia.
      + intros j Hj. destruct (Nat.eq_dec j i) as [->|]; [lra|]. destruct (Nat.eq_dec j (S i)) as [->|]; [lra|]. left. apply after. lia.
  Qed.
  Lemma mid_before j : (j < i)%nat -> at_ (mids xs) j < x.
  Proof.
    intros H. rewrite mids_at by lia. pose proof (before j H). destruct (Nat.eq_dec (S j) i) as [E|].
    - rewrite E. lra.
    - pose proof (before (S j) ltac:(lia)). lra.
  Qed.
  Lemma mid_after j : (i < j < length xs - 1)%nat -> x < at_ (mids xs) j.
  Proof.
    intros H. rewrite mids_at by lia. pose proof (after (S j) ltac:(lia)). destruct (Nat.eq_dec j (S i)) as [E|].
    - rewrite E in *. lra.
    - pose proof (after j ltac:(lia)). lra.
  Qed.
  Lemma nearest_at : nearest_ix (map Fin xs) (Fin x) = if Rlt_dec ((at_ xs i + at_ xs (S i)) / 2) x then S i else i.
  Proof.
    unfold nearest_ix. rewrite map_length, midpoints_fin. rewrite <- (mids_at xs i) by auto. destruct Rlt_dec as [H|H].
    - rewrite (left_count (mids xs) x (S i)); [lia|rewrite mids_length; lia| |]; rewrite ?mids_length.
      + intros j Hj. destruct (Nat.eq_dec j i) as [->|]; [lra|]. apply mid_before. lia.
      + intros j Hj. left. apply mid_after. lia.
    - rewrite (left_count (mids xs) x i); [lia|rewrite mids_length; lia| |]; rewrite ?mids_length.
      + intros j Hj. apply mid_before. lia.
      + intros j Hj. destruct (Nat.eq_dec j i) as [->|]; [lra|]. left. apply mid_after. lia.
  Qed.
  Lemma nearest_up_at : nearest_up_ix (map Fin xs) (Fin x) = if Rle_dec ((at_ xs i + at_ xs (S i)) / 2) x then S i else i.
  Proof.
    unfold nearest_up_ix. rewrite map_length, midpoints_fin. rewrite <- (mids_at xs i) by auto. destruct Rle_dec as [H|H].
    - rewrite (right_count (mids xs) x (S i)); [lia|rewrite mids_length; lia| |]; rewrite ?mids_length.
      + intros j Hj. destruct (Nat.eq_dec j i) as [->|]; [lra|]. left. apply mid_before. lia.
      + intros j Hj. apply mid_after. lia.
    - rewrite (right_count (mids xs) x i); [lia|rewrite mids_length; lia| |]; rewrite ?mids_length.
      + intros j Hj. left. apply mid_before. lia.
      + intros j Hj. destruct (Nat.eq_dec j i) as [->|]; [lra|]. apply mid_after. lia.
  Qed.
  Lemma near_sorted (low : bool) m : (m = i /\ (if low then x <= (at_ xs i + at_ xs (S i)) / 2 else x < (at_ xs i + at_ xs (S i)) / 2)) \/
      (m = S i /\ (if low then (at_ xs i + at_ xs (S i)) / 2 < x else (at_ xs i + at_ xs (S i)) / 2 <= x)) ->
    forall j, (j < length xs)%nat -> j <> m -> Rabs (x - at_ xs m) < Rabs (x - at_ xs j) \/
      (Rabs (x - at_ xs m) = Rabs (x - at_ xs j) /\ if low then (m < j)%nat else (j < m)%nat).
  Proof.
    pose proof (I i Hi) as Ii. assert (A1 : Rabs (x - at_ xs i) = x - at_ xs i) by (apply Rabs_pos_eq; lra).
    assert (A2 : Rabs (x - at_ xs (S i)) = at_ xs (S i) - x) by (rewrite Rabs_minus_sym; apply Rabs_pos_eq; lra).
    intros Hm j Hj Ne.
    assert (D : (j < i)%nat \/ j = i \/ j = S i \/ (S i < j)%nat) by lia.
    destruct Hm as [[-> Hm]|[-> Hm]].
    - rewrite A1. destruct D as [D|[D|[D|D]]].
      + left. pose proof (inc_lt xs j i I ltac:(lia) ltac:(lia)). rewrite Rabs_pos_eq; lra.
      + contradiction.
      + subst j. rewrite A2. destruct low; [|left; lra]. destruct (Req_dec (x - at_ xs i) (at_ xs (S i) - x)); [right; split; [auto|lia]|left; lra].
      + left. pose proof (inc_lt xs (S i) j I ltac:(lia) ltac:(lia)). rewrite Rabs_minus_sym, Rabs_pos_eq; destruct low; lra.
    - rewrite A2. destruct D as [D|[D|[D|D]]].
      + left. pose proof (inc_lt xs j i I ltac:(lia) ltac:(lia)). rewrite Rabs_pos_eq; destruct low; lra.
      + subst j. rewrite A1. destruct low; [left; lra|]. destruct (Req_dec (x - at_ xs i) (at_ xs (S i) - x)); [right; split; [auto|lia]|left; lra].
      + contradiction.
      + left. pose proof (inc_lt xs (S i) j I ltac:(lia) ltac:(lia)). rewrite Rabs_minus_sym, Rabs_pos_eq; lra.
  Qed.
End Steps.

Lemma step_fin ix xs ys x c : ix (map Fin xs) (Fin x) = c -> (c < length ys)%nat -> step_at_ix ix (map Fin xs) (map Fin ys) (Fin x) = Fin (at_ ys c).
Proof. intros E H. unfold step_at_ix. rewrite E. rewrite nth_indep with (d' := Fin 0) by now rewrite map_length. now apply nth_finR. Qed.

Lemma linear_chord xs ys i q : increasing xs -> length xs = length ys -> (S i < length xs)%nat -> at_ xs i <= q <= at_ xs (S i) ->
  exists y, linear_at (map Fin xs) (map Fin ys) (Fin q) = Fin y /\
    (y - at_ ys i) * (at_ xs (S i) - at_ xs i) = (at_ ys (S i) - at_ ys i) * (q - at_ xs i).
Proof.
  revert ys i. induction xs as [|x0 xs IH]; intros ys i I L Hi Hq; [cbn in Hi; lia|].
  destruct xs as [|x1 rest]; [cbn in Hi; lia|].
  destruct ys as [|y0 [|y1 yr]]; try (cbn in L; lia).
  assert (I0 : x0 < x1) by (apply (I 0%nat); cbn; lia).
  assert (I' : increasing (x1 :: rest)) by (intros j Hj; apply (I (S j)); cbn in *; lia).
  cbn [map linear_at]. cbn [nleb XRnum xleb].
  change (nsub (Fin y1) (Fin y0)) with (Fin (y1 - y0)). change (nsub (Fin x1) (Fin x0)) with (Fin (x1 - x0)).
  change (nsub (Fin q) (Fin x0)) with (Fin (q - x0)).
  assert (D : nadd (nmul (ndiv (Fin (y1 - y0)) (Fin (x1 - x0))) (Fin (q - x0))) (Fin y0)
     = Fin ((y1 - y0) / (x1 - x0) * (q - x0) + y0)) by (cbn [ndiv XRnum]; rewrite xdiv_fin by lra; reflexivity).
  rewrite D. destruct i as [|i].
  - unfold at_ in *. cbn [nth] in *. rewrite Rleb_true by lra. eexists. split; [reflexivity|]. field. lra.
  - change (at_ (x0 :: x1 :: rest) (S i)) with (at_ (x1 :: rest) i) in Hq |- *.
    change (at_ (x0 :: x1 :: rest) (S (S i))) with (at_ (x1 :: rest) (S i)) in Hq |- *.
    change (at_ (y0 :: y1 :: yr) (S i)) with (at_ (y1 :: yr) i).
    change (at_ (y0 :: y1 :: yr) (S (S i))) with (at_ (y1 :: yr) (S i)).
    assert (Hi' : (S i < length (x1 :: rest))%nat) by (cbn in *; lia).
    destruct (IH (y1 :: yr) i I' ltac:(cbn in *; lia) Hi' Hq) as (y & Ey & By).
    destruct (Rle_lt_dec q x1) as [Hl|Hl].
    + rewrite Rleb_true by auto. eexists. split; [reflexivity|].
      assert (i = 0%nat) as ->.
      { destruct i; auto. pose proof (inc_lt (x1 :: rest) 0 (S i) I' ltac:(lia) ltac:(lia)) as X. unfold at_ at 1 in X. cbn [nth] in X. lra. }
      unfold at_ in *. cbn [nth] in *. assert (q = x1) as -> by lra.
      replace ((y1 - y0) / (x1 - x0) * (x1 - x0) + y0) with y1 by (field; lra). ring.
    + rewrite Rleb_false by lra. destruct rest as [|x2 rest]; [cbn in Hi'; lia|]. exists y. split; auto.
Qed.

Section Kinds.
  Variable other : kind -> list xr -> list xr -> result (xr -> xr).
  Notation mk := (mk_scipy other).

  (** every uncurved kind gives a convex combination, with weights that depend on the abscissae only *)
  Definition mixes (f : list R -> xr -> xr) (xs : list R) : Prop :=
    forall i x, (S i < length xs)%nat -> at_ xs i <= x <= at_ xs (S i) -> exists t, 0 <= t <= 1 /\
      forall ys, length ys = length xs -> f ys (Fin x) = Fin ((1 - t) * at_ ys i + t * at_ ys (S i)).

  Lemma straight_mixes k xs : uncurved k -> increasing xs -> (2 <= length xs)%nat -> exists f,
    (forall ys, length ys = length xs -> mk k (map Fin xs) (map Fin ys) = Ok (f ys)) /\ mixes f xs /\
    forall ys x, length ys = length xs -> at_ xs 0 <= x <= last_of xs -> exists y, f ys (Fin x) = Fin y /\ kind_value k xs ys x y.
  Proof.
    intros Sk I L2.
    assert (Lin : mixes (fun ys => linear_at (map Fin xs) (map Fin ys)) xs /\
      forall ys x, length ys = length xs -> at_ xs 0 <= x <= last_of xs -> exists y, linear_at (map Fin xs) (map Fin ys) (Fin x) = Fin y /\ chord_value xs ys x y).
    { split.
      - intros i x Hi Hx. pose proof (I i Hi) as Ii. exists ((x - at_ xs i) / (at_ xs (S i) - at_ xs i)).
        assert (0 < / (at_ xs (S i) - at_ xs i)) by (apply Rinv_0_lt_compat; lra). split.
        + split; [apply Rmult_le_pos; lra|]. apply Rmult_le_reg_r with (at_ xs (S i) - at_ xs i); [lra|]. unfold Rdiv. rewrite Rmult_assoc, Rinv_l by lra. lra.
        + intros ys Ly. destruct (linear_chord xs ys i x I ltac:(auto) Hi Hx) as (y & Ey & Cy). rewrite Ey. f_equal.
          apply Rmult_eq_reg_r with (at_ xs (S i) - at_ xs i); [|lra].
          replace (((1 - (x - at_ xs i) / (at_ xs (S i) - at_ xs i)) * at_ ys i + (x - at_ xs i) / (at_ xs (S i) - at_ xs i) * at_ ys (S i)) * (at_ xs (S i) - at_ xs i))
            with (at_ ys i * (at_ xs (S i) - at_ xs i) + (at_ ys (S i) - at_ ys i) * (x - at_ xs i)) by (field; lra). lra.
      - intros ys x Ly Hx. destruct (find_step xs x L2 Hx) as (i & Hi & Hxi).
        destruct (linear_chord xs ys i x I ltac:(auto) Hi Hxi) as (y & Ey & Cy). exists y. split; auto. exists i. auto. }
    assert (St : forall ix (V : list R -> list R -> R -> R -> Prop),
      (forall i x, (S i < length xs)%nat -> at_ xs i <= x <= at_ xs (S i) ->
         (ix (map Fin xs) (Fin x) = i \/ ix (map Fin xs) (Fin x) = S i) /\ forall ys, V xs ys x (at_ ys (ix (map Fin xs) (Fin x)))) ->
      mixes (fun ys => step_at_ix ix (map Fin xs) (map Fin ys)) xs /\
      forall ys x, length ys = length xs -> at_ xs 0 <= x <= last_of xs -> exists y, step_at_ix ix (map Fin xs) (map Fin ys) (Fin x) = Fin y /\ V xs ys x y).
    { intros ix V H. split.
      - intros i x Hi Hx. destruct (H i x Hi Hx) as [[E|E] _]; [exists 0|exists 1]; (split; [lra|]); intros ys Ly;
          [rewrite (step_fin ix xs ys x i E) by lia|rewrite (step_fin ix xs ys x (S i) E) by lia]; f_equal; lra.
      - intros ys x Ly Hx. destruct (find_step xs x L2 Hx) as (i & Hi & Hxi). destruct (H i x Hi Hxi) as [D HV].
        exists (at_ ys (ix (map Fin xs) (Fin x))). split; [apply step_fin; auto; destruct D as [->| ->]; lia|apply HV]. }
    assert (Pv : forall i x, (S i < length xs)%nat -> at_ xs i <= x <= at_ xs (S i) ->
       (previous_ix (map Fin xs) (Fin x) = i \/ previous_ix (map Fin xs) (Fin x) = S i) /\
       forall ys, previous_value xs ys x (at_ ys (previous_ix (map Fin xs) (Fin x)))).
    { intros i x Hi Hx. rewrite (previous_at xs I i x Hi Hx). destruct Rlt_dec as [H|H]; (split; [auto|]); intros ys.
      - exists i. split; [lia|]. split; auto. split; [lra|]. intros j Hj. destruct (Nat.eq_dec j (S i)) as [->|]; auto. apply (after xs I i x); auto; lia.
      - exists (S i). split; [lia|]. split; auto. split; [lra|]. intros j Hj. apply (after xs I i x); auto; lia. }
    assert (Nx : forall i x, (S i < length xs)%nat -> at_ xs i <= x <= at_ xs (S i) ->
       (next_ix (map Fin xs) (Fin x) = i \/ next_ix (map Fin xs) (Fin x) = S i) /\
       forall ys, next_value xs ys x (at_ ys (next_ix (map Fin xs) (Fin x)))).
    { intros i x Hi Hx. rewrite (next_at xs I i x Hi Hx). destruct Rlt_dec as [H|H]; (split; [auto|]); intros ys.
      - exists (S i). split; [lia|]. split; auto. split; [lra|]. intros j Hj. destruct (Nat.eq_dec j i) as [->|]; auto. apply (before xs I i x); auto; lia.
      - exists i. split; [lia|]. split; auto. split; [lra|]. intros j Hj. apply (before xs I i x); auto; lia. }
    assert (Ne : forall i x, (S i < length xs)%nat -> at_ xs i <= x <= at_ xs (S i) ->
       (nearest_ix (map Fin xs) (Fin x) = i \/ nearest_ix (map Fin xs) (Fin x) = S i) /\
       forall ys, nearest_value true xs ys x (at_ ys (nearest_ix (map Fin xs) (Fin x)))).
    { intros i x Hi Hx. rewrite (nearest_at xs I i x Hi Hx). destruct Rlt_dec as [H|H]; (split; [auto|]); intros ys.
      - exists (S i). split; [lia|]. split; auto. apply (near_sorted xs I i x Hi Hx true). right. auto.
      - exists i. split; [lia|]. split; auto. apply (near_sorted xs I i x Hi Hx true). left. split; auto. lra. }
    assert (Nu : forall i x, (S i < length xs)%nat -> at_ xs i <= x <= at_ xs (S i) ->
       (nearest_up_ix (map Fin xs) (Fin x) = i \/ nearest_up_ix (map Fin xs) (Fin x) = S i) /\
       forall ys, nearest_value false xs ys x (at_ ys (nearest_up_ix (map Fin xs) (Fin x)))).
    { intros i x Hi Hx. rewrite (nearest_up_at xs I i x Hi Hx). destruct Rle_dec as [H|H]; (split; [auto|]); intros ys.
      - exists (S i). split; [lia|]. split; auto. apply (near_sorted xs I i x Hi Hx false). right. auto.
      - exists i. split; [lia|]. split; auto. apply (near_sorted xs I i x Hi Hx false). left. split; auto. lra. }
    assert (Ze : mixes (fun ys => zero_at (map Fin xs) (map Fin ys)) xs /\
      forall ys x, length ys = length xs -> at_ xs 0 <= x <= last_of xs -> exists y, zero_at (map Fin xs) (map Fin ys) (Fin x) = Fin y /\ previous_value xs ys x y).
    { exact (St previous_ix previous_value Pv). }
    assert (E : forall ys, length ys = length xs -> Nat.eqb (length (map Fin xs)) (length (map Fin ys)) = true).
    { intros ys Ly. rewrite !map_length, Ly. apply Nat.eqb_refl. }
    assert (E2 : Nat.ltb (length (map Fin xs)) 2 = false) by (rewrite map_length; apply Nat.ltb_ge; lia).
    destruct Sk as [->|[->|[->|[->|[->|[->|[->|[->| ->]]]]]]]].
    - exists (fun ys => linear_at (map Fin xs) (map Fin ys)). split; [intros ys Ly; unfold mk_scipy; now rewrite E by auto|]. exact Lin.
    - exists (fun ys => linear_at (map Fin xs) (map Fin ys)). split; [intros ys Ly; unfold mk_scipy; now rewrite E, E2 by auto|]. exact Lin.
    - exists (fun ys => linear_at (map Fin xs) (map Fin ys)). split; [intros ys Ly; unfold mk_scipy; now rewrite E, E2 by auto|]. exact Lin.
    - exists (fun ys => zero_at (map Fin xs) (map Fin ys)). split; [intros ys Ly; unfold mk_scipy; now rewrite E by auto|]. exact Ze.
    - exists (fun ys => zero_at (map Fin xs) (map Fin ys)). split; [intros ys Ly; unfold mk_scipy; now rewrite E by auto|]. exact Ze.
    - exists (fun ys => step_at_ix nearest_ix (map Fin xs) (map Fin ys)). split; [intros ys Ly; unfold mk_scipy; now rewrite E by auto|]. exact (St _ _ Ne).
    - exists (fun ys => step_at_ix nearest_up_ix (map Fin xs) (map Fin ys)). split; [intros ys Ly; unfold mk_scipy; now rewrite E by auto|]. exact (St _ _ Nu).
    - exists (fun ys => step_at_ix previous_ix (map Fin xs) (map Fin ys)). split; [intros ys Ly; unfold mk_scipy; now rewrite E by auto|]. exact (St _ _ Pv).
    - exists (fun ys => step_at_ix next_ix (map Fin xs) (map Fin ys)). split; [intros ys Ly; unfold mk_scipy; now rewrite E by auto|]. exact (St _ _ Nx).
  Qed.

  Theorem kind_values k xs ys : uncurved k -> increasing xs -> (2 <= length xs)%nat -> length ys = length xs ->
    exists f, mk k (map Fin xs) (map Fin ys) = Ok f /\
      forall x, at_ xs 0 <= x <= last_of xs -> exists y, f (Fin x) = Fin y /\ kind_value k xs ys x y.
  Proof.
    intros Sk I L2 Ly. destruct (straight_mixes k xs Sk I L2) as (f & E & _ & V). exists (f ys). split; auto.
  Qed.

  Theorem straight_between k : uncurved k -> no_overshoot (mk k).
  Proof.
    intros Sk xs ys I L L2. destruct (straight_mixes k xs Sk I L2) as (f & E & M & _). exists (f ys). split; auto.
    intros i x Hi Hx. destruct (M i x Hi Hx) as (t & Ht & Hf). eexists. split; [apply Hf; auto|].
    destruct (Rle_lt_dec (at_ ys i) (at_ ys (S i))); [left|right]; nra.
  Qed.

  Theorem straight_steady k xs : uncurved k -> increasing xs -> (2 <= length xs)%nat ->
    forall ys ys' d, length ys = length xs -> near d ys ys' ->
    exists f f', mk k (map Fin xs) (map Fin ys) = Ok f /\ mk k (map Fin xs) (map Fin ys') = Ok f' /\
      forall x, at_ xs 0 <= x <= last_of xs -> exists v v', f (Fin x) = Fin v /\ f' (Fin x) = Fin v' /\ Rabs (v' - v) <= d.
  Proof.
    intros Sk I L2 ys ys' d Ly [Ly' Hn]. destruct (straight_mixes k xs Sk I L2) as (f & E & M & _).
    exists (f ys), (f ys'). split; [auto|]. split; [apply E; congruence|]. intros x Hx.
    destruct (find_step xs x L2 Hx) as (i & Hi & Hxi). destruct (M i x Hi Hxi) as (t & Ht & Hf).
    eexists. eexists. split; [apply Hf; auto|]. split; [apply Hf; congruence|].
    pose proof (Hn i ltac:(lia)) as B1. pose proof (Hn (S i) ltac:(lia)) as B2. apply abs_le_both in B1. apply abs_le_both in B2.
    apply Rabs_le. nra.
  Qed.
End Kinds.
