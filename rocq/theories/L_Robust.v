(** Petrosian measurements with a residual background. *)
From Verif Require Import Base Num Numpy M_Utils M_Petrosian S_Utils S_Petrosian S_PetroR S_Conv S_Robust
  L_Numpy L_Petrosian L_PetroR L_FracR L_Conv L_Conv2 L_Conv3.
Local Open Scope R_scope.

(** ** The search, over finite samples *)
Lemma search_index gr v g y out : length g = length y -> found_radius gr v g (map Fin y) out ->
  (out = NaN /\ forall k, (k < length g)%nat -> 0 < gap gr v (at_ y k)) \/
  exists i c, out = Fin (at_ g i) /\ (i <= c < length g)%nat /\ gap gr v (at_ y c) <= 0 /\
    (forall j, (j < c)%nat -> 0 < gap gr v (at_ y j)) /\
    (forall j, (j <= c)%nat -> Rabs (gap gr v (at_ y i)) <= Rabs (gap gr v (at_ y j))) /\
    (forall j, (j < i)%nat -> Rabs (gap gr v (at_ y i)) < Rabs (gap gr v (at_ y j))).
Proof.
  intros Lg [[N ->]|[_ (i & a & -> & Ei & C)]].
  - left. split; auto. intros k Hk. apply Rnot_le_lt. intros H. apply N. exists (Fin (at_ y k)).
    split; [apply in_map, nth_In; lia|now apply crossed_gap].
  - right.
    assert (X : Forall xok (map Fin y)) by (apply Forall_forall; intros z Hz; apply in_map_iff in Hz; destruct Hz as (? & <- & _); discriminate).
    destruct (C X) as (c & x & [(xc & Ec & Cc) Fc] & Hic & Ex & Cl & Cf).
    assert (Lc : (c < length y)%nat) by (rewrite <- (map_length Fin); apply nth_error_Some; congruence).
    assert (xc = Fin (at_ y c)) as -> by (rewrite nth_fin in Ec by auto; congruence).
    assert (x = Fin (at_ y i)) as -> by (rewrite nth_fin in Ex by lia; congruence).
    assert (a = at_ g i) as -> by (rewrite at_nth_error in Ei by lia; congruence).
    exists i, c. split; auto. split; [lia|]. split; [now apply crossed_gap|]. split; [|split].
    + intros j Hj. apply Rnot_le_lt. intros H. apply (Fc j (Fin (at_ y j)) Hj); [apply nth_fin; lia|now apply crossed_gap].
    + intros j Hj. specialize (Cl j (Fin (at_ y j)) Hj ltac:(apply nth_fin; lia)). cbn [dist] in Cl.
      rewrite !(gap_abs gr) in Cl. now apply xle_fin in Cl.
    + intros j Hj. specialize (Cf j (Fin (at_ y j)) Hj ltac:(apply nth_fin; lia)). cbn [dist] in Cf.
      rewrite !(gap_abs gr) in Cf. unfold xlt in Cf. cbn [xltb] in Cf. now apply Rltb_iff in Cf.
Qed.

(** samples further from the target, and strictly approaching it: the radius is not smaller *)
Lemma search_le gr v g y z out out' : nondecreasing g -> length g = length y -> length g = length z ->
  (forall k, (k < length g)%nat -> gap gr v (at_ y k) <= gap gr v (at_ z k)) ->
  (forall j k, (j < k < length g)%nat -> gap gr v (at_ z k) < gap gr v (at_ z j)) ->
  found_radius gr v g (map Fin y) out -> found_radius gr v g (map Fin z) out' ->
  forall a', out' = Fin a' -> exists a, out = Fin a /\ a <= a'.
Proof.
  intros Ng Ly Lz Le De Fy Fz a' ->.
  apply search_index in Fz; auto. destruct Fz as [[E _]|(i' & c' & E & Hc' & G' & B' & M' & _)]; [discriminate E|].
  injection E as ->. apply search_index in Fy; auto.
  destruct Fy as [[-> N]|(i & c & -> & Hc & G & B & M & S1)].
  - exfalso. specialize (N c' ltac:(lia)). specialize (Le c' ltac:(lia)). lra.
  - exists (at_ g i). split; auto. apply nondec_le; auto; [|lia].
    assert (Cc : (c <= c')%nat).
    { destruct (Nat.le_gt_cases c c') as [|H]; auto. specialize (B c' H). specialize (Le c' ltac:(lia)). lra. }
    assert (I1 : (c' <= S i')%nat).
    { destruct (Nat.le_gt_cases c' (S i')) as [|H]; auto. exfalso.
      pose proof (B' i' ltac:(lia)). pose proof (B' (S i') H). specialize (M' (S i') ltac:(lia)).
      rewrite !Rabs_pos_eq in M' by lra. specialize (De i' (S i') ltac:(lia)). lra. }
    destruct (Nat.le_gt_cases i i') as [|H]; auto. exfalso.
    assert (c = c' /\ i = c' /\ i' = (c' - 1)%nat /\ (0 < c')%nat) as (-> & -> & -> & Hp) by lia.
    specialize (M' c' ltac:(lia)). specialize (S1 (c' - 1)%nat ltac:(lia)).
    pose proof (B (c' - 1)%nat ltac:(lia)). pose proof (B' (c' - 1)%nat ltac:(lia)).
    pose proof (Le c' ltac:(lia)). pose proof (Le (c' - 1)%nat ltac:(lia)).
    rewrite (Rabs_left1 _ G) in S1. rewrite (Rabs_left1 _ G') in M'. rewrite Rabs_pos_eq in S1, M' by lra. lra.
Qed.

(** only the crossings are ordered: the radius is at most one sample smaller *)
Lemma search_step gr v v' g y z out out' d : nondecreasing g -> length g = length y -> length g = length z -> 0 <= d ->
  (forall k, (S k < length g)%nat -> at_ g (S k) <= at_ g k + d) ->
  (forall k, (k < length g)%nat -> 0 < gap gr v (at_ y k) -> 0 < gap gr v' (at_ z k)) ->
  (forall j k, (j < k < length g)%nat -> gap gr v' (at_ z k) < gap gr v' (at_ z j)) ->
  found_radius gr v g (map Fin y) out -> found_radius gr v' g (map Fin z) out' ->
  forall a', out' = Fin a' -> exists a, out = Fin a /\ a <= a' + d.
Proof.
  intros Ng Ly Lz Hd St Le De Fy Fz a' ->.
  apply search_index in Fz; auto. destruct Fz as [[E _]|(i' & c' & E & Hc' & G' & B' & M' & _)]; [discriminate E|].
  injection E as ->. apply search_index in Fy; auto.
  destruct Fy as [[-> N]|(i & c & -> & Hc & G & B & M & S1)].
  - exfalso. specialize (Le c' ltac:(lia) (N c' ltac:(lia))). lra.
  - exists (at_ g i). split; auto.
    assert (Cc : (c <= c')%nat).
    { destruct (Nat.le_gt_cases c c') as [|H]; auto. specialize (Le c' ltac:(lia) (B c' H)). lra. }
    assert (I1 : (c' <= S i')%nat).
    { destruct (Nat.le_gt_cases c' (S i')) as [|H]; auto. exfalso.
      pose proof (B' i' ltac:(lia)). pose proof (B' (S i') H). specialize (M' (S i') ltac:(lia)).
      rewrite !Rabs_pos_eq in M' by lra. specialize (De i' (S i') ltac:(lia)). lra. }
    destruct (Nat.le_gt_cases i i') as [H|H].
    + pose proof (nondec_le g i i' Ng H ltac:(lia)). lra.
    + pose proof (nondec_le g i (S i') Ng ltac:(lia) ltac:(lia)). pose proof (St i' ltac:(lia)). lra.
Qed.

(** ** Points on the broken line through the samples *)
Definition weigh (x : list R) (r : R) (i : nat) (t : R) : Prop :=
  (S i < length x)%nat /\ 0 <= t <= 1 /\ r = (1 - t) * at_ x i + t * at_ x (S i).
Definition mix (y : list R) (i : nat) (t : R) : R := (1 - t) * at_ y i + t * at_ y (S i).

Lemma weigh_order x r r' i t i' t' : increasing x -> weigh x r i t -> weigh x r' i' t' -> r <= r' ->
  (i = i' /\ t <= t') \/ (i < i')%nat \/ (r = r').
Proof.
  intros I (Hi & Ht & ->) (Hi' & Ht' & ->) Hr.
  destruct (Nat.lt_trichotomy i i') as [H|[<-|H]]; auto.
  - destruct (Rle_lt_dec t t') as [|L]; auto. pose proof (I i Hi). nra.
  - right. right. pose proof (inc_lt x i (S i) I ltac:(lia) Hi). pose proof (inc_lt x i' (S i') I ltac:(lia) Hi').
    assert (at_ x (S i') <= at_ x i) by (apply nondec_le; [now apply inc_nondec|lia|lia]). nra.
Qed.
Lemma mix_strict x y r r' i t i' t' : increasing x -> increasing y -> length x = length y ->
  weigh x r i t -> weigh x r' i' t' -> r < r' -> mix y i t < mix y i' t'.
Proof.
  intros I J Le W W' Hr. pose proof (weigh_order x r r' i t i' t' I W W' ltac:(lra)) as O.
  destruct W as (Hi & Ht & Er), W' as (Hi' & Ht' & Er'). unfold mix.
  pose proof (I i Hi). pose proof (J i ltac:(lia)). pose proof (I i' Hi'). pose proof (J i' ltac:(lia)).
  destruct O as [[<- Tt]|[O|O]]; [|..].
  - assert (t < t') by (destruct Tt as [|Tt]; auto; subst; lra). nra.
  - assert (Jl : at_ y (S i) <= at_ y i') by (apply nondec_le; [now apply inc_nondec|lia|lia]).
    destruct (Req_dec t 1) as [->|].
    + destruct (Req_dec t' 0) as [->|]; [|nra].
      assert (S i <> i') by (intros <-; lra).
      pose proof (inc_lt y (S i) i' J ltac:(lia) ltac:(lia)). lra.
    + nra.
  - lra.
Qed.

Lemma mix_unique x y r i t i' t' : increasing x -> weigh x r i t -> weigh x r i' t' -> mix y i t = mix y i' t'.
Proof.
  intros Ix (Hi & Ht & E) (Hi' & Ht' & E').
  assert (G : forall i t i' t', (i < i')%nat -> (S i' < length x)%nat -> 0 <= t <= 1 -> 0 <= t' <= 1 ->
     (1 - t) * at_ x i + t * at_ x (S i) = (1 - t') * at_ x i' + t' * at_ x (S i') -> mix y i t = mix y i' t').
  { clear - Ix. intros i t i' t' H Hi' Ht Ht' E.
    pose proof (Ix i ltac:(lia)). pose proof (Ix i' Hi').
    assert (at_ x (S i) <= at_ x i') by (apply nondec_le; [now apply inc_nondec|lia|lia]).
    assert (t = 1) as -> by nra. assert (t' = 0) as -> by nra.
    assert (S i = i'). { destruct (Nat.eq_dec (S i) i') as [|Ne]; auto. pose proof (inc_lt x (S i) i' Ix ltac:(lia) ltac:(lia)). lra. }
    subst i'. unfold mix. ring. }
  destruct (Nat.lt_trichotomy i i') as [H|[<-|H]].
  - apply G; auto. congruence.
  - pose proof (Ix i Hi). assert (t = t') as -> by nra. reflexivity.
  - symmetry. apply G; auto. congruence.
Qed.
Lemma mix_le x y r r' i t i' t' : increasing x -> increasing y -> length x = length y ->
  weigh x r i t -> weigh x r' i' t' -> r <= r' -> mix y i t <= mix y i' t'.
Proof.
  intros I J Le W W' [H| ->]; [left; now apply (mix_strict x y r r')|]. apply Req_le. now apply (mix_unique x y r').
Qed.
(** if a_i / b_i never increases along the samples, it never increases along the broken lines *)
Lemma mix_ratio x a b r r' i t i' t' : increasing x -> weigh x r i t -> weigh x r' i' t' -> r <= r' ->
  (forall p q, (p <= q < length x)%nat -> at_ a q * at_ b p <= at_ a p * at_ b q) ->
  mix a i' t' * mix b i t <= mix a i t * mix b i' t'.
Proof.
  intros I W W' Hr H. pose proof (weigh_order x r r' i t i' t' I W W' Hr) as O.
  destruct O as [[<- Tt]|[O| ->]].
  - destruct W as (Hi & Ht & _), W' as (_ & Ht' & _). unfold mix. specialize (H i (S i) ltac:(lia)). nra.
  - destruct W as (Hi & Ht & _), W' as (Hi' & Ht' & _). unfold mix.
    pose proof (H i i' ltac:(lia)) as H1. pose proof (H i (S i') ltac:(lia)) as H2.
    pose proof (H (S i) i' ltac:(lia)) as H3. pose proof (H (S i) (S i') ltac:(lia)) as H4.
    assert (W1 : 0 <= (1 - t) * (1 - t')) by (apply Rmult_le_pos; lra).
    assert (W2 : 0 <= (1 - t) * t') by (apply Rmult_le_pos; lra).
    assert (W3 : 0 <= t * (1 - t')) by (apply Rmult_le_pos; lra).
    assert (W4 : 0 <= t * t') by (apply Rmult_le_pos; lra).
    apply (Rmult_le_compat_l _ _ _ W1) in H1. apply (Rmult_le_compat_l _ _ _ W2) in H2.
    apply (Rmult_le_compat_l _ _ _ W3) in H3. apply (Rmult_le_compat_l _ _ _ W4) in H4. nra.
  - rewrite (mix_unique x a r' i t i' t' I W W'), (mix_unique x b r' i t i' t' I W W'). lra.
Qed.

Section Resample.
  Variable mk : kind -> list xr -> list xr -> result (xr -> xr).
  Variables (ik : option kind) (num : nat) (x : list R).
  Hypothesis Lx : (2 <= length x)%nat.
  Hypothesis Ix : increasing x.
  Hypothesis Hk : forall k, ik = Some k -> straight (mk k).

  Definition grid_of (g : list R) : Prop := match ik with
    | None => g = x
    | Some _ => even_grid (at_ x 0) (last_of x) (Nat.max num (length x)) g end.

  Lemma resampled_grid_of y g q : resampled mk ik num x y g q -> grid_of g.
  Proof.
    unfold resampled, grid_of. destruct ik as [k|]; [|now intros [-> _]].
    intros (f & lo & hi & _ & Hlo & Hhi & E & _).
    assert (lo = at_ x 0) as -> by (apply (min_unique x); auto; apply inc_min; auto; lia).
    assert (hi = last_of x) as -> by (apply (max_unique x); auto; apply inc_max; auto; lia). auto.
  Qed.
  Lemma x_ends : at_ x 0 < last_of x.
  Proof. unfold last_of. apply inc_lt; auto; lia. Qed.
  Lemma grid_inc g : grid_of g -> increasing g.
  Proof.
    unfold grid_of. destruct ik as [k|]; [|now intros ->]. intros [Lg Eg] i Hi. rewrite !Eg by lia. rewrite S_INR.
    pose proof x_ends. assert (0 < (last_of x - at_ x 0) / INR (Nat.max num (length x) - 1)); [|lra].
    apply Rdiv_lt_0_compat; [lra|]. apply lt_0_INR. lia.
  Qed.
  Lemma grid_step g k : ik = Some k -> (2 <= num)%nat -> grid_of g ->
    forall i, (S i < length g)%nat -> at_ g (S i) <= at_ g i + (last_of x - at_ x 0) / INR (num - 1).
  Proof.
    unfold grid_of. intros -> Hn [Lg Eg] i Hi. rewrite !Eg by lia. rewrite S_INR. pose proof x_ends.
    assert ((last_of x - at_ x 0) / INR (Nat.max num (length x) - 1) <= (last_of x - at_ x 0) / INR (num - 1)); [|lra].
    apply Rmult_le_compat_l; [lra|]. apply Rinv_le_contravar; [apply lt_0_INR; lia|apply le_INR; lia].
  Qed.
  Lemma grid_range g k : grid_of g -> (k < length g)%nat -> at_ x 0 <= at_ g k <= last_of x.
  Proof.
    intros G Hk'. pose proof (inc_nondec _ (grid_inc g G)) as N. unfold grid_of in G. destruct ik as [kk|].
    - destruct G as [Lg Eg]. rewrite Eg by lia. pose proof x_ends.
      set (M := Nat.max num (length x)) in *. assert (0 < INR (M - 1)) by (apply lt_0_INR; lia).
      assert (0 <= INR k <= INR (M - 1)) by (split; [apply pos_INR|apply le_INR; lia]).
      assert (E : (last_of x - at_ x 0) = INR (M - 1) * ((last_of x - at_ x 0) / INR (M - 1))) by (field; lra).
      assert (0 < (last_of x - at_ x 0) / INR (M - 1)) by (apply Rdiv_lt_0_compat; lra). nra.
    - subst g. unfold last_of. split; apply nondec_le; auto; lia.
  Qed.

  (** the same position on the broken line for every list of values *)
  Lemma weigh_at r : at_ x 0 <= r <= last_of x -> exists i t, weigh x r i t /\
    forall k y f, ik = Some k -> length x = length y -> mk k (map Fin x) (map Fin y) = Ok f -> f (Fin r) = Fin (mix y i t).
  Proof.
    intros Hr. destruct (find_step x r Lx Hr) as (i & Hi & Hx). pose proof (Ix i Hi).
    exists i, ((r - at_ x i) / (at_ x (S i) - at_ x i)). split.
    - split; auto. split; [|field; lra]. split.
      + apply Rmult_le_pos; [lra|]. left. apply Rinv_0_lt_compat. lra.
      + apply Rmult_le_reg_r with (at_ x (S i) - at_ x i); [lra|]. unfold Rdiv. rewrite Rmult_assoc, Rinv_l by lra. lra.
    - intros k y f Ek Le Ef. destruct (Hk k Ek x y Ix Le Lx) as (f' & Ef' & Hf). assert (f' = f) as -> by congruence.
      rewrite (Hf i r Hi Hx). f_equal. unfold mix. ring.
  Qed.
  Lemma sample_weigh k : (k < length x)%nat -> exists i t, weigh x (at_ x k) i t /\ forall y, mix y i t = at_ y k.
  Proof.
    intros H. destruct (Nat.lt_ge_cases (S k) (length x)) as [H1|H1].
    - exists k, 0. split; [|intros y; unfold mix; ring]. split; auto. split; [lra|ring].
    - exists (k - 1)%nat, 1. assert (E : S (k - 1) = k) by lia. split; [|intros y; unfold mix; rewrite E; ring].
      split; [lia|]. split; [lra|]. rewrite E. ring.
  Qed.

  Lemma resample_mix (y : list R) g q : length x = length y -> resampled mk ik num x (map Fin y) g q ->
    exists z, q = map Fin z /\ length g = length z /\
      forall k, (k < length g)%nat -> forall i t, weigh x (at_ g k) i t -> at_ z k = mix y i t.
  Proof.
    intros Le R.
    assert (U : forall r i t i' t', weigh x r i t -> weigh x r i' t' -> mix y i t = mix y i' t') by (intros; eapply mix_unique; eauto).
    pose proof (resampled_grid_of _ _ _ R) as Gr.
    assert (RR : forall k, (k < length g)%nat -> at_ x 0 <= at_ g k <= last_of x) by (intros; now apply grid_range).
    pose proof weigh_at as WA. unfold resampled in R. destruct ik as [k|].
    - destruct R as (f & lo & hi & Ef & _ & _ & _ & ->). clear Gr.
      induction g as [|a g IH].
      + exists []. repeat split; auto. cbn. intros; lia.
      + destruct IH as (z & E & L & H). { intros j Hj. apply (RR (S j)). cbn. lia. }
        destruct (WA a (RR 0%nat ltac:(cbn; lia))) as (i & t & W & V).
        exists (mix y i t :: z). cbn [map]. rewrite E. rewrite (V k y f eq_refl Le Ef). split; auto. split; [cbn; lia|].
        intros [|j] Hj i' t' W'; [|apply H; cbn in *; [lia|exact W']].
        unfold at_ at 1. cbn [nth]. eapply U; eauto.
    - destruct R as [-> ->]. exists y. split; auto. split; auto. intros k Hk' i t W.
      destruct (sample_weigh k Hk') as (i' & t' & W' & V). rewrite <- (V y). eapply U; eauto.
  Qed.
  Lemma weigh_exists r : at_ x 0 <= r <= last_of x -> exists i t, weigh x r i t.
  Proof. intros H. destruct (weigh_at r H) as (i & t & W & _). eauto. Qed.
End Resample.
