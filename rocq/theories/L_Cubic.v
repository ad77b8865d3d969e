(** How far cubic splines overshoot. *)
From Verif Require Import Base Num M_Petrosian S_Petrosian S_Conv S_Spline S_Cubic L_Conv2 L_Spline.
Local Open Scope R_scope.

(** the largest of finitely many values is attained *)
Lemma attained (g : nat -> R) a m : exists i, (a <= i <= a + m)%nat /\ forall j, (a <= j <= a + m)%nat -> g j <= g i.
Proof.
  induction m as [|m (i & Hi & H)].
  - exists a. split; [lia|]. intros j Hj. replace j with a by lia. lra.
  - destruct (Rle_lt_dec (g (a + S m)%nat) (g i)).
    + exists i. split; [lia|]. intros j Hj. destruct (Nat.eq_dec j (a + S m)) as [->|]; auto. apply H. lia.
    + exists (a + S m)%nat. split; [lia|]. intros j Hj. destruct (Nat.eq_dec j (a + S m)) as [->|]; [lra|].
      pose proof (H j ltac:(lia)). lra.
Qed.

Lemma Rabs_le_iff x w : Rabs x <= w <-> - w <= x <= w.
Proof. split; intros H; [unfold Rabs in H; destruct (Rcase_abs x); lra|apply Rabs_le; lra]. Qed.

Section Spline.
  Variables (f : R -> R) (xs ys : list R) (q w : R).
  Hypothesis Ix : increasing xs.
  Hypothesis St : steps_within q xs.
  Hypothesis Ju : jumps_within w ys.
  Hypothesis L4 : (4 <= length xs)%nat.
  Hypothesis Ly : length ys = length xs.
  Variables b c d : nat -> R.
  Let h i := at_ xs (S i) - at_ xs i.
  Let D i := at_ ys (S i) - at_ ys i.
  Hypothesis Pc : forall i, (S i < length xs)%nat ->
      (forall x, at_ xs i <= x <= at_ xs (S i) ->
         f x = at_ ys i + b i * (x - at_ xs i) + c i * (x - at_ xs i) ^ 2 + d i * (x - at_ xs i) ^ 3) /\
      f (at_ xs (S i)) = at_ ys (S i) /\
      b (S i) = b i + 2 * c i * h i + 3 * d i * h i ^ 2 /\
      c (S i) = c i + 3 * d i * h i.
  Hypothesis E0 : d 0%nat = d 1%nat.
  Hypothesis E1 : d (length xs - 3)%nat = d (length xs - 2)%nat.
  Notation n := (length xs).

  Lemma h_pos i : (S i < n)%nat -> 0 < h i.
  Proof. intros H. unfold h. pose proof (Ix i H). lra. Qed.
  Lemma c_next i : (S i < n)%nat -> c (S i) = c i + 3 * d i * h i.
  Proof. intros H. apply (Pc i H). Qed.
  Lemma slope i : (S i < n)%nat -> b i = D i / h i - c i * h i - d i * h i ^ 2.
  Proof.
    intros H. pose proof (h_pos i H) as Hh. destruct (Pc i H) as (P & V & _).
    pose proof (Ix i H). rewrite P in V by lra. fold (h i) in V. apply Rmult_eq_reg_r with (h i); [|lra].
    unfold D. rewrite <- V. field. lra.
  Qed.
  (** the equations for the curvatures *)
  Lemma moment i : (S (S i) < n)%nat ->
    h i * c i + 2 * (h i + h (S i)) * c (S i) + h (S i) * c (S (S i)) = 3 * (D (S i) / h (S i) - D i / h i).
  Proof.
    intros H. pose proof (h_pos i ltac:(lia)) as H0. pose proof (h_pos (S i) H) as H1.
    pose proof (c_next i ltac:(lia)) as C0. pose proof (c_next (S i) H) as C1.
    destruct (Pc i ltac:(lia)) as (_ & _ & B & _). pose proof (slope i ltac:(lia)) as B0. pose proof (slope (S i) H) as B1.
    replace (d i) with ((c (S i) - c i) / (3 * h i)) in * by (rewrite C0; field; lra).
    replace (d (S i)) with ((c (S (S i)) - c (S i)) / (3 * h (S i))) in * by (rewrite C1; field; lra).
    rewrite B0, B1 in B.
    replace (D (S i) / h (S i) - D i / h i) with
      ((D (S i) / h (S i) - c (S i) * h (S i) - (c (S (S i)) - c (S i)) / (3 * h (S i)) * h (S i) ^ 2) + c (S i) * h (S i) +
       (c (S (S i)) - c (S i)) / (3 * h (S i)) * h (S i) ^ 2 - D i / h i) by ring.
    rewrite B. field. lra.
  Qed.
  Lemma first : c 0%nat = c 1%nat + h 0%nat / h 1%nat * (c 1%nat - c 2%nat).
  Proof.
    pose proof (h_pos 0 ltac:(lia)). pose proof (h_pos 1 ltac:(lia)).
    pose proof (c_next 0 ltac:(lia)) as C0. pose proof (c_next 1 ltac:(lia)) as C1. rewrite C1, C0, E0. field. lra.
  Qed.
  Lemma last_ : c (n - 1)%nat = c (n - 2)%nat + h (n - 2)%nat / h (n - 3)%nat * (c (n - 2)%nat - c (n - 3)%nat).
  Proof.
    pose proof (h_pos (n - 2) ltac:(lia)). pose proof (h_pos (n - 3) ltac:(lia)).
    pose proof (c_next (n - 3) ltac:(lia)) as C0. pose proof (c_next (n - 2) ltac:(lia)) as C1.
    replace (S (n - 3)) with (n - 2)%nat in C0 by lia. replace (S (n - 2)) with (n - 1)%nat in C1 by lia.
    rewrite C1, C0, E1. field. lra.
  Qed.

  Lemma w_nonneg : 0 <= w.
  Proof. pose proof (Ju 0%nat ltac:(lia)). pose proof (Rabs_pos (at_ ys 1 - at_ ys 0)). lra. Qed.
  Lemma q_one : 1 <= q.
  Proof. pose proof (St 0%nat 0%nat ltac:(lia) ltac:(lia)). pose proof (Ix 0%nat ltac:(lia)). nra. Qed.

  (** at an inner knot with the largest curvature, the curvature is bounded by the jumps *)
  Variable hm : R.
  Hypothesis Hm : 0 < hm.
  Hypothesis Hmin : forall i, (S i < n)%nat -> hm <= h i <= q * hm.

  Lemma ratio_jump i : (S i < n)%nat -> - (w / hm) <= D i / h i <= w / hm.
  Proof.
    intros H. pose proof (h_pos i H) as Hh. pose proof (Hmin i H) as Hq. pose proof w_nonneg as W. 
    apply Rabs_le_iff. unfold Rdiv. rewrite Rabs_mult, (Rabs_pos_eq (/ h i)) by (left; now apply Rinv_0_lt_compat).
    apply Rmult_le_compat; [apply Rabs_pos|left; now apply Rinv_0_lt_compat|apply Ju; lia|apply Rinv_le_contravar; lra].
  Qed.

  Definition B := 3 * w / hm ^ 2.
  Lemma B_nonneg : 0 <= B.
  Proof. unfold B. pose proof w_nonneg. apply Rmult_le_pos; [lra|]. left. apply Rinv_0_lt_compat. now apply pow_lt. Qed.

  Lemma inner i : (1 <= i <= n - 2)%nat -> Rabs (c i) <= B.
  Proof.
    destruct (attained (fun i => Rabs (c i)) 1 (n - 3)) as (m & Hm' & Mx).
    intros Hi. apply Rle_trans with (Rabs (c m)); [apply Mx; lia|]. clear i Hi.
    destruct m as [|m]; [lia|].
    pose proof (h_pos m ltac:(lia)) as H0. pose proof (h_pos (S m) ltac:(lia)) as H1.
    pose proof (moment m ltac:(lia)) as E. pose proof (ratio_jump m ltac:(lia)) as R0. pose proof (ratio_jump (S m) ltac:(lia)) as R1.
    pose proof (Hmin m ltac:(lia)) as [Q0 _]. pose proof (Hmin (S m) ltac:(lia)) as [Q1 _].
    set (T := D (S m) / h (S m) - D m / h m) in *.
    assert (BT : B * (2 * hm) = 6 * (w / hm)) by (unfold B; field; lra).
    assert (Key : Rabs (c (S m)) * (h m + h (S m)) <= 6 * (w / hm)).
    { assert (T3 : - (6 * (w / hm)) <= 3 * T <= 6 * (w / hm)) by (unfold T; lra).
      rewrite <- E in T3. clear E T.
      assert (Cn : forall j, (1 <= j <= n - 2)%nat -> - Rabs (c (S m)) <= c j <= Rabs (c (S m))).
      { intros j Hj. apply Rabs_le_iff. apply Mx. lia. }
      assert (Cm : c (S m) = Rabs (c (S m)) \/ c (S m) = - Rabs (c (S m))) by (unfold Rabs; destruct (Rcase_abs _); lra).
      set (X := Rabs (c (S m))) in *. assert (0 <= X) by apply Rabs_pos.
      set (W := 6 * (w / hm)) in *.
      destruct (Nat.eq_dec m 0) as [->|Nz].
      - pose proof first as F0. pose proof (Cn 2%nat ltac:(lia)) as C2. rewrite F0 in T3.
        set (u := h 0%nat) in *. set (v := h 1%nat) in *.
        replace (u * (c 1%nat + u / v * (c 1%nat - c 2%nat)) + 2 * (u + v) * c 1%nat + v * c 2%nat)
          with ((u + v) * ((2 + u / v) * c 1%nat + (1 - u / v) * c 2%nat)) in T3 by (field; lra).
        set (p := u / v) in *. assert (0 < p) by (apply Rdiv_lt_0_compat; lra).
        set (Z := (2 + p) * c 1%nat + (1 - p) * c 2%nat) in *.
        assert (HZ : X <= Z \/ Z <= - X).
        { unfold Z. destruct (Rle_lt_dec p 1).
          - destruct Cm as [->| ->]; [left|right]; nra.
          - destruct Cm as [->| ->]; [left|right]; nra. }
        destruct HZ; nra.
      - pose proof (Cn m ltac:(lia)) as C0.
        destruct (Nat.eq_dec (S m) (n - 2)) as [Em|Nm].
        + pose proof last_ as F1. replace (S (S m)) with (n - 1)%nat in T3 by lia. rewrite F1 in T3.
          replace (n - 2)%nat with (S m) in T3 by lia. replace (n - 3)%nat with m in T3 by lia.
          set (u := h m) in *. set (v := h (S m)) in *.
          replace (u * c m + 2 * (u + v) * c (S m) + v * (c (S m) + v / u * (c (S m) - c m)))
            with ((u + v) * ((2 + v / u) * c (S m) + (1 - v / u) * c m)) in T3 by (field; lra).
          set (p := v / u) in *. assert (0 < p) by (apply Rdiv_lt_0_compat; lra).
          set (Z := (2 + p) * c (S m) + (1 - p) * c m) in *.
          assert (HZ : X <= Z \/ Z <= - X).
          { unfold Z. destruct (Rle_lt_dec p 1).
            - destruct Cm as [->| ->]; [left|right]; nra.
            - destruct Cm as [->| ->]; [left|right]; nra. }
          destruct HZ; nra.
        + pose proof (Cn (S (S m)) ltac:(lia)) as C2. destruct Cm as [Ec|Ec]; rewrite Ec in T3; nra. }
    pose proof (Rabs_pos (c (S m))). apply Rmult_le_reg_r with (2 * hm); [lra|]. rewrite BT.
    apply Rle_trans with (2 := Key). apply Rmult_le_compat_l; lra.
  Qed.
  Lemma every i : (i <= n - 1)%nat -> Rabs (c i) <= (1 + 2 * q) * B.
  Proof.
    intros Hi. pose proof B_nonneg as Bp. pose proof q_one as Q1.
    assert (R : forall u v, hm <= u <= q * hm -> hm <= v <= q * hm -> 0 < u / v <= q).
    { intros u v Hu Hv. split; [apply Rdiv_lt_0_compat; lra|]. apply Rmult_le_reg_r with v; [lra|].
      replace (u / v * v) with u by (field; lra). apply Rle_trans with (q * hm); [lra|]. apply Rmult_le_compat_l; lra. }
    destruct (Nat.eq_dec i 0) as [->|N0]; [|destruct (Nat.eq_dec i (n - 1)) as [->|N1]].
    - rewrite first. pose proof (R (h 0%nat) (h 1%nat) ltac:(apply Hmin; lia) ltac:(apply Hmin; lia)) as Rr.
      pose proof (inner 1 ltac:(lia)) as I1. pose proof (inner 2 ltac:(lia)) as I2.
      apply Rabs_le_iff in I1, I2. apply Rabs_le_iff. set (p := h 0%nat / h 1%nat) in *. split; nra.
    - rewrite last_. pose proof (R (h (n - 2)%nat) (h (n - 3)%nat) ltac:(apply Hmin; lia) ltac:(apply Hmin; lia)) as Rr.
      pose proof (inner (n - 2) ltac:(lia)) as I1. pose proof (inner (n - 3) ltac:(lia)) as I2.
      apply Rabs_le_iff in I1, I2. apply Rabs_le_iff. set (p := h (n - 2)%nat / h (n - 3)%nat) in *. split; nra.
    - pose proof (inner i ltac:(lia)). nra.
  Qed.

  (** the spline stays close to the chords *)
  Lemma near_chord i x : (S i < n)%nat -> at_ xs i <= x <= at_ xs (S i) ->
    Rabs (f x - (at_ ys i + D i / h i * (x - at_ xs i))) <= (1 + 2 * q) * q ^ 2 * w.
  Proof.
    intros H Hx. pose proof (h_pos i H) as Hh. destruct (Pc i H) as (P & _). rewrite P by auto. rewrite (slope i H).
    pose proof (every i ltac:(lia)) as C0. pose proof (every (S i) ltac:(lia)) as C1. pose proof (c_next i H) as Cn.
    replace (d i) with ((c (S i) - c i) / (3 * h i)) by (rewrite Cn; field; lra).
    set (t := x - at_ xs i). assert (Ht : 0 <= t <= h i) by (unfold t, h; lra).
    match goal with |- Rabs ?e <= _ => replace e with
      (- (t * (h i - t) / (3 * h i) * ((2 * h i - t) * c i + (h i + t) * c (S i)))) by (field; lra) end.
    rewrite Rabs_Ropp. apply Rabs_le_iff in C0, C1. set (M := (1 + 2 * q) * B) in *.
    pose proof q_one as Q1. pose proof B_nonneg as Bp. pose proof w_nonneg as W. assert (0 <= M) by (unfold M; nra).
    assert (G : Rabs ((2 * h i - t) * c i + (h i + t) * c (S i)) <= 3 * h i * M).
    { apply Rabs_le_iff. split; nra. }
    rewrite Rabs_mult, (Rabs_pos_eq (t * (h i - t) / (3 * h i))).
    2:{ apply Rmult_le_pos; [nra|]. left. apply Rinv_0_lt_compat. lra. }
    apply Rle_trans with (t * (h i - t) / (3 * h i) * (3 * h i * M)).
    { apply Rmult_le_compat_l; auto. apply Rmult_le_pos; [nra|]. left. apply Rinv_0_lt_compat. lra. }
    replace (t * (h i - t) / (3 * h i) * (3 * h i * M)) with (t * (h i - t) * M) by (field; lra).
    assert (T : t * (h i - t) <= h i ^ 2 / 4) by (pose proof (pow2_ge_0 (h i / 2 - t)); lra).
    pose proof (Hmin i H) as [_ Hq].
    apply Rle_trans with ((q * hm) ^ 2 / 4 * M).
    { apply Rmult_le_compat_r; auto. apply Rle_trans with (1 := T). apply Rmult_le_compat_r; [lra|].
      apply pow_incr. split; [left; exact Hh|exact Hq]. }
    unfold M, B. replace ((q * hm) ^ 2 / 4 * ((1 + 2 * q) * (3 * w / hm ^ 2))) with (3 / 4 * ((1 + 2 * q) * q ^ 2 * w)) by (field; lra).
    assert (0 <= (1 + 2 * q) * q ^ 2 * w); [|lra]. apply Rmult_le_pos; auto. apply Rmult_le_pos; [lra|]. apply pow_le. lra.
  Qed.
End Spline.

(** between two samples, a spline leaves the interval between their values by little *)
Theorem spline_overshoot f xs ys q w : increasing xs -> steps_within q xs -> jumps_within w ys -> not_a_knot f xs ys ->
  forall i x, (S i < length xs)%nat -> at_ xs i <= x <= at_ xs (S i) ->
  exists z, between (at_ ys i) (at_ ys (S i)) z /\ Rabs (f x - z) <= (1 + 2 * q) * q ^ 2 * w.
Proof.
  intros Ix St Ju (L4 & Ly & b & c & d & Pc & E0 & E1) i x Hi Hx. cbn zeta in Pc.
  destruct (attained (fun i => - (at_ xs (S i) - at_ xs i)) 0 (length xs - 2)) as (m & Hm & Mx).
  exists (at_ ys i + (at_ ys (S i) - at_ ys i) / (at_ xs (S i) - at_ xs i) * (x - at_ xs i)). split.
  - apply chord_between; auto.
  - apply (near_chord f xs ys q w Ix St Ju L4 Ly b c d Pc E0 E1 (at_ xs (S m) - at_ xs m)); auto.
    + pose proof (Ix m ltac:(lia)). lra.
    + intros j Hj. pose proof (Mx j ltac:(lia)). split; [lra|]. apply St; lia.
Qed.
