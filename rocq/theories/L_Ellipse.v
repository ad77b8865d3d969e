(** Chords of an ellipse, and the areas of its parts on pixels. *)
From Coq Require Import Reals Lra Lia.
From Coquelicot Require Import Coquelicot.
From Verif Require Import M_Ellipse.
Local Open Scope R_scope.

Ltac reqr := match goal with |- @eq _ ?u ?v => change (@eq R u v) end.
Section Chord.
  Variables (a b t : R).
  Hypothesis Ha : 0 < a.
  Hypothesis Hb : 0 < b.
  Local Notation W := (width2 a b t).
  Local Notation mid := (chord_mid a b t).
  Local Notation hl := (chord_half a b t).

  Lemma sc2 : sin t * sin t + cos t * cos t = 1.
  Proof. pose proof (sin2_cos2 t) as H. unfold Rsqr in H. exact H. Qed.
  Lemma W_pos : 0 < W.
  Proof.
    unfold width2. pose proof sc2 as S.
    replace (a * cos t * (a * cos t) + b * sin t * (b * sin t)) with (a * a * (cos t * cos t) + b * b * (sin t * sin t)) by ring.
    pose proof (Rle_0_sqr (cos t)) as P1. pose proof (Rle_0_sqr (sin t)) as P2. unfold Rsqr in *.
    assert (0 < a * a) by nra. assert (0 < b * b) by nra.
    destruct (Rle_lt_dec (cos t * cos t) 0); nra.
  Qed.
  Lemma hl_nonneg dx : 0 <= hl dx.
  Proof.
    unfold chord_half. pose proof W_pos. apply Rmult_le_pos; [|left; now apply Rinv_0_lt_compat].
    apply Rmult_le_pos; [nra|apply sqrt_pos].
  Qed.

  (** the points of the ellipse above dx *)
  Lemma chord_iff dx dy :
    (dx * cos t + dy * sin t) / a * ((dx * cos t + dy * sin t) / a)
      + (- dx * sin t + dy * cos t) / b * ((- dx * sin t + dy * cos t) / b) < 1 <->
    mid dx - hl dx < dy < mid dx + hl dx.
  Proof.
    pose proof W_pos as HW. pose proof sc2 as S.
    set (Q := _ + _). set (p := W * dy - (a * a - b * b) * (sin t * cos t) * dx).
    assert (EQ : W * (a * a) * (b * b) * Q = p * p + a * a * (b * b) * (dx * dx)).
    { transitivity (W * (b * b * ((dx * cos t + dy * sin t) * (dx * cos t + dy * sin t)) + a * a * ((- dx * sin t + dy * cos t) * (- dx * sin t + dy * cos t)))).
      - unfold Q. field. lra.
      - transitivity (p * p + a * a * (b * b) * (dx * dx) * ((sin t * sin t + cos t * cos t) * (sin t * sin t + cos t * cos t))); [|rewrite S; ring].
        unfold p, width2. ring. }
    assert (HK : 0 < W * (a * a) * (b * b)) by (apply Rmult_lt_0_compat; [apply Rmult_lt_0_compat; nra|nra]).
    assert (E1 : Q < 1 <-> p * p < a * b * (a * b) * (W - dx * dx)).
    { split; intros H.
      - assert (W * (a * a) * (b * b) * Q < W * (a * a) * (b * b) * 1) by (apply Rmult_lt_compat_l; auto). nra.
      - apply Rmult_lt_reg_l with (W * (a * a) * (b * b)); auto. nra. }
    rewrite E1. clear E1 EQ Q.
    assert (E2 : mid dx - hl dx < dy < mid dx + hl dx <-> - (a * b * sqrt (W - dx * dx)) < p < a * b * sqrt (W - dx * dx)).
    { unfold chord_mid, chord_half. set (q := a * b * sqrt (W - dx * dx)). set (m := (a * a - b * b) * (sin t * cos t) * dx) in *.
      split; intros [H1 H2].
      - apply (Rmult_lt_compat_r W) in H1, H2; auto.
        replace ((m / W - q / W) * W) with (m - q) in H1 by (field; lra).
        replace ((m / W + q / W) * W) with (m + q) in H2 by (field; lra). unfold p. lra.
      - unfold p in *. split; apply Rmult_lt_reg_r with W; auto.
        + replace ((m / W - q / W) * W) with (m - q) by (field; lra). lra.
        + replace ((m / W + q / W) * W) with (m + q) by (field; lra). lra. }
    rewrite E2. clear E2. assert (Hab : 0 < a * b) by nra. split.
    - intros H. assert (0 < W - dx * dx).
      { destruct (Rle_lt_dec (W - dx * dx) 0); auto. exfalso. pose proof (Rle_0_sqr p) as P. unfold Rsqr in P. nra. }
      pose proof (sqrt_sqrt (W - dx * dx) ltac:(lra)) as SS. pose proof (sqrt_lt_R0 (W - dx * dx) ltac:(lra)) as SP.
      set (q := sqrt (W - dx * dx)) in *. rewrite <- SS in H. assert (HX : p * p < (a * b * q) * (a * b * q)) by nra.
      assert (0 < a * b * q) by nra. split; nra.
    - intros [H1 H2]. assert (0 < sqrt (W - dx * dx)) by nra.
      assert (0 < W - dx * dx). { destruct (Rle_lt_dec (W - dx * dx) 0) as [Hl|]; auto. rewrite sqrt_neg_0 in H by auto. lra. }
      pose proof (sqrt_sqrt (W - dx * dx) ltac:(lra)) as SS. rewrite <- SS. set (q := sqrt (W - dx * dx)) in *. nra.
  Qed.

  (** ** continuity *)
  Lemma cont_max (f g : R -> R) x : continuous f x -> continuous g x -> continuous (fun u => Rmax (f u) (g u)) x.
  Proof.
    intros F G. apply (continuous_ext (fun u => / 2 * (f u + g u + Rabs (f u - g u)))).
    { intros u. unfold Rmax. destruct (Rle_dec (f u) (g u)); split_Rabs; lra. }
    apply (continuous_scal_r (/ 2) (fun u => f u + g u + Rabs (f u - g u))).
    apply @continuous_plus; [apply @continuous_plus; auto|]. apply continuous_Rabs_comp. apply @continuous_minus; auto.
  Qed.
  Lemma cont_min (f g : R -> R) x : continuous f x -> continuous g x -> continuous (fun u => Rmin (f u) (g u)) x.
  Proof.
    intros F G. apply (continuous_ext (fun u => / 2 * (f u + g u - Rabs (f u - g u)))).
    { intros u. unfold Rmin. destruct (Rle_dec (f u) (g u)); split_Rabs; lra. }
    apply (continuous_scal_r (/ 2) (fun u => f u + g u - Rabs (f u - g u))).
    apply @continuous_minus; [apply @continuous_plus; auto|]. apply continuous_Rabs_comp. apply @continuous_minus; auto.
  Qed.
  Lemma cont_mid x : continuous mid x.
  Proof.
    apply (continuous_ext (fun u => ((a * a - b * b) * (sin t * cos t) / W) * u)).
    { intros u. unfold chord_mid, Rdiv. reqr. ring. }
    apply (continuous_mult (fun _ => (a * a - b * b) * (sin t * cos t) / W) (fun u => u)); [apply continuous_const|apply continuous_id].
  Qed.
  Lemma cont_hl x : continuous hl x.
  Proof.
    apply (continuous_ext (fun u => (a * b / W) * sqrt (W - u * u))).
    { intros u. unfold chord_half, Rdiv. reqr. ring. }
    apply (continuous_mult (fun _ => a * b / W) (fun u => sqrt (W - u * u))); [apply continuous_const|]. apply continuous_sqrt_comp.
    apply @continuous_minus; [apply continuous_const|]. apply (continuous_mult (K:=R_AbsRing) (fun u : R => u) (fun u : R => u)); apply continuous_id.
  Qed.
  Lemma cont_part lo hi x : continuous (fun dx => chord_part a b t dx lo hi) x.
  Proof.
    unfold chord_part. apply cont_max; [apply continuous_const|]. apply @continuous_minus.
    - apply cont_min; [|apply continuous_const]. apply @continuous_plus; [apply cont_mid|apply cont_hl].
    - apply cont_max; [|apply continuous_const]. apply @continuous_minus; [apply cont_mid|apply cont_hl].
  Qed.
  Lemma cont_shift (f : R -> R) c x : (forall y, continuous f y) -> continuous (fun u => f (u - c)) x.
  Proof.
    intros H. apply (continuous_comp (fun u => u - c) f); auto. apply @continuous_minus; [apply continuous_id|apply continuous_const].
  Qed.
  Lemma int_part x lo hi p q : ex_RInt (fun u => chord_part a b t (u - x) lo hi) p q.
  Proof.
    apply @ex_RInt_continuous. intros u _. apply (cont_shift (fun dx => chord_part a b t dx lo hi)). intros. apply cont_part.
  Qed.

  (** ** bounds *)
  Lemma part_nonneg dx lo hi : 0 <= chord_part a b t dx lo hi.
  Proof. apply Rmax_l. Qed.
  Lemma part_le dx lo hi : lo <= hi -> chord_part a b t dx lo hi <= hi - lo.
  Proof. intros H. unfold chord_part. apply Rmax_lub; [lra|]. pose proof (Rmin_r (mid dx + hl dx) hi). pose proof (Rmax_r (mid dx - hl dx) lo). lra. Qed.
  (** it is the length of the interval of points of the ellipse between lo and hi *)
  Lemma part_spec dx lo hi : lo <= hi -> exists p q, p <= q /\ chord_part a b t dx lo hi = q - p /\
    forall dy, p < dy < q <-> mid dx - hl dx < dy < mid dx + hl dx /\ lo < dy < hi.
  Proof.
    intros H. pose proof (hl_nonneg dx) as Hh. set (m := mid dx) in *. set (h := hl dx) in *.
    set (p := Rmax (m - h) lo). set (q := Rmin (m + h) hi).
    assert (PQ : forall dy, p < dy < q <-> m - h < dy < m + h /\ lo < dy < hi).
    { intros dy. unfold p, q. split.
      - intros [H1 H2]. pose proof (Rmax_l (m - h) lo). pose proof (Rmax_r (m - h) lo). pose proof (Rmin_l (m + h) hi). pose proof (Rmin_r (m + h) hi). lra.
      - intros [[H1 H2] [H3 H4]]. split; [now apply Rmax_lub_lt|now apply Rmin_glb_lt]. }
    destruct (Rle_lt_dec p q) as [L|L].
    - exists p, q. split; auto. split; auto. unfold chord_part. fold m h p q. apply Rmax_right. lra.
    - exists p, p. split; [lra|]. split.
      + unfold chord_part. fold m h p q. rewrite Rmax_left by lra. ring.
      + intros dy. split; [lra|]. intros X. apply PQ in X. lra.
  Qed.
End Chord.

(** larger ellipses have larger chords *)
Lemma part_mono a1 b1 a2 b2 t dx lo hi : 0 < a1 <= a2 -> 0 < b1 <= b2 -> lo <= hi ->
  chord_part a1 b1 t dx lo hi <= chord_part a2 b2 t dx lo hi.
Proof.
  intros Ha Hb H. destruct (part_spec a1 b1 t ltac:(lra) ltac:(lra) dx lo hi H) as (p1 & q1 & L1 & -> & S1).
  destruct (part_spec a2 b2 t ltac:(lra) ltac:(lra) dx lo hi H) as (p2 & q2 & L2 & -> & S2).
  assert (Inc : forall dy, p1 < dy < q1 -> p2 < dy < q2).
  { intros dy X. apply S1 in X. apply S2. destruct X as [X Y]. split; auto. apply chord_iff in X; try lra. apply chord_iff; try lra.
    set (u := dx * cos t + dy * sin t) in *. set (v := - dx * sin t + dy * cos t) in *.
    assert (G : forall x p q, 0 < p <= q -> x / q * (x / q) <= x / p * (x / p)).
    { intros x p q Hpq. replace (x / q * (x / q)) with (x * x * (/ q * / q)) by (field; lra).
      replace (x / p * (x / p)) with (x * x * (/ p * / p)) by (field; lra).
      apply Rmult_le_compat_l; [apply Rle_0_sqr|].
      assert (/ q <= / p) by (apply Rinv_le_contravar; lra). assert (0 < / q) by (apply Rinv_0_lt_compat; lra).
      apply Rmult_le_compat; lra. }
    pose proof (G u a1 a2 Ha). pose proof (G v b1 b2 Hb). lra. }
  destruct (Rle_lt_dec q1 p1); [lra|].
  destruct (Rle_lt_dec p2 p1) as [A|A].
  - destruct (Rle_lt_dec q1 q2); [lra|]. exfalso. pose proof (Rmax_l p1 q2). pose proof (Rmax_r p1 q2).
    assert (Rmax p1 q2 < q1) by (apply Rmax_lub_lt; lra). specialize (Inc ((Rmax p1 q2 + q1) / 2)). lra.
  - exfalso. pose proof (Rmin_l p2 q1). pose proof (Rmin_r p2 q1). assert (p1 < Rmin p2 q1) by (apply Rmin_glb_lt; lra).
    specialize (Inc ((Rmin p2 q1 + p1) / 2)). lra.
Qed.

Section Area.
  Variables (x y a b t : R).
  Hypothesis Ha : 0 < a.
  Hypothesis Hb : 0 < b.

  Lemma area_bounds j i : 0 <= pixel_area x y a b t j i <= 1.
  Proof.
    unfold pixel_area. split.
    - apply RInt_ge_0; [lra|apply int_part; auto|]. intros; apply part_nonneg.
    - apply Rle_trans with (RInt (fun _ => 1) (INR i - 1 / 2) (INR i + 1 / 2)).
      + apply RInt_le; [lra|apply int_part; auto|apply ex_RInt_const|]. intros u _.
        eapply Rle_trans; [apply part_le; lra|lra].
      + rewrite RInt_const. unfold scal; cbn; unfold mult; cbn. lra.
  Qed.
End Area.
Lemma area_mono x y a1 b1 a2 b2 t j i : 0 < a1 <= a2 -> 0 < b1 <= b2 -> pixel_area x y a1 b1 t j i <= pixel_area x y a2 b2 t j i.
Proof.
  intros Ha Hb. unfold pixel_area. apply RInt_le; [lra|apply int_part; lra|apply int_part; lra|]. intros u _. apply part_mono; auto. lra.
Qed.

(** ** the whole ellipse *)
Lemma part_split a b t dx lo c hi : 0 < a -> 0 < b -> lo <= c <= hi ->
  chord_part a b t dx lo hi = chord_part a b t dx lo c + chord_part a b t dx c hi.
Proof.
  intros Ha Hb H. pose proof (hl_nonneg a b t Ha Hb dx) as Hh. unfold chord_part.
  set (p := chord_mid a b t dx - chord_half a b t dx). set (q := chord_mid a b t dx + chord_half a b t dx).
  assert (p <= q) by (unfold p, q; lra). clearbody p q. unfold Rmax, Rmin. repeat destruct (Rle_dec _ _); lra.
Qed.

Lemma half_disc e : 0 < e -> is_RInt (fun u => sqrt (e * e - u * u)) (- e) e (PI * (e * e) / 2).
Proof.
  intros He.
  assert (C : forall u, continuous (fun u => sqrt (e * e - u * u)) u).
  { intros u. apply continuous_sqrt_comp. apply @continuous_minus; [apply continuous_const|].
    apply (continuous_mult (K:=R_AbsRing) (fun u : R => u) (fun u : R => u)); apply continuous_id. }
  assert (Ex : ex_RInt (fun u => sqrt (e * e - u * u)) (- e) e) by (apply @ex_RInt_continuous; intros; apply C).
  assert (V : RInt (fun u => sqrt (e * e - u * u)) (- e) e = PI * (e * e) / 2); [|rewrite <- V; now apply @RInt_correct].
  pose proof PI_RGT_0 as HP.
  assert (Cc : forall u, continuous (fun v => e * cos v) u).
  { intros u. apply (continuous_mult (K:=R_AbsRing) (fun _ : R => e) cos); [apply continuous_const|apply continuous_cos]. }
  pose proof (is_RInt_comp (fun u => sqrt (e * e - u * u)) (fun v => e * sin v) (fun v => e * cos v) (- (PI / 2)) (PI / 2)) as Sub.
  assert (I1 : is_RInt (fun v => scal (e * cos v) (sqrt (e * e - e * sin v * (e * sin v)))) (- (PI / 2)) (PI / 2)
     (RInt (fun u => sqrt (e * e - u * u)) (e * sin (- (PI / 2))) (e * sin (PI / 2)))).
  { apply Sub; intros v _; auto. split; auto. auto_derive; auto. ring. }
  rewrite sin_neg, sin_PI2 in I1. replace (e * - (1)) with (- e) in I1 by ring. replace (e * 1) with e in I1 by ring.
  assert (I2 : is_RInt (fun v => scal (e * cos v) (sqrt (e * e - e * sin v * (e * sin v)))) (- (PI / 2)) (PI / 2) (PI * (e * e) / 2)).
  { assert (D : is_RInt (fun v => e * e * (cos v * cos v)) (- (PI / 2)) (PI / 2)
        (minus (e * e * (PI / 2 + sin (PI / 2) * cos (PI / 2)) / 2) (e * e * (- (PI / 2) + sin (- (PI / 2)) * cos (- (PI / 2))) / 2))).
    { apply (@is_RInt_derive R_CompleteNormedModule (fun w => e * e * (w + sin w * cos w) / 2)); intros v _.
      - auto_derive; auto. pose proof (sin2_cos2 v) as S. unfold Rsqr in S.
        replace (sin v * (1 * - sin v)) with (- (sin v * sin v)) by ring. replace (sin v * sin v) with (1 - cos v * cos v) by lra. field.
      - apply (continuous_mult (K:=R_AbsRing) (fun _ : R => e * e) (fun v => cos v * cos v)); [apply continuous_const|].
        apply (continuous_mult (K:=R_AbsRing) cos cos); apply continuous_cos. }
    replace (PI * (e * e) / 2) with (minus (e * e * (PI / 2 + sin (PI / 2) * cos (PI / 2)) / 2) (e * e * (- (PI / 2) + sin (- (PI / 2)) * cos (- (PI / 2))) / 2)).
    2:{ unfold minus, plus, opp; cbn. rewrite sin_neg, cos_neg, cos_PI2. field. }
    apply (is_RInt_ext (fun v => e * e * (cos v * cos v))); auto.
    intros v Hv. rewrite Rmin_left, Rmax_right in Hv by lra.
    assert (Hc : 0 <= cos v) by (apply cos_ge_0; lra).
    replace (e * e - e * sin v * (e * sin v)) with (e * cos v * (e * cos v)).
    - rewrite sqrt_square by (apply Rmult_le_pos; lra). unfold scal; cbn; unfold mult; cbn. ring.
    - pose proof (sin2_cos2 v) as S. unfold Rsqr in S. replace (e * sin v * (e * sin v)) with (e * e * (sin v * sin v)) by ring.
      replace (sin v * sin v) with (1 - cos v * cos v) by lra. ring. }
  now rewrite <- (is_RInt_unique _ _ _ _ I1), (is_RInt_unique _ _ _ _ I2).
Qed.

Lemma part_full a b t dx lo hi : 0 < a -> 0 < b -> lo <= hi ->
  (forall dy, chord_mid a b t dx - chord_half a b t dx < dy < chord_mid a b t dx + chord_half a b t dx -> lo <= dy <= hi) ->
  chord_part a b t dx lo hi = 2 * chord_half a b t dx.
Proof.
  intros Ha Hb L H. pose proof (hl_nonneg a b t Ha Hb dx) as Hh. unfold chord_part.
  set (m := chord_mid a b t dx) in *. set (h := chord_half a b t dx) in *.
  destruct (Rle_lt_dec h 0) as [Z|P].
  - assert (h = 0) as -> by lra. rewrite Rmax_left; [ring|].
    pose proof (Rmin_l (m + 0) hi). pose proof (Rmax_l (m - 0) lo). lra.
  - assert (A : lo <= m - h).
    { destruct (Rle_lt_dec lo (m - h)); auto. exfalso. assert (m - h < Rmin lo (m + h)) by (apply Rmin_glb_lt; lra).
      pose proof (Rmin_l lo (m + h)). pose proof (Rmin_r lo (m + h)). specialize (H ((m - h + Rmin lo (m + h)) / 2)). lra. }
    assert (B : m + h <= hi).
    { destruct (Rle_lt_dec (m + h) hi); auto. exfalso. assert (Rmax hi (m - h) < m + h) by (apply Rmax_lub_lt; lra).
      pose proof (Rmax_l hi (m - h)). pose proof (Rmax_r hi (m - h)). specialize (H ((m + h + Rmax hi (m - h)) / 2)). lra. }
    rewrite (Rmin_left (m + h) hi), (Rmax_left (m - h) lo) by lra. rewrite Rmax_right; lra.
Qed.

Lemma chord_outside a b t dx : 0 < a -> 0 < b -> sqrt (width2 a b t) <= Rabs dx -> chord_half a b t dx = 0.
Proof.
  intros Ha Hb H. pose proof (W_pos a b t Ha Hb) as HW. unfold chord_half. rewrite sqrt_neg_0.
  - field. lra.
  - pose proof (sqrt_sqrt (width2 a b t) ltac:(lra)) as S. pose proof (sqrt_pos (width2 a b t)).
    assert (dx * dx = Rabs dx * Rabs dx) by (rewrite <- Rabs_mult, Rabs_pos_eq; auto; apply Rle_0_sqr). nra.
Qed.
Lemma chord_inside a b t dx : 0 < a -> 0 < b -> Rabs dx < sqrt (width2 a b t) -> 0 < chord_half a b t dx.
Proof.
  intros Ha Hb H. pose proof (W_pos a b t Ha Hb) as HW. unfold chord_half.
  pose proof (sqrt_sqrt (width2 a b t) ltac:(lra)) as S. pose proof (Rabs_pos dx).
  assert (dx * dx = Rabs dx * Rabs dx) by (rewrite <- Rabs_mult, Rabs_pos_eq; auto; apply Rle_0_sqr).
  apply Rdiv_lt_0_compat; auto. apply Rmult_lt_0_compat; [nra|]. apply sqrt_lt_R0. nra.
Qed.

Lemma whole_area x a b t p q : 0 < a -> 0 < b -> p <= x - sqrt (width2 a b t) -> x + sqrt (width2 a b t) <= q ->
  is_RInt (fun u => 2 * chord_half a b t (u - x)) p q (PI * a * b).
Proof.
  intros Ha Hb Hp Hq. pose proof (W_pos a b t Ha Hb) as HW. set (W := width2 a b t) in *. set (e := sqrt W) in *.
  assert (He : 0 < e) by now apply sqrt_lt_R0. assert (EE : e * e = W) by (apply sqrt_sqrt; lra).
  assert (Z : forall u v, (forall w, u < w < v -> e <= Rabs (w - x)) -> u <= v -> is_RInt (fun u => 2 * chord_half a b t (u - x)) u v 0).
  { intros u v H L. apply (is_RInt_ext (fun _ => 0)).
    - intros w Hw. rewrite Rmin_left, Rmax_right in Hw by auto. rewrite chord_outside by (auto; apply H; lra). reqr. ring.
    - pose proof (is_RInt_const (V:=R_NormedModule) u v 0) as K. match type of K with is_RInt _ _ _ ?z => assert (Ez : z = 0) by (unfold scal; cbn; unfold mult; cbn; ring); rewrite Ez in K; exact K end. }
  assert (M : is_RInt (fun u => 2 * chord_half a b t (u - x)) (x - e) (x + e) (PI * a * b)).
  { pose proof (half_disc e He) as D.
    assert (D' : is_RInt (fun u => sqrt (e * e - (u - x) * (u - x))) (x - e) (x + e) (PI * (e * e) / 2)).
    { pose proof (is_RInt_comp_lin (V:=R_NormedModule) (fun u => sqrt (e * e - u * u)) 1 (- x) (x - e) (x + e) (PI * (e * e) / 2)) as X.
      replace (1 * (x - e) + - x) with (- e) in X by ring. replace (1 * (x + e) + - x) with e in X by ring. specialize (X D).
      apply (is_RInt_ext (fun y => scal 1 (sqrt (e * e - (1 * y + - x) * (1 * y + - x))))); auto.
      intros u _. unfold scal; cbn; unfold mult; cbn. rewrite Rmult_1_l. f_equal. ring. }
    pose proof (is_RInt_scal (V:=R_NormedModule) _ _ _ (2 * (a * b) / W) _ D') as S.
    replace (PI * a * b) with (scal (2 * (a * b) / W) (PI * (e * e) / 2)).
    - revert S. apply is_RInt_ext. intros u _. unfold scal; cbn; unfold mult; cbn. unfold chord_half. fold W. rewrite EE. field. lra.
    - unfold scal; cbn; unfold mult; cbn. rewrite EE. field. lra. }
  assert (Z1 : is_RInt (fun u => 2 * chord_half a b t (u - x)) p (x - e) 0).
  { apply Z; auto. intros w Hw. rewrite Rabs_left1; lra. }
  assert (Z2 : is_RInt (fun u => 2 * chord_half a b t (u - x)) (x + e) q 0).
  { apply Z; auto. intros w Hw. rewrite Rabs_pos_eq; lra. }
  replace (PI * a * b) with (plus (plus 0 (PI * a * b)) 0) by (unfold plus; cbn; ring).
  eapply @is_RInt_Chasles; [|exact Z2]. eapply @is_RInt_Chasles; [exact Z1|exact M].
Qed.
