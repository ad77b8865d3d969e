(** The area of a part of an ellipse is the same measured along columns or along rows. *)
From Coq Require Import Reals Lra Lia.
From Coquelicot Require Import Coquelicot.
From Verif Require Import M_Ellipse L_Ellipse.
Local Open Scope R_scope.

Lemma int_bounds f p q m M : p <= q -> ex_RInt f p q -> (forall x, p < x < q -> m <= f x <= M) ->
  m * (q - p) <= RInt f p q <= M * (q - p).
Proof.
  intros H E B. assert (C : forall c, c * (q - p) = RInt (fun _ => c) p q).
  { intros c. rewrite RInt_const. unfold scal; cbn; unfold mult; cbn. ring. }
  rewrite !C. split; apply RInt_le; auto; try apply ex_RInt_const; intros x Hx; apply B; auto.
Qed.

Section Swap.
  Variables (a b t : R).
  Hypothesis Ha : 0 < a.
  Hypothesis Hb : 0 < b.
  Local Notation mid := (chord_mid a b t).
  Local Notation hl := (chord_half a b t).
  Local Notation part := (chord_part a b t).
  Local Notation part' := (chord_part a b (PI / 2 - t)).

  Lemma chord_swap u v : (chord_mid a b (PI / 2 - t) v - chord_half a b (PI / 2 - t) v < u < chord_mid a b (PI / 2 - t) v + chord_half a b (PI / 2 - t) v)
    <-> (mid u - hl u < v < mid u + hl u).
  Proof.
    rewrite <- !chord_iff by auto. rewrite cos_shift, sin_shift.
    replace ((v * sin t + u * cos t) / a * ((v * sin t + u * cos t) / a) + (- v * cos t + u * sin t) / b * ((- v * cos t + u * sin t) / b))
      with ((u * cos t + v * sin t) / a * ((u * cos t + v * sin t) / a) + (- u * sin t + v * cos t) / b * ((- u * sin t + v * cos t) / b)) by (unfold Rdiv; ring).
    tauto.
  Qed.
  Lemma int_part0 t0 lo hi p q : ex_RInt (fun v => chord_part a b t0 v lo hi) p q.
  Proof.
    apply (ex_RInt_ext (fun v => chord_part a b t0 (v - 0) lo hi)); [|apply int_part; auto].
    intros v _. now rewrite Rminus_0_r.
  Qed.

  Lemma ends_near X eps : 0 < eps -> exists d, 0 < d /\ forall u, Rabs (u - X) < d ->
    Rabs (mid u - hl u - (mid X - hl X)) < eps /\ Rabs (mid u + hl u - (mid X + hl X)) < eps.
  Proof.
    intros He.
    assert (C1 : continuous (fun u => mid u - hl u) X) by (apply @continuous_minus; [apply cont_mid|apply cont_hl]; auto).
    assert (C2 : continuous (fun u => mid u + hl u) X) by (apply @continuous_plus; [apply cont_mid|apply cont_hl]; auto).
    destruct (proj1 (filterlim_locally _ _) C1 (mkposreal eps He)) as [d1 D1].
    destruct (proj1 (filterlim_locally _ _) C2 (mkposreal eps He)) as [d2 D2].
    exists (Rmin d1 d2). split; [apply Rmin_glb_lt; [apply d1|apply d2]|]. intros u Hu.
    pose proof (Rmin_l d1 d2). pose proof (Rmin_r d1 d2). split.
    - apply D1. change (Rabs (u - X) < d1). lra.
    - apply D2. change (Rabs (u - X) < d2). lra.
  Qed.

  Lemma part_none v s e : s <= e -> (forall u, s < u < e -> ~ (mid u - hl u < v < mid u + hl u)) -> part' v s e = 0.
  Proof.
    intros H N. destruct (part_spec a b (PI / 2 - t) Ha Hb v s e H) as (p & q & L & -> & S).
    destruct (Rle_lt_dec q p); [lra|]. exfalso.
    destruct (proj1 (S ((p + q) / 2)) ltac:(lra)) as [S1 S2]. apply chord_swap in S1. exact (N _ S2 S1).
  Qed.
  Lemma part_all v s e : s < e -> (forall u, s < u < e -> mid u - hl u < v < mid u + hl u) -> part' v s e = e - s.
  Proof.
    intros H N. apply Rle_antisym; [apply part_le; lra|]. destruct (part_spec a b (PI / 2 - t) Ha Hb v s e ltac:(lra)) as (p & q & L & -> & S).
    assert (I : forall u, s < u < e -> p < u < q) by (intros u Hu; apply S; split; auto; apply chord_swap; auto).
    assert (p <= s). { destruct (Rle_lt_dec p s); auto. exfalso. pose proof (Rmin_l p e). pose proof (Rmin_r p e). assert (s < Rmin p e) by (apply Rmin_glb_lt; lra).
      specialize (I ((s + Rmin p e) / 2)). lra. }
    assert (e <= q). { destruct (Rle_lt_dec e q); auto. exfalso. pose proof (Rmax_l q s). pose proof (Rmax_r q s). assert (Rmax q s < e) by (apply Rmax_lub_lt; lra).
      specialize (I ((e + Rmax q s) / 2)). lra. }
    lra.
  Qed.

  Lemma slab X lo hi eps s e : lo <= hi -> 0 < eps -> s < e ->
    (forall u, s < u < e -> Rabs (mid u - hl u - (mid X - hl X)) < eps /\ Rabs (mid u + hl u - (mid X + hl X)) < eps) ->
    Rabs (RInt (fun v => part' v s e) lo hi - (e - s) * part X lo hi) <= 2 * eps * (e - s).
  Proof.
    intros Hl He Hs N. pose proof (hl_nonneg a b t Ha Hb X) as Hh.
    set (z1 := mid X - hl X) in *. set (z2 := mid X + hl X) in *.
    set (P := Rmin hi (Rmax lo z1)). set (Q := Rmin hi (Rmax lo z2)).
    assert (B0 : lo <= P /\ P <= Q /\ Q <= hi).
    { unfold P, Q. split; [apply Rmin_glb; auto; apply Rmax_l|]. split; [|apply Rmin_l].
      apply Rle_min_compat_l, Rle_max_compat_l. unfold z1, z2. lra. }
    destruct B0 as (B1 & B2 & B3).
    assert (EP : part X lo hi = Q - P).
    { unfold chord_part. fold z1 z2. assert (z1 <= z2) by (unfold z1, z2; lra). unfold P, Q, Rmin, Rmax. repeat destruct (Rle_dec _ _); lra. }
    assert (F0 : forall v, 0 <= part' v s e <= e - s) by (intros; split; [apply part_nonneg|apply part_le; lra]).
    assert (Z1 : lo < P -> P <= z1) by (unfold P, Rmin, Rmax; repeat destruct (Rle_dec _ _); lra).
    assert (Z2 : P < hi -> z1 <= P) by (unfold P, Rmin, Rmax; repeat destruct (Rle_dec _ _); lra).
    assert (Z3 : lo < Q -> Q <= z2) by (unfold Q, Rmin, Rmax; repeat destruct (Rle_dec _ _); lra).
    assert (Z4 : Q < hi -> z2 <= Q) by (unfold Q, Rmin, Rmax; repeat destruct (Rle_dec _ _); lra).
    clearbody P Q.
    assert (F1 : forall v, lo < v < hi -> v < P - eps \/ Q + eps < v -> part' v s e = 0).
    { intros v Hv C. apply part_none; [lra|]. intros u Hu [I1 I2]. destruct (N u Hu) as [N1 N2].
      apply Rabs_def2 in N1, N2. destruct C; [specialize (Z1 ltac:(lra))|specialize (Z4 ltac:(lra))]; lra. }
    assert (F2 : forall v, P + eps < v < Q - eps -> part' v s e = e - s).
    { intros v Hv. apply part_all; auto. intros u Hu. destruct (N u Hu) as [N1 N2]. apply Rabs_def2 in N1, N2.
      specialize (Z2 ltac:(lra)). specialize (Z3 ltac:(lra)). lra. }
    rewrite EP. set (f := fun v => part' v s e).
    assert (EX : forall p q, ex_RInt f p q) by (intros; apply int_part0).
    assert (CH : forall c1 c2, RInt f lo hi = RInt f lo c1 + RInt f c1 c2 + RInt f c2 hi).
    { intros c1 c2. rewrite <- (RInt_Chasles f lo c2 hi), <- (RInt_Chasles f lo c1 c2); auto. }
    apply Rabs_le. split.
    - destruct (Rle_lt_dec (Q - P) (2 * eps)) as [G|G].
      + destruct (int_bounds f lo hi 0 (e - s) Hl (EX _ _)) as [I _]; [intros; apply F0|]. nra.
      + rewrite (CH (P + eps) (Q - eps)).
        destruct (int_bounds f lo (P + eps) 0 (e - s) ltac:(lra) (EX _ _)) as [I1 _]; [intros; apply F0|].
        destruct (int_bounds f (Q - eps) hi 0 (e - s) ltac:(lra) (EX _ _)) as [I3 _]; [intros; apply F0|].
        destruct (int_bounds f (P + eps) (Q - eps) (e - s) (e - s) ltac:(lra) (EX _ _)) as [I2 _]; [intros; unfold f; rewrite F2 by auto; lra|].
        nra.
    - rewrite (CH (Rmax lo (P - eps)) (Rmin hi (Q + eps))).
      assert (C1 : lo <= Rmax lo (P - eps) <= P) by (split; [apply Rmax_l|apply Rmax_lub; lra]).
      assert (C2 : Q <= Rmin hi (Q + eps) <= hi) by (split; [apply Rmin_glb; lra|apply Rmin_l]).
      assert (C3 : P - eps <= Rmax lo (P - eps)) by apply Rmax_r. assert (C4 : Rmin hi (Q + eps) <= Q + eps) by apply Rmin_r.
      assert (D1 : forall v, lo < v < Rmax lo (P - eps) -> v < P - eps) by (intros v; unfold Rmax; destruct (Rle_dec _ _); lra).
      assert (D2 : forall v, Rmin hi (Q + eps) < v < hi -> Q + eps < v) by (intros v; unfold Rmin; destruct (Rle_dec _ _); lra).
      destruct (int_bounds f lo (Rmax lo (P - eps)) 0 0 ltac:(lra) (EX _ _)) as [_ I1].
      { intros v Hv. unfold f. rewrite F1; [lra|lra|left; apply D1; lra]. }
      destruct (int_bounds f (Rmin hi (Q + eps)) hi 0 0 ltac:(lra) (EX _ _)) as [_ I3].
      { intros v Hv. unfold f. rewrite F1; [lra|lra|right; apply D2; lra]. }
      destruct (int_bounds f (Rmax lo (P - eps)) (Rmin hi (Q + eps)) 0 (e - s) ltac:(lra) (EX _ _)) as [_ I2]; [intros; apply F0|].
      nra.
  Qed.

  Lemma rows_split lo hi L s e : L <= s <= e ->
    RInt (fun v => part' v L e) lo hi = RInt (fun v => part' v L s) lo hi + RInt (fun v => part' v s e) lo hi.
  Proof.
    intros H. rewrite <- (RInt_plus (V:=R_CompleteNormedModule)) by apply int_part0. apply RInt_ext. intros v _. unfold plus; cbn. now apply part_split.
  Qed.

  Lemma rows_derive lo hi L X : lo <= hi -> L < X -> is_derive (fun X => RInt (fun v => part' v L X) lo hi) X (part X lo hi).
  Proof.
    intros Hl HX. apply is_derive_Reals. intros eps He.
    destruct (ends_near X (eps / 3) ltac:(lra)) as (d & Hd & N).
    assert (Hm : 0 < Rmin d (X - L)) by (apply Rmin_glb_lt; lra). exists (mkposreal _ Hm). intros h Hh Hs. cbn [pos] in Hs.
    pose proof (Rmin_l d (X - L)). pose proof (Rmin_r d (X - L)). apply Rabs_def2 in Hs.
    destruct (Rlt_le_dec 0 h) as [P|P].
    - rewrite (rows_split lo hi L X (X + h)) by lra.
      pose proof (slab X lo hi (eps / 3) X (X + h) Hl ltac:(lra) ltac:(lra)) as S.
      specialize (S ltac:(intros u Hu; apply N; apply Rabs_def1; lra)).
      set (I := RInt (fun v => part' v X (X + h)) lo hi) in *. replace (X + h - X) with h in S by ring.
      match goal with |- Rabs (?x - _) < _ => replace x with (I / h) by (field; lra) end.
      replace (I / h - part X lo hi) with ((I - h * part X lo hi) / h) by (field; lra).
      unfold Rdiv. rewrite Rabs_mult, (Rabs_inv h), (Rabs_pos_eq h) by lra.
      apply Rle_lt_trans with (2 * (eps / 3) * h * / h); [apply Rmult_le_compat_r; auto; left; apply Rinv_0_lt_compat; lra|].
      replace (2 * (eps / 3) * h * / h) with (2 * eps / 3) by (field; lra). lra.
    - rewrite (rows_split lo hi L (X + h) X) by lra.
      pose proof (slab X lo hi (eps / 3) (X + h) X Hl ltac:(lra) ltac:(lra)) as S.
      specialize (S ltac:(intros u Hu; apply N; apply Rabs_def1; lra)).
      set (I := RInt (fun v => part' v (X + h) X) lo hi) in *. replace (X - (X + h)) with (- h) in S by ring.
      match goal with |- Rabs (?x - _) < _ => replace x with (I / - h) by (field; lra) end.
      replace (I / - h - part X lo hi) with ((I - - h * part X lo hi) / - h) by (field; lra).
      unfold Rdiv. rewrite Rabs_mult, (Rabs_inv (- h)), (Rabs_pos_eq (- h)) by lra.
      apply Rle_lt_trans with (2 * (eps / 3) * - h * / - h); [apply Rmult_le_compat_r; auto; left; apply Rinv_0_lt_compat; lra|].
      replace (2 * (eps / 3) * - h * / - h) with (2 * eps / 3) by (field; lra). lra.
  Qed.

  Theorem swap_area lo hi X0 X1 : lo <= hi -> X0 <= X1 ->
    RInt (fun u => part u lo hi) X0 X1 = RInt (fun v => part' v X0 X1) lo hi.
  Proof.
    intros Hl HX. destruct (Rle_lt_or_eq_dec _ _ HX) as [Lt|Eq].
    2:{ subst X1. rewrite RInt_point. symmetry. erewrite RInt_ext.
        2:{ intros v _. apply part_none; [lra|]. intros u Hu. lra. }
        rewrite RInt_const. unfold scal, zero; cbn; unfold mult; cbn. ring. }
    set (L := X0 - 1).
    set (D := fun X => RInt (fun v => part' v L X) lo hi - RInt (fun u => part u lo hi) L X).
    assert (E : D X0 = D X1).
    { apply eq_is_derive; auto. intros X HXX. cut (is_derive D X (part X lo hi - part X lo hi)).
      { replace (part X lo hi - part X lo hi) with 0 by ring. auto. }
      apply @is_derive_minus; [apply rows_derive; auto; unfold L; lra|].
      apply (is_derive_RInt (V:=R_NormedModule) (fun u => part u lo hi) (fun X => RInt (fun u => part u lo hi) L X) L X).
      - exists (mkposreal 1 Rlt_0_1). intros z _. apply (RInt_correct (V:=R_CompleteNormedModule)). apply int_part0.
      - apply cont_part; auto. }
    unfold D in E. rewrite (rows_split lo hi L X0 X1) in E by (unfold L; lra).
    rewrite <- (RInt_Chasles (fun u => part u lo hi) L X0 X1) in E by apply int_part0. change (@plus R_CompleteNormedModule) with Rplus in E. lra.
  Qed.
End Swap.
