(** Proofs about the 'center' method: which pixels count. *)
From Verif Require Import Base Num Numpy M_Utils M_Photometry S_Photometry S_Center L_Numpy L_Photometry.
Local Open Scope R_scope.

Lemma sc1 t : sin t * sin t + cos t * cos t = 1.
Proof. pose proof (sin2_cos2 t) as H. unfold Rsqr in H. exact H. Qed.

Lemma in_ellipse_iff x y a b t px py : 0 < a -> 0 < b ->
  (in_ellipse a b t (px - x) (py - y) = true <-> inside_ellipse x y a b t px py).
Proof.
  intros Ha Hb. unfold in_ellipse. set (dx := px - x). set (dy := py - y).
  set (u := dx * cos t + dy * sin t). set (v := - dx * sin t + dy * cos t).
  pose proof (sc1 t) as SC. split.
  - intros H. apply Rltb_iff in H. exists (u / a), (v / b). split; [exact H|].
    replace (a * (u / a)) with u by (field; lra). replace (b * (v / b)) with v by (field; lra).
    split.
    + replace px with (x + dx * (sin t * sin t + cos t * cos t)) by (rewrite SC; unfold dx; lra). unfold u, v. ring.
    + replace py with (y + dy * (sin t * sin t + cos t * cos t)) by (rewrite SC; unfold dy; lra). unfold u, v. ring.
  - intros (s & w & H & Ex & Ey). apply Rltb_iff.
    assert (U : u = a * s). { unfold u, dx, dy. rewrite Ex, Ey. transitivity (a * s * (sin t * sin t + cos t * cos t)); [ring|rewrite SC; ring]. }
    assert (V : v = b * w). { unfold v, dx, dy. rewrite Ex, Ey. transitivity (b * w * (sin t * sin t + cos t * cos t)); [ring|rewrite SC; ring]. }
    rewrite U, V. replace (a * s / a) with s by (field; lra). replace (b * w / b) with w by (field; lra). exact H.
Qed.

Lemma extent_lt p q s u : s * s + u * u < 1 -> 0 < p * p + q * q ->
  - sqrt (p * p + q * q) < p * s + q * u < sqrt (p * p + q * q).
Proof.
  intros H P. assert (S : sqrt (p * p + q * q) * sqrt (p * p + q * q) = p * p + q * q) by (apply sqrt_sqrt; lra).
  assert (S0 : 0 < sqrt (p * p + q * q)) by now apply sqrt_lt_R0.
  assert (C : (p * s + q * u) * (p * s + q * u) < p * p + q * q).
  { assert (I : (p * s + q * u) * (p * s + q * u) + (p * u - q * s) * (p * u - q * s) = (p * p + q * q) * (s * s + u * u)) by ring.
    assert (0 <= (p * u - q * s) * (p * u - q * s)) by apply Rle_0_sqr. nra. }
  split; nra.
Qed.

Lemma mix_pos p q c d : 0 < p -> 0 < q -> 0 <= c -> 0 <= d -> c + d = 1 -> 0 < p * c + q * d.
Proof. intros Hp Hq Hc Hd H. destruct (Rle_lt_dec c 0); nra. Qed.
Lemma extent_pos a b t : 0 < a -> 0 < b -> 0 < a * cos t * (a * cos t) + b * sin t * (b * sin t).
Proof.
  intros Ha Hb. pose proof (sc1 t) as SC.
  replace (a * cos t * (a * cos t) + b * sin t * (b * sin t)) with (a * a * (cos t * cos t) + b * b * (sin t * sin t)) by ring.
  apply mix_pos; try apply Rle_0_sqr; try nra.
Qed.
Lemma extent_pos' a b t : 0 < a -> 0 < b -> 0 < a * sin t * (a * sin t) + b * cos t * (b * cos t).
Proof.
  intros Ha Hb. pose proof (sc1 t) as SC.
  replace (a * sin t * (a * sin t) + b * cos t * (b * cos t)) with (a * a * (sin t * sin t) + b * b * (cos t * cos t)) by ring.
  apply mix_pos; try apply Rle_0_sqr; try nra.
Qed.

(** the centre itself counts when it is a pixel; any pixel that counts makes the overlap non-empty *)
Lemma center_covers x y a b t ny nx j i : 0 < a -> 0 < b -> (j < ny)%nat -> (i < nx)%nat ->
  inside_ellipse x y a b t (INR i) (INR j) -> center_overlap (mkap (Fin x) (Fin y) (Fin a) (Fin b) (Fin t)) ny nx <> None.
Proof.
  intros Ha Hb Hj Hi (s & u & H & Ex & Ey). unfold center_overlap.
  assert (X : x - extent_x a b t < INR i < x + extent_x a b t).
  { unfold extent_x. rewrite Ex. pose proof (extent_lt (a * cos t) (- (b * sin t)) s u H) as K.
    replace (- (b * sin t) * - (b * sin t)) with (b * sin t * (b * sin t)) in K by ring.
    specialize (K (extent_pos a b t Ha Hb)). lra. }
  assert (Y : y - extent_y a b t < INR j < y + extent_y a b t).
  { unfold extent_y. rewrite Ey. pose proof (extent_lt (a * sin t) (b * cos t) s u H (extent_pos' a b t Ha Hb)) as K. lra. }
  assert (FL : forall r n, r < INR n + 1/2 -> (Int_part r <= Z.of_nat n)%Z).
  { intros r n K. destruct (base_Int_part r) as [B _]. apply Zlt_succ_le. apply lt_IZR. unfold Z.succ. rewrite plus_IZR, <- INR_IZR_INZ. lra. }
  assert (CE : forall r n, INR n + 1/2 < r -> (0 < - Int_part (- r))%Z).
  { intros r n K. destruct (base_Int_part (- r)) as [B _]. pose proof (pos_INR n). apply lt_IZR. rewrite opp_IZR. lra. }
  unfold Rfloor, Rceil.
  pose proof (FL (x - extent_x a b t + 1/2) i ltac:(lra)). pose proof (FL (y - extent_y a b t + 1/2) j ltac:(lra)).
  pose proof (CE (x + extent_x a b t + 1/2) i ltac:(lra)). pose proof (CE (y + extent_y a b t + 1/2) j ltac:(lra)).
  destruct (_ || _)%bool eqn:E; [|discriminate]. exfalso. rewrite !orb_true_iff, !Z.leb_le in E. lia.
Qed.

Theorem center_weights x y a b t ny nx w : 0 < a -> 0 < b ->
  center_overlap (mkap (Fin x) (Fin y) (Fin a) (Fin b) (Fin t)) ny nx = Some w ->
  forall j i, (inside_ellipse x y a b t (INR i) (INR j) -> w j i = Fin 1) /\ (~ inside_ellipse x y a b t (INR i) (INR j) -> w j i = Fin 0).
Proof.
  intros Ha Hb H j i. unfold center_overlap in H. destruct (_ || _)%bool; [discriminate|]. injection H as <-. split; intros K.
  - apply in_ellipse_iff in K; auto. now rewrite K.
  - destruct (in_ellipse a b t (INR i - x) (INR j - y)) eqn:E; auto. now apply in_ellipse_iff in E.
Qed.

(** flux, area and error of one radius as plain sums over the pixels whose centre is inside *)
Theorem center_photometry k image v x y t r error mask elong (ins : nat -> nat -> bool) :
  0 < r -> 0 < elong -> fits error image -> fits mask image ->
  (forall j i, ins j i = true <-> inside_ellipse x y r (r / elong) t (INR i) (INR j) /\ selects mask j i = true) ->
  (exists j i, (j < iny image)%nat /\ (i < inx image)%nat /\ inside_ellipse x y r (r / elong) t (INR i) (INR j)) ->
  (forall j i, (j < iny image)%nat -> (i < inx image)%nat -> ins j i = true -> px image j i = Fin (v j i)) ->
  (forall e, error = Some e -> exists ev, finite_img e ev) ->
  let total f := sum2 (iny image) (inx image) (fun j i => if ins j i then f j i else 0) in
  exists f a e,
    radial_photometry center_overlap k image (Fin x, Fin y) [Fin r] error mask (Fin elong) (Fin t) = Ok ([Fin f], [Fin a], [e]) /\
    rounded6 (total v) f /\ rounded6 (total (fun _ _ => 1)) a /\
    (error = None -> e = NaN) /\
    (forall em ev, error = Some em -> finite_img em ev -> exists s, e = Fin s /\ rounded6 (sqrt (total (fun j i => ev j i * ev j i))) s).
Proof.
  intros Hr He Fe Fm HI (j0 & i0 & Hj0 & Hi0 & H0) Hv Hev total.
  assert (Hb : 0 < r / elong) by (apply Rdiv_lt_0_compat; auto).
  destruct (center_overlap (mkap (Fin x) (Fin y) (Fin r) (Fin (r / elong)) (Fin t)) (iny image) (inx image)) as [w|] eqn:Ew.
  2:{ now apply (center_covers x y r (r / elong) t _ _ j0 i0) in Ew. }
  set (wr := fun j i => if in_ellipse r (r / elong) t (INR i - x) (INR j - y) then 1 else 0).
  assert (HW : forall j i, w j i = Fin (wr j i)).
  { intros j i. unfold wr. destruct (center_weights _ _ _ _ _ _ _ _ Hr Hb Ew j i) as [W1 W2].
    destruct (in_ellipse r (r / elong) t (INR i - x) (INR j - y)) eqn:E.
    - apply W1. now apply in_ellipse_iff. - apply W2. intros K. apply in_ellipse_iff in K; auto. congruence. }
  assert (HS : forall f, weighted (iny image) (inx image) wr (selects mask) f = total f).
  { intros f. unfold weighted, total. apply sum2_ext. intros j i Hj Hi. unfold wr.
    destruct (in_ellipse r (r / elong) t (INR i - x) (INR j - y)) eqn:E.
    - rewrite Rltb_true by lra. apply in_ellipse_iff in E; auto. destruct (selects mask j i) eqn:ES.
      + rewrite (proj2 (HI j i) (conj E ES)). lra.
      + destruct (ins j i) eqn:EI; auto. apply HI in EI as [_ K]. congruence.
    - rewrite Rltb_false by lra. destruct (ins j i) eqn:EI; auto. apply HI in EI as [K _]. apply in_ellipse_iff in K; auto. congruence. }
  destruct (rp_value center_overlap k image v (Fin x) (Fin y) r error mask elong (Fin t) wr w) as (f & a & e & E1 & E2 & E3 & E4 & E5); auto.
  { intros j i Hj Hi HP HM. apply Hv; auto. apply HI. split; auto. unfold wr in HP.
    destruct (in_ellipse r (r / elong) t (INR i - x) (INR j - y)) eqn:E; [|lra]. now apply in_ellipse_iff. }
  exists f, a, e. rewrite !HS in E2, E3. split; [exact E1|]. split; [exact E2|]. split; [exact E3|]. split; auto.
  intros em ev H1 H2. destruct (E5 em ev H1 H2) as (s & K1 & K2). exists s. split; auto. now rewrite HS in K2.
Qed.
