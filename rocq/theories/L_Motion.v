(** Proofs about moved models and their images (C130). *)
From Verif Require Import Base Num Numpy M_Sersic S_Sersic S_Motion.
From Verif Require L_Sersic L_Sersic2.
Local Open Scope R_scope.

Lemma move_along s phi u v x0 y0 t x y : s = 1 \/ s = -1 ->
  (move_x s phi u x y - move_x s phi u x0 y0) * cos (move_angle s phi t) +
  (move_y s phi v x y - move_y s phi v x0 y0) * sin (move_angle s phi t) =
  (x - x0) * cos t + (y - y0) * sin t.
Proof.
  intros Hs. unfold move_x, move_y, move_angle. rewrite cos_plus, sin_plus.
  assert (C : cos (s * t) = cos t) by (destruct Hs as [-> | ->]; [now rewrite Rmult_1_l|replace (-1 * t) with (- t) by ring; apply cos_neg]).
  assert (S : sin (s * t) = s * sin t) by (destruct Hs as [-> | ->]; [now rewrite !Rmult_1_l|replace (-1 * t) with (- t) by ring; rewrite sin_neg; ring]).
  rewrite C, S. pose proof (sin2_cos2 phi) as P. unfold Rsqr in P.
  assert (Q : s * s = 1) by (destruct Hs as [-> | ->]; ring).
  transitivity ((sin phi * sin phi + cos phi * cos phi) * ((x - x0) * cos t + s * s * ((y - y0) * sin t))); [ring|].
  rewrite P, Q. ring.
Qed.

Lemma move_across s phi u v x0 y0 t x y : s = 1 \/ s = -1 ->
  (0 - (move_x s phi u x y - move_x s phi u x0 y0)) * sin (move_angle s phi t) +
  (move_y s phi v x y - move_y s phi v x0 y0) * cos (move_angle s phi t) =
  s * ((0 - (x - x0)) * sin t + (y - y0) * cos t).
Proof.
  intros Hs. unfold move_x, move_y, move_angle. rewrite cos_plus, sin_plus.
  assert (C : cos (s * t) = cos t) by (destruct Hs as [-> | ->]; [now rewrite Rmult_1_l|replace (-1 * t) with (- t) by ring; apply cos_neg]).
  assert (S : sin (s * t) = s * sin t) by (destruct Hs as [-> | ->]; [now rewrite !Rmult_1_l|replace (-1 * t) with (- t) by ring; rewrite sin_neg; ring]).
  rewrite C, S. pose proof (sin2_cos2 phi) as P. unfold Rsqr in P.
  transitivity ((sin phi * sin phi + cos phi * cos phi) * (s * ((0 - (x - x0)) * sin t + (y - y0) * cos t))); [ring|].
  rewrite P. ring.
Qed.

Lemma abs_div_sign s a b : s = 1 \/ s = -1 -> xabs (xdiv (Fin (s * a)) b) = xabs (xdiv (Fin a) b).
Proof.
  intros [-> | ->]; [now rewrite Rmult_1_l|]. replace (-1 * a) with (- a) by ring.
  destruct b as [| | |b]; cbn; auto. destruct (Reqb b 0).
  - unfold xsgn_inf. destruct (Rltb_spec 0 a), (Rltb_spec 0 (- a)), (Rltb_spec a 0), (Rltb_spec (- a) 0); cbn; auto; lra.
  - cbn. f_equal. apply L_Sersic2.Rabs_div_opp.
Qed.

Lemma gen_moved s phi u v x y A re n x0 y0 e t c : s = 1 \/ s = -1 ->
  gen_sersic2d (Fin (move_x s phi u x y)) (Fin (move_y s phi v x y)) A re n
    (Fin (move_x s phi u x0 y0)) (Fin (move_y s phi v x0 y0)) e (Fin (move_angle s phi t)) c
  = gen_sersic2d (Fin x) (Fin y) A re n (Fin x0) (Fin y0) e (Fin t) c.
Proof.
  intros Hs. unfold gen_sersic2d.
  cbn [n1 n2 n0 nofZ nopp nmul nsub nadd ndiv nabs XRnum xmul xsub xadd xopp xcos xsin].
  assert (E1 := move_along s phi u v x0 y0 t x y Hs). assert (E2 := move_across s phi u v x0 y0 t x y Hs).
  unfold Rminus in E1, E2. rewrite E1, E2. now rewrite abs_div_sign.
Qed.

Lemma sq_div_sign s a b : s = 1 \/ s = -1 -> xpow (xdiv (Fin (s * a)) b) (Fin 2) = xpow (xdiv (Fin a) b) (Fin 2).
Proof.
  intros Hs. assert (Q : s * s = 1) by (destruct Hs as [-> | ->]; ring).
  destruct b as [| | |b]; cbn [xdiv]; auto. destruct (Reqb b 0) eqn:B.
  - destruct Hs as [-> | ->]; [now rewrite Rmult_1_l|]. replace (-1 * a) with (- a) by ring.
    assert (W : Rwhole 2 && Z.odd (Int_part 2) = false).
    { replace (Int_part 2) with 2%Z; [apply andb_false_r|]. symmetry. apply (Int_part_IZR 2). }
    unfold xsgn_inf. destruct (Rltb_spec 0 a), (Rltb_spec 0 (- a)), (Rltb_spec a 0), (Rltb_spec (- a) 0); try lra;
      unfold xpow; rewrite ?W; reflexivity.
  - rewrite !L_Sersic.xpow_sq. f_equal. transitivity (s * s * (a / b * (a / b))); [unfold Rdiv; ring|]. rewrite Q. ring.
Qed.

Lemma core_moved s phi u v x y A re rb n x0 y0 al ga e t : s = 1 \/ s = -1 ->
  core_sersic2d (Fin (move_x s phi u x y)) (Fin (move_y s phi v x y)) A re rb n
    (Fin (move_x s phi u x0 y0)) (Fin (move_y s phi v x0 y0)) al ga e (Fin (move_angle s phi t))
  = core_sersic2d (Fin x) (Fin y) A re rb n (Fin x0) (Fin y0) al ga e (Fin t).
Proof.
  intros Hs. unfold core_sersic2d.
  cbn [n1 n2 n0 nofZ nopp nmul nsub nadd ndiv nabs XRnum xmul xsub xadd xopp xcos xsin].
  assert (E1 := move_along s phi u v x0 y0 t x y Hs). assert (E2 := move_across s phi u v x0 y0 t x y Hs).
  unfold Rminus in E1, E2. rewrite E1, E2. now rewrite sq_div_sign.
Qed.

Lemma nuker_moved s phi u v x y A rb x0 y0 al be ga : s = 1 \/ s = -1 ->
  nuker2d (Fin (move_x s phi u x y)) (Fin (move_y s phi v x y)) A rb
    (Fin (move_x s phi u x0 y0)) (Fin (move_y s phi v x0 y0)) al be ga
  = nuker2d (Fin x) (Fin y) A rb (Fin x0) (Fin y0) al be ga.
Proof.
  intros Hs. unfold nuker2d.
  cbn [n1 n2 n0 nofZ nopp nmul nsub nadd ndiv nabs XRnum xmul xsub xadd xopp xcos xsin].
  rewrite !L_Sersic.xpow_sq. cbn [xadd].
  match goal with |- context [nsqrt (Fin ?a)] => match goal with |- _ = ?r => match r with context [nsqrt (Fin ?b)] =>
    assert (E : a = b) end end end.
  { unfold move_x, move_y. pose proof (sin2_cos2 phi) as P. unfold Rsqr in P.
    assert (Q : s * s = 1) by (destruct Hs as [-> | ->]; ring).
    transitivity (2 * (sin phi * sin phi + cos phi * cos phi) * ((x - x0) * (x - x0) + s * s * ((y - y0) * (y - y0)))); [ring|].
    rewrite P, Q. ring. }
  now rewrite E.
Qed.
