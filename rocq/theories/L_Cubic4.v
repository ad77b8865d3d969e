(** Convergence of the measurements with cubic splines. *)
From Coq Require Import String.
From Verif Require Import Base Num Numpy M_Utils M_Photometry S_Photometry M_Petrosian M_Sersic Gamma S_Sersic S_Utils S_Petrosian S_PetroR S_Conv S_Robust S_Noise S_Spline S_Cubic
  M_PSF S_PSF M_Fitting S_Fitting M_Integrate S_Integrate M_Exact S_Exact S_Galaxy S_Render S_Image
  L_Numpy L_Sersic L_Petrosian L_Conv L_Conv2 L_Conv3 L_Galaxy3 L_Galaxy4 L_Spline L_Spline2 L_Spline3 L_Spline4 L_Cubic L_Cubic3.
Local Open Scope list_scope.
Local Open Scope R_scope.

Lemma spline_within interp xs ys q w v : cubic_spline interp -> increasing xs -> List.length xs = List.length ys -> (4 <= List.length xs)%nat ->
  steps_within q xs -> jumps_within w ys -> (1 + 2 * q) * q ^ 2 * w <= v -> overshoots_within v interp xs ys.
Proof.
  intros C I L L4 St Ju Hv. destruct (C xs ys I L L4) as (F & f & E & V & N). exists F. split; auto.
  intros i x Hi Hx. destruct (spline_overshoot f xs ys q w I St Ju N i x Hi Hx) as (z & B & D).
  exists (f x), z. split; [|split; [auto|lra]]. apply V. split.
  - apply Rle_trans with (at_ xs i); [|lra]. destruct i; [lra|]. left. apply inc_lt; auto; lia.
  - apply Rle_trans with (at_ xs (S i)); [lra|]. unfold last_of. destruct (Nat.eq_dec (S i) (List.length xs - 1)) as [->|]; [lra|].
    left. apply inc_lt; auto; lia.
Qed.

Lemma steps_tail q r rs : steps_within q (r :: rs) -> steps_within q rs.
Proof. intros S i j Hi Hj. exact (S (Datatypes.S i) (Datatypes.S j) ltac:(cbn; lia) ltac:(cbn; lia)). Qed.
Lemma steps_le q q' rs : q <= q' -> increasing rs -> steps_within q rs -> steps_within q' rs.
Proof.
  intros H I S i j Hi Hj. pose proof (S i j Hi Hj). pose proof (I j Hj).
  apply Rle_trans with (1 := H0). apply Rmult_le_compat_r; lra.
Qed.
Lemma steps_skip q r rs : 0 < r -> increasing (r :: rs) -> steps_within q (0 :: r :: rs) -> steps_within (2 * q) (0 :: rs).
Proof.
  intros Hr I S.
  assert (Sh : forall j, (j < List.length rs)%nat ->
    exists u, (u < Datatypes.S (List.length rs))%nat /\ at_ (0 :: r :: rs) (Datatypes.S u) - at_ (0 :: r :: rs) u <= at_ (0 :: rs) (Datatypes.S j) - at_ (0 :: rs) j).
  { intros j Hj. exists (Datatypes.S j). split; [lia|]. destruct j; unfold at_; cbn [nth]; [lra|]. lra. }
  assert (Qp : 0 < q).
  { pose proof (S 0%nat 0%nat ltac:(cbn; lia) ltac:(cbn; lia)) as Q. unfold at_ in Q. cbn [nth] in Q. nra. }
  intros i j Hi Hj. cbn [List.length] in Hj. destruct (Sh j ltac:(lia)) as (u & Hu & Lu).
  apply Rle_trans with (2 * q * (at_ (0 :: r :: rs) (Datatypes.S u) - at_ (0 :: r :: rs) u)); [|apply Rmult_le_compat_l; lra].
  cbn [List.length] in Hi. pose proof (S (Datatypes.S i) u ltac:(cbn [List.length]; lia) ltac:(cbn [List.length]; lia)) as Q1. pose proof (S 0%nat u ltac:(cbn [List.length]; lia) ltac:(cbn [List.length]; lia)) as Q2.
  destruct i as [|i]; unfold at_ in *; cbn [nth] in *; [lra|].
  pose proof (I i ltac:(cbn; lia)) as Ii. unfold at_ in Ii. lra.
Qed.
Lemma fine_length d rs : 0 < d -> (1 <= List.length rs)%nat -> fine d (0 :: rs) -> last_of rs < d * INR (List.length rs).
Proof.
  intros Hd L F. assert (H : forall i, (i < List.length rs)%nat -> at_ rs i < d * INR (S i)).
  { induction i as [|i IH]; intros Hi; pose proof (F i ltac:(cbn; lia)) as Q || pose proof (F 0%nat ltac:(cbn; lia)) as Q.
    - unfold at_ in *. cbn [nth] in Q. cbn [INR]. lra.
    - pose proof (F (S i) ltac:(cbn; lia)) as Q'. change (at_ (0 :: rs) (S (S i))) with (at_ rs (S i)) in Q'.
      change (at_ (0 :: rs) (S i)) with (at_ rs i) in Q'. specialize (IH ltac:(lia)). rewrite S_INR. lra. }
  unfold last_of. pose proof (H (List.length rs - 1)%nat ltac:(lia)) as Q. replace (S (List.length rs - 1)) with (List.length rs) in Q by lia. exact Q.
Qed.
Lemma many d rs x : 0 < d -> d <= x / 4 -> (1 <= List.length rs)%nat -> fine d (0 :: rs) -> x <= last_of rs -> (4 <= List.length rs)%nat.
Proof.
  intros Hd Hx L F La. pose proof (fine_length d rs Hd L F) as Q.
  destruct (Nat.le_gt_cases 4 (List.length rs)) as [|H]; auto. exfalso.
  assert (INR (List.length rs) <= INR 3) by (apply le_INR; lia). cbn [INR] in H0. nra.
Qed.

(** the two curves of samples with small jumps *)
Lemma calm_of interp q w v w1 v1 rs As L V : cubic_spline interp -> (4 <= List.length rs)%nat -> increasing rs -> 0 < at_ rs 0 ->
  steps_within q (0 :: rs) -> 1 <= q -> List.length L = List.length rs -> jumps_within v1 L -> jumps_within w1 (1 :: V) -> 
  profile_samples As L (1 :: V) -> 0 <= v1 ->
  (1 + 4 * q) * (2 * q) ^ 2 * w1 <= w -> (1 + 4 * q) * (2 * q) ^ 2 * v1 <= v -> calm w v interp rs As L.
Proof.
  intros C L4 I P0 St Hq LL Jv Jw PS Hv1 Hw Hv. 
  assert (Iq : increasing rs) by auto.
  split.
  - apply (spline_within interp rs L (2 * q) v1 v); auto; [|lra].
    apply (steps_le q); auto; [lra|]. eapply steps_tail; eauto.
  - intros ys (Ly & Y0 & Y1). replace ys with (1 :: V).
    + destruct rs as [|r0 rs]; [cbn in L4; lia|]. cbn [tl]. destruct PS as (LV & _).
      apply (spline_within interp (0 :: rs) (1 :: V) (2 * q) w1 w); auto; try lra.
      * apply (inc_tl r0); auto.
      * rewrite LV, LL. reflexivity.
      * apply (steps_skip q r0); auto.
    + destruct PS as (LV & V0 & V1). apply (nth_ext _ _ 0 0); [now rewrite LV, Ly|]. intros i Hi.
      fold (at_ (1 :: V) i). fold (at_ ys i). destruct i; [now rewrite V0, Y0|]. rewrite V1, Y1 by lia. reflexivity.
Qed.
Lemma q_ge q rs : (1 <= List.length rs)%nat -> 0 < at_ rs 0 -> steps_within q (0 :: rs) -> 1 <= q.
Proof.
  intros L P S. pose proof (S 0%nat 0%nat ltac:(cbn; lia) ltac:(cbn; lia)) as Q. change (at_ (0 :: rs) 1) with (at_ rs 0) in Q.
  unfold at_ at 2 4 in Q. cbn [nth] in Q. nra.
Qed.

Section Ideal.
  Variables A re n e : R.
  Hypothesis HA : 0 < A.
  Hypothesis Hre : 0 < re.
  Hypothesis Hn : 0 < n.
  Hypothesis He : e < 1.

  Lemma calm_spline q w : 0 < q -> 0 < w -> exists d, 0 < d /\ forall interp rs L, cubic_spline interp -> (4 <= List.length rs)%nat ->
    increasing rs -> 0 < at_ rs 0 -> fine d (0 :: rs) -> steps_within q (0 :: rs) -> sersic_fluxes A re n e rs L ->
    calm w w interp rs (map (ellipse_area e) rs) L.
  Proof.
    intros Hq Hw. set (c := (1 + 4 * q) * (2 * q) ^ 2).
    assert (Hc : 0 < c) by (unfold c; apply Rmult_lt_0_compat; [lra|apply pow_lt; lra]).
    assert (Hw1 : 0 < w / c) by now apply Rdiv_lt_0_compat.
    assert (Ec : c * (w / c) = w) by (field; lra).
    destruct (close_samples A re n e HA Hre Hn He (w / c) Hw1) as (d & Hd & H). exists d. split; auto.
    intros interp rs L C L4 I P0 Fi St SF. pose proof (q_ge q rs ltac:(lia) P0 St) as Q1.
    destruct (H rs ltac:(lia) I P0 Fi) as [J1 J2].
    rewrite (fluxes_map A re n e rs L Hre Hn P0 I SF).
    set (V := map (fun i => measured A re n e (at_ rs i) (at_ rs (S i))) (seq 0 (List.length rs - 1))).
    assert (LV : List.length V = (List.length rs - 1)%nat) by (unfold V; now rewrite map_length, seq_length).
    assert (VV : forall i, (S i < List.length rs)%nat -> at_ V i = measured A re n e (at_ rs i) (at_ rs (S i))).
    { intros i Hi. unfold at_ at 1, V. rewrite nth_indep with (d' := measured A re n e (at_ rs 0) (at_ rs 1)) by (rewrite map_length, seq_length; lia).
      rewrite (map_nth (fun i => measured A re n e (at_ rs i) (at_ rs (S i)))), seq_nth by lia. reflexivity. }
    apply (calm_of interp q w w (w / c) (w / c) rs _ _ V); auto; try (fold c; lra).
    - apply map_length.
    - intros i Hi. rewrite map_length in Hi. rewrite !at_map by lia. now apply J1.
    - apply J2; auto. intros i Hi. rewrite VV, Rminus_diag_eq, Rabs_R0 by auto. lra.
    - apply samples_of; auto. lia.
  Qed.
End Ideal.

Theorem spline_radius A re n e rt eta eps q : 0 < A -> 0 < re -> 0 < n -> e < 1 -> 0 < rt ->
  petrosian_profile (Fin rt) (Fin re) (Fin n) = Fin eta -> 0 < eps -> 0 < q ->
  exists d, 0 < d /\ forall mk k rs L s, sampled A re n e d (rt + eps) rs L -> steps_within q (0 :: rs) ->
    s_eta s = Fin eta -> s_kind s = Some k -> cubic_spline (mk k) -> last_of rs < d * INR (s_num s - 1) ->
    exists o a, Petrosian_new (ideal_data e rs L) s = Ok o /\
      read mk o A_r_petrosian = Ok (VNum (Fin a)) /\ Rabs (a - rt) < eps.
Proof.
  intros HA Hre Hn He Hrt Ht Heps Hq. destruct (radius_converges A re n e rt eta eps HA Hre Hn He Hrt Ht Heps) as (d1 & w & Hd1 & Hw & H).
  destruct (calm_spline A re n e HA Hre Hn He q w Hq Hw) as (d2 & Hd2 & C).
  set (d := Rmin d1 (Rmin d2 (rt / 4))). assert (0 < d) by (unfold d; repeat apply Rmin_pos; lra).
  assert (G1 : d <= d1) by apply Rmin_l. assert (G2 : d <= d2) by (unfold d; eapply Rle_trans; [apply Rmin_r|apply Rmin_l]).
  assert (G3 : d <= rt / 4) by (unfold d; eapply Rle_trans; [apply Rmin_r|apply Rmin_r]).
  exists d. split; auto. intros mk k rs L s (Len & I & P0 & Fi & La & SF) St Es Ek Cs Hn'.
  apply H; auto.
  - split; auto. split; auto. split; auto. split; [eapply fine_le; eauto|]. auto.
  - intros k' Ek'. rewrite Ek in Ek'. injection Ek' as <-. split.
    + apply C; auto; [|eapply fine_le; eauto]. apply (many d rs rt); auto; [lia|lra].
    + apply Rlt_le_trans with (1 := Hn'). apply Rmult_le_compat_r; [apply pos_INR|auto].
Qed.

Section Objects.
  Variables A re n e rt eta epsilon ef : R.
  Hypothesis HA : 0 < A.
  Hypothesis Hre : 0 < re.
  Hypothesis Hn : 0 < n.
  Hypothesis He : e < 1.
  Hypothesis Hrt : 0 < rt.
  Hypothesis Heta : petrosian_profile (Fin rt) (Fin re) (Fin n) = Fin eta.
  Hypothesis Hep : 0 < epsilon.
  Variable q : R.
  Hypothesis Hq : 0 < q.

  Lemma set_by_spline w : 0 < w -> exists d, 0 < d /\ forall d' mk k rs L s reach, 0 < d' <= d -> rt <= reach -> sampled A re n e d' reach rs L -> steps_within q (0 :: rs) ->
    set_to eta epsilon ef d' rs k s -> cubic_spline (mk k) -> settings_within mk eta epsilon ef d' w e rs L s.
  Proof.
    intros Hw. destruct (calm_spline A re n e HA Hre Hn He q w Hq Hw) as (d2 & Hd2 & C).
    exists (Rmin d2 (rt / 4)). split; [apply Rmin_pos; lra|]. intros d' mk k rs L s reach Hd' Hr (Len & I & P0 & Fi & La & SF) St Se Cs.
    assert (d' <= d2) by (eapply Rle_trans; [apply Hd'|apply Rmin_l]). assert (d' <= rt / 4) by (eapply Rle_trans; [apply Hd'|apply Rmin_r]).
    exists k. split; auto. apply C; auto; [|eapply fine_le; eauto]. apply (many d' rs rt); auto; [lra|lia|lra].
  Qed.

  Lemma sampled_le d d' reach rs L : d <= d' -> sampled A re n e d reach rs L -> sampled A re n e d' reach rs L.
  Proof. intros H (Len & I & P0 & Fi & La & SF). split; auto. split; auto. split; auto. split; [eapply fine_le; eauto|]. auto. Qed.
  Lemma within_d_le mk d d' w rs L s : d <= d' -> settings_within mk eta epsilon ef d w e rs L s -> settings_within mk eta epsilon ef d' w e rs L s.
  Proof.
    intros H (k & (S1 & S2 & S3 & S4 & S5) & C). exists k. split; auto. split; auto. split; auto. split; auto. split; auto.
    apply Rlt_le_trans with (1 := S5). apply Rmult_le_compat_r; [apply pos_INR|auto].
  Qed.

  (** a statement for all interpolations that overshoot by at most w holds for splines *)
  Lemma by_spline (reach : R) (Q : (kind -> list xr -> list xr -> result (xr -> xr)) -> list R -> list R -> psettings xr -> Prop) : rt <= reach ->
    (exists d w, 0 < d /\ 0 < w /\ forall mk rs L s, sampled A re n e d reach rs L -> settings_within mk eta epsilon ef d w e rs L s -> Q mk rs L s) ->
    exists d, 0 < d /\ forall mk k rs L s, sampled A re n e d reach rs L -> steps_within q (0 :: rs) ->
      set_to eta epsilon ef d rs k s -> cubic_spline (mk k) -> Q mk rs L s.
  Proof.
    intros Hr (d1 & w & Hd1 & Hw & H). destruct (set_by_spline w Hw) as (d2 & Hd2 & C).
    assert (0 < Rmin d1 d2) by (apply Rmin_pos; auto). pose proof (Rmin_l d1 d2). pose proof (Rmin_r d1 d2).
    exists (Rmin d1 d2). split; auto. intros mk k rs L s Sa St Se Cs.
    apply H; [eapply sampled_le; eauto|]. apply (within_d_le mk (Rmin d1 d2)); auto. apply (C _ mk k rs L s reach); auto.
  Qed.

  Theorem spline_fraction f r eps : 0 < f / ef -> true_radius A re n e rt epsilon ef f r -> 0 < eps ->
    exists d, 0 < d /\ forall mk k rs L s,
      sampled A re n e d (Rmax rt (Rmax r (epsilon * rt)) + eps) rs L -> steps_within q (0 :: rs) ->
      set_to eta epsilon ef d rs k s -> cubic_spline (mk k) ->
      exists o, Petrosian_new (ideal_data e rs L) s = Ok o /\
        forall a, radius_of s f a -> exists b, read mk o a = Ok (VNum (Fin b)) /\ Rabs (b - r) < eps.
  Proof.
    intros Hf Hr Heps. apply by_spline; [pose proof (Rmax_l rt (Rmax r (epsilon * rt))); lra|].
    exact (fraction_converges A re n e rt eta epsilon ef HA Hre Hn He Hrt Heta Hep f r eps Hf Hr Heps).
  Qed.
  Theorem spline_flux f r Ft eps : 0 < f / ef -> true_radius A re n e rt epsilon ef f r ->
    sersic_enclosed (Fin r) (Fin A) (Fin re) (Fin n) (Fin e) = Fin Ft -> 0 < eps ->
    exists d, 0 < d /\ forall mk k rs L s,
      sampled A re n e d (Rmax rt (Rmax r (epsilon * rt)) + eps) rs L -> steps_within q (0 :: rs) ->
      set_to eta epsilon ef d rs k s -> cubic_spline (mk k) ->
      exists o, Petrosian_new (ideal_data e rs L) s = Ok o /\
        forall a, flux_of s f a -> exists F, read mk o a = Ok (VNum (Fin F)) /\ Rabs (F - Ft) < eps.
  Proof.
    intros Hf Hr HF Heps. apply by_spline; [pose proof (Rmax_l rt (Rmax r (epsilon * rt))); lra|].
    exact (flux_converges A re n e rt eta epsilon ef HA Hre Hn He Hrt Heta Hep f r Ft eps Hf Hr HF Heps).
  Qed.
  Theorem spline_concentration f1 f2 r1 r2 eps : 0 < f1 / ef -> 0 < f2 / ef ->
    true_radius A re n e rt epsilon ef f1 r1 -> true_radius A re n e rt epsilon ef f2 r2 -> 0 < eps ->
    exists d, 0 < d /\ forall mk k rs L s,
      sampled A re n e d (Rmax rt (Rmax (Rmax r1 r2) (epsilon * rt)) + eps) rs L -> steps_within q (0 :: rs) ->
      set_to eta epsilon ef d rs k s -> cubic_spline (mk k) ->
      exists o, Petrosian_new (ideal_data e rs L) s = Ok o /\
        (exists a b c, read mk o (A_concentration (Fin f1) (Fin f2)) = Ok (VTriple (Fin a) (Fin b) (Fin c)) /\
           Rabs (a - r1) < eps /\ Rabs (b - r2) < eps /\ Rabs (c - 5 * (ln (r2 / r1) / ln 10)) < eps) /\
        forall a, concentration_of f1 f2 a -> exists c, read mk o a = Ok (VNum (Fin c)) /\
           Rabs (c - 5 * (ln (r2 / r1) / ln 10)) < eps.
  Proof.
    intros Hf1 Hf2 Hr1 Hr2 Heps. apply by_spline; [pose proof (Rmax_l rt (Rmax (Rmax r1 r2) (epsilon * rt))); lra|].
    exact (concentration_converges A re n e rt eta epsilon ef HA Hre Hn He Hrt Heta Hep f1 f2 r1 r2 eps Hf1 Hf2 Hr1 Hr2 Heps).
  Qed.
End Objects.
