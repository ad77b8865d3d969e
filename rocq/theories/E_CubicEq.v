(** A concrete noisy measurement with cubic interpolation. *)
From Verif Require Import Base Num Numpy M_Utils M_Petrosian M_Interp M_Cubic S_PetObj S_Zoom S_Petrosian S_PetroR S_Conv S_Noise S_Robust S_Cubic
  L_Petrosian L_Conv L_Conv2 L_Noise L_Noise2 L_Cubic L_Cubic2 E_Robust E_Noise L_CubicEq L_CubicEq2.
Local Open Scope R_scope.

Definition setQ : psettings xr := mkset (Fin (4 / 25)) (Fin 1) (Fin (99 / 100)) (Fin (99 / 100)) (Some KCubic) 5.
Definition yQ : list R := [1; 86119 / 82460; 12 / 19; 6 / 35; 16 / 217].
Definition zQ : list R := [10; 4513 / 256; 3283 / 160; 5395 / 256; 217 / 10].

Lemma evalQ xs ys a0 a1 a2 a3 : increasing xs -> length xs = length ys -> (4 <= length xs)%nat ->
  (forall i, (i < length xs)%nat -> at_ ys i = a0 + a1 * at_ xs i + a2 * at_ xs i ^ 2 + a3 * at_ xs i ^ 3) ->
  exists F, mk_cubic KCubic (map Fin xs) (map Fin ys) = Ok F /\
    forall x, at_ xs 0 <= x <= S_Conv.last_of xs -> F (Fin x) = Fin (a0 + a1 * x + a2 * x ^ 2 + a3 * x ^ 3).
Proof.
  intros I Le L4 E. destruct (mk_cubic_spline KCubic (or_introl eq_refl) xs ys I Le L4) as (F & f & EF & VF & NF).
  exists F. split; auto. intros x Hx. rewrite VF by auto. f_equal. now apply (spline_exact f xs ys).
Qed.
Ltac node := intros [|[|[|[|i]]]] Hi; cbn in Hi; try lia; unfold at_, rsR, LR; cbn [nth tl]; field.

Lemma profQ : exists F, mk_cubic KCubic (map Fin (0 :: tl rsR)) (map Fin (eta_profile AR LR)) = Ok F /\
  forall x, 0 <= x <= 4 -> F (Fin x) = Fin (1 + 101317 / 247380 * x + - 10213 / 23560 * x ^ 2 + 33793 / 494760 * x ^ 3).
Proof.
  rewrite profileN. destruct (evalQ (0 :: tl rsR) [1; 12 / 19; 6 / 35; 16 / 217] 1 (101317 / 247380) (- 10213 / 23560) (33793 / 494760) IXN eq_refl
    ltac:(cbn; lia) ltac:(node)) as (F & E & V).
  exists F. split; [exact E|exact V].
Qed.
Lemma growQ : exists F, mk_cubic KCubic (map Fin rsR) (map Fin LR) = Ok F /\
  forall x, 1 <= x <= 4 -> F (Fin x) = Fin (- 117 / 10 + 599 / 20 * x + - 46 / 5 * x ^ 2 + 19 / 20 * x ^ 3).
Proof.
  destruct (evalQ rsR LR (- 117 / 10) (599 / 20) (- 46 / 5) (19 / 20) IRN eq_refl ltac:(cbn; lia) ltac:(node)) as (F & E & V).
  exists F. split; [exact E|exact V].
Qed.
Lemma resampleQ : resampled mk_cubic (s_kind setQ) (s_num setQ) (0 :: tl rsR) (map Fin (eta_profile AR LR)) gN (map Fin yQ).
Proof.
  cbn [setQ s_kind s_num resampled]. destruct profQ as (F & E & V). exists F, 0, 4.
  split; [exact E|]. split; [apply (inc_min (0 :: tl rsR)); [cbn; lia|exact IXN]|].
  split; [apply (inc_max (0 :: tl rsR)); [cbn; lia|exact IXN]|]. split.
  - split; [reflexivity|]. intros i Hi. cbn in Hi. destruct i as [|[|[|[|[|i]]]]]; try lia; unfold at_, gN; cbn; lra.
  - unfold gN, yQ. cbn [map]. rewrite !V by lra. repeat (apply f_equal2; [apply (f_equal Fin); field|]). reflexivity.
Qed.
Lemma resampleQ2 : resampled mk_cubic (s_kind setQ) (s_num setQ) rsR (map Fin LR) g2N (map Fin zQ).
Proof.
  cbn [setQ s_kind s_num resampled]. destruct growQ as (F & E & V). exists F, 1, 4.
  split; [exact E|]. split; [apply (inc_min rsR); [cbn; lia|exact IRN]|].
  split; [apply (inc_max rsR); [cbn; lia|exact IRN]|]. split.
  - split; [reflexivity|]. intros i Hi. cbn in Hi. destruct i as [|[|[|[|[|i]]]]]; try lia; unfold at_, g2N; cbn; lra.
  - unfold g2N, zQ. cbn [map]. rewrite !V by lra. repeat (apply f_equal2; [apply (f_equal Fin); field|]). reflexivity.
Qed.
Ltac distQ := unfold at_, yQ, zQ; cbn [nth]; split_Rabs; lra.
Lemma cutQ : clear_cut false (4 / 25) yQ 3.
Proof.
  exists 4%nat. split; [cbn; lia|]. split; [unfold at_, yQ; cbn; lra|]. split.
  - intros [|[|[|[|j]]]] Hj; try lia; unfold at_, yQ; cbn; lra.
  - intros [|[|[|[|[|j]]]]] Hj Hn; try lia; distQ.
Qed.
Lemma cutQ2 : clear_cut true (21 * ((1 / 2) / (99 / 100))) zQ 0.
Proof.
  exists 1%nat. split; [cbn; lia|]. split; [unfold at_, zQ; cbn; lra|]. split.
  - intros [|j] Hj; try lia; unfold at_, zQ; cbn; lra.
  - intros [|[|j]] Hj Hn; try lia; distQ.
Qed.

(** r_petrosian = 3 and r_half_light = 1, although the interpolated profile rises above 1 *)
Lemma C138_ex : declining rsR AR LR /\ cubic_spline (mk_cubic KCubic) /\
  resampled mk_cubic (s_kind setQ) (s_num setQ) (0 :: tl rsR) (map Fin (eta_profile AR LR)) gN (map Fin yQ) /\
  clear_cut false (4 / 25) yQ 3 /\ 1 < at_ yQ 1 /\
  resampled mk_cubic (s_kind setQ) (s_num setQ) rsR (map Fin LR) g2N (map Fin zQ) /\
  clear_cut true (21 * ((1 / 2) / (99 / 100))) zQ 0 /\
  exists d, 0 < d /\ forall L', near d LR L' -> exists o, Petrosian_new (plain rsR AR L') setQ = Ok o /\
    read mk_cubic o A_r_petrosian = Ok (VNum (Fin 3)) /\ read mk_cubic o A_r_half_light = Ok (VNum (Fin 1)).
Proof.
  pose proof (mk_cubic_spline KCubic (or_introl eq_refl)) as Cs.
  split; [exact decliningR|]. split; [exact Cs|]. split; [exact resampleQ|]. split; [exact cutQ|]. split; [unfold at_, yQ; cbn; lra|].
  split; [exact resampleQ2|]. split; [exact cutQ2|].
  destruct decliningR as (L2 & LA & LL & I & R0 & IA & A0 & _).
  destruct (cubic_noise_radius mk_cubic KCubic rsR AR LR (4 / 25) setQ ltac:(cbn; lia) LA LL I R0 IA A0 nonzeroN eq_refl eq_refl Cs gN yQ 3 resampleQ cutQ) as (d1 & H1 & N1).
  destruct growQ as (F & EF & VF).
  destruct (cubic_noise_fraction mk_cubic KCubic rsR AR LR (4 / 25) setQ ltac:(cbn; lia) LA LL I R0 IA A0 nonzeroN eq_refl eq_refl Cs 1 (99 / 100) (1 / 2) gN yQ 3 g2N zQ 0
     F 21 eq_refl eq_refl ltac:(lra) resampleQ cutQ) as (d2 & H2 & N2).
  { change (at_ gN 3) with 3. change (S_Conv.last_of rsR) with 4. unfold rsR, at_. cbn. lra. }
  { exact EF. } { change (at_ gN 3) with 3. rewrite VF by lra. f_equal. field. } { exact resampleQ2. } { exact cutQ2. }
  exists (Rmin d1 d2). split; [now apply Rmin_glb_lt|]. intros L' N.
  destruct (N1 L') as (o & E & Rd); [eapply near_le; [exact N|apply Rmin_l]|].
  destruct (N2 L') as (o2 & E2 & Rd2); [eapply near_le; [exact N|apply Rmin_r]|].
  exists o. split; auto. split; [exact Rd|]. assert (o = o2) as -> by congruence. apply Rd2. right. left. auto.
Qed.
