(** Concrete case for small errors in the fluxes: linear interpolation, four apertures. *)
From Verif Require Import Base Num Numpy M_Utils M_Petrosian M_Interp S_Utils S_Petrosian S_PetroR S_Conv S_Robust S_Noise
  L_Numpy L_Petrosian L_PetroR L_FracR L_Conv L_Conv2 L_Conv3 L_Sersic E_Petrosian E_Conv L_Robust L_Robust2 L_Robust3 E_Robust L_Noise L_Noise2.
Local Open Scope R_scope.

Lemma segment xs q : increasing xs -> (2 <= length xs)%nat -> at_ xs 0 <= q <= at_ xs (length xs - 1) ->
  exists i, (S i < length xs)%nat /\ at_ xs i <= q <= at_ xs (S i).
Proof.
  intros I L2 Hq. assert (H : forall n, (n < length xs)%nat -> (1 <= n)%nat -> q <= at_ xs n -> exists i, (S i < length xs)%nat /\ at_ xs i <= q <= at_ xs (S i)).
  { induction n as [|n IH]; intros Hn H1 Hle; [lia|]. destruct (Rle_lt_dec (at_ xs n) q) as [Hl|Hl].
    - exists n. split; [lia|lra].
    - destruct n; [lra|]. apply IH; lia || lra. }
  apply (H (length xs - 1)%nat); lia || lra.
Qed.
Lemma linear_steady k xs : increasing xs -> (2 <= length xs)%nat -> steady (mk_linear k) xs.
Proof.
  intros I L2. exists 1. split; [lra|]. intros ys ys' d Ly [Ly' N].
  exists (linear_at (map Fin xs) (map Fin ys)), (linear_at (map Fin xs) (map Fin ys')).
  unfold mk_linear. rewrite !map_length, Ly', Ly, Nat.eqb_refl. split; auto. split; auto.
  intros x Hx. destruct (segment xs x I L2 Hx) as (i & Hi & Hs).
  eexists. eexists. split; [apply (linear_line xs ys x i); auto; lia|]. split; [apply (linear_line xs ys' x i); auto; lia|].
  pose proof (I i Hi) as D. set (t := (x - at_ xs i) / (at_ xs (S i) - at_ xs i)).
  assert (T : 0 <= t <= 1).
  { unfold t. split; [apply Rmult_le_pos; [lra|left; apply Rinv_0_lt_compat; lra]|].
    apply Rmult_le_reg_r with (at_ xs (S i) - at_ xs i); [lra|]. unfold Rdiv. rewrite Rmult_assoc, Rinv_l by lra. lra. }
  pose proof (abs_bounds _ _ (N i ltac:(lia))). pose proof (abs_bounds _ _ (N (S i) ltac:(lia))).
  apply Rabs_le. nra.
Qed.

Definition gN : list R := [0; 1; 2; 3; 4].
Definition yN : list R := [1; 31 / 38; 12 / 19; 6 / 35; 16 / 217].
Definition g2N : list R := [1; 7 / 4; 5 / 2; 13 / 4; 4].
Definition zN : list R := [10; 67 / 4; 20; 847 / 40; 217 / 10].

Lemma profileN : eta_profile AR LR = [1; 12 / 19; 6 / 35; 16 / 217].
Proof. unfold eta_profile, petro_ratio. cbn. numeric. repeat (f_equal; try lra). Qed.
Lemma IXN : increasing (0 :: tl rsR).
Proof. unfold increasing, rsR; cbn [tl]; ix; lra. Qed.
Lemma IRN : increasing rsR.
Proof. unfold increasing, rsR; ix; lra. Qed.
Lemma evalN xs ys q i v : increasing xs -> length xs = length ys -> (S i < length xs)%nat -> at_ xs i <= q <= at_ xs (S i) ->
  at_ ys i + (q - at_ xs i) / (at_ xs (S i) - at_ xs i) * (at_ ys (S i) - at_ ys i) = v ->
  linear_at (map Fin xs) (map Fin ys) (Fin q) = Fin v.
Proof. intros I L Hi Hq <-. now apply linear_line. Qed.

Lemma resampleN : resampled mk_linear (s_kind setR) (s_num setR) (0 :: tl rsR) (map Fin (eta_profile AR LR)) gN (map Fin yN).
Proof.
  rewrite profileN. cbn [setR s_kind s_num resampled].
  exists (linear_at (map Fin (0 :: tl rsR)) (map Fin [1; 12 / 19; 6 / 35; 16 / 217])), 0, 4.
  split; [reflexivity|]. split; [apply (inc_min (0 :: tl rsR)); [cbn; lia|exact IXN]|].
  split; [apply (inc_max (0 :: tl rsR)); [cbn; lia|exact IXN]|]. split.
  - split; [reflexivity|]. intros i Hi. cbn in Hi. destruct i as [|[|[|[|[|i]]]]]; try lia; unfold at_, gN; cbn; lra.
  - unfold gN, yN. cbn [map]. symmetry. repeat f_equal;
      first [apply (evalN (0 :: tl rsR) [1; 12 / 19; 6 / 35; 16 / 217] _ 0%nat); [exact IXN|reflexivity|cbn; lia|unfold at_; cbn; lra|unfold at_; cbn; lra]
            |apply (evalN (0 :: tl rsR) [1; 12 / 19; 6 / 35; 16 / 217] _ 1%nat); [exact IXN|reflexivity|cbn; lia|unfold at_; cbn; lra|unfold at_; cbn; lra]
            |apply (evalN (0 :: tl rsR) [1; 12 / 19; 6 / 35; 16 / 217] _ 2%nat); [exact IXN|reflexivity|cbn; lia|unfold at_; cbn; lra|unfold at_; cbn; lra]].
Qed.
Lemma resampleN2 : resampled mk_linear (s_kind setR) (s_num setR) rsR (map Fin LR) g2N (map Fin zN).
Proof.
  cbn [setR s_kind s_num resampled].
  exists (linear_at (map Fin rsR) (map Fin LR)), 1, 4.
  split; [reflexivity|]. split; [apply (inc_min rsR); [cbn; lia|exact IRN]|].
  split; [apply (inc_max rsR); [cbn; lia|exact IRN]|]. split.
  - split; [reflexivity|]. intros i Hi. cbn in Hi. destruct i as [|[|[|[|[|i]]]]]; try lia; unfold at_, g2N; cbn; lra.
  - unfold g2N, zN. cbn [map]. symmetry. repeat f_equal;
      first [apply (evalN rsR LR _ 0%nat); [exact IRN|reflexivity|cbn; lia|unfold at_; cbn; lra|unfold at_; cbn; lra]
            |apply (evalN rsR LR _ 1%nat); [exact IRN|reflexivity|cbn; lia|unfold at_; cbn; lra|unfold at_; cbn; lra]
            |apply (evalN rsR LR _ 2%nat); [exact IRN|reflexivity|cbn; lia|unfold at_; cbn; lra|unfold at_; cbn; lra]].
Qed.
Ltac dist := unfold at_, yN, zN; cbn [nth]; split_Rabs; lra.
Lemma cutN : clear_cut false (4 / 25) yN 3.
Proof.
  exists 4%nat. split; [cbn; lia|]. split; [unfold at_, yN; cbn; lra|]. split.
  - intros [|[|[|[|j]]]] Hj; try lia; unfold at_, yN; cbn; lra.
  - intros [|[|[|[|[|j]]]]] Hj Hn; try lia; dist.
Qed.
Lemma cutN2 : clear_cut true (21 * ((1 / 2) / (99 / 100))) zN 0.
Proof.
  exists 1%nat. split; [cbn; lia|]. split; [unfold at_, zN; cbn; lra|]. split.
  - intros [|j] Hj; try lia; unfold at_, zN; cbn; lra.
  - intros [|[|j]] Hj Hn; try lia; dist.
Qed.
Lemma nonzeroN : nonzero_tail LR.
Proof. exact (declining_nz _ _ _ decliningR). Qed.

(** the hypotheses hold, with r_petrosian = 3 and r_half_light = 1 *)
Lemma C103_ex : declining rsR AR LR /\ nonzero_tail LR /\
  steady (mk_linear KLinear) (0 :: tl rsR) /\ steady (mk_linear KLinear) rsR /\
  resampled mk_linear (s_kind setR) (s_num setR) (0 :: tl rsR) (map Fin (eta_profile AR LR)) gN (map Fin yN) /\
  clear_cut false (4 / 25) yN 3 /\ at_ gN 3 = 3 /\
  resampled mk_linear (s_kind setR) (s_num setR) rsR (map Fin LR) g2N (map Fin zN) /\
  (exists f, mk_linear KLinear (map Fin rsR) (map Fin LR) = Ok f /\ f (Fin (3 * 1)) = Fin 21) /\
  clear_cut true (21 * ((1 / 2) / (99 / 100))) zN 0 /\ at_ g2N 0 = 1 /\
  exists d, 0 < d /\ forall L', near d LR L' -> exists o, Petrosian_new (plain rsR AR L') setR = Ok o /\
    read mk_linear o A_r_petrosian = Ok (VNum (Fin 3)) /\ read mk_linear o A_r_half_light = Ok (VNum (Fin 1)).
Proof.
  assert (S1 : steady (mk_linear KLinear) (0 :: tl rsR)) by (apply linear_steady; [exact IXN|cbn; lia]).
  assert (S2 : steady (mk_linear KLinear) rsR) by (apply linear_steady; [exact IRN|cbn; lia]).
  assert (F3 : linear_at (map Fin rsR) (map Fin LR) (Fin (3 * 1)) = Fin 21).
  { apply (evalN rsR LR _ 1%nat); [exact IRN|reflexivity|cbn; lia|unfold at_; cbn; lra|unfold at_; cbn; lra]. }
  split; [exact decliningR|]. split; [exact nonzeroN|]. split; auto. split; auto. split; [exact resampleN|]. split; [exact cutN|].
  split; [reflexivity|]. split; [exact resampleN2|]. split; [eexists; split; [reflexivity|exact F3]|].
  split; [exact cutN2|]. split; [reflexivity|].
  destruct decliningR as (L2 & LA & LL & I & R0 & IA & A0 & _).
  assert (Hk : forall k, s_kind setR = Some k -> steady (mk_linear k) (0 :: tl rsR)).
  { intros k Ek. cbn in Ek. injection Ek as <-. exact S1. }
  destruct (noise_radius mk_linear rsR AR LR (4 / 25) setR L2 LA LL I R0 IA A0 nonzeroN eq_refl Hk gN yN 3 resampleN cutN) as (d1 & H1 & N1).
  destruct (noise_fraction mk_linear rsR AR LR (4 / 25) setR L2 LA LL I R0 IA A0 nonzeroN eq_refl Hk 1 (99 / 100) (1 / 2) KLinear gN yN 3 g2N zN 0
     (linear_at (map Fin rsR) (map Fin LR)) 21 eq_refl eq_refl ltac:(lra) eq_refl S2 resampleN cutN) as (d2 & H2 & N2).
  { change (at_ gN 3) with 3. change (last_of rsR) with 4. unfold rsR, at_. cbn. lra. }
  { reflexivity. } { exact F3. } { exact resampleN2. } { exact cutN2. }
  exists (Rmin d1 d2). split; [now apply Rmin_glb_lt|]. intros L' N.
  destruct (N1 L') as (o & E & Rd); [eapply near_le; [exact N|apply Rmin_l]|].
  destruct (N2 L') as (o2 & E2 & Rd2); [eapply near_le; [exact N|apply Rmin_r]|].
  exists o. split; auto. split; [exact Rd|]. assert (o = o2) as -> by congruence. apply Rd2. right. left. auto.
Qed.
