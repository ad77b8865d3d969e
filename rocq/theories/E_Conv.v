(** Concrete cases for the convergence theorems: linear interpolation, evenly spaced radii, index 1/2. *)
From Verif Require Import Base Num Numpy M_Utils M_Petrosian M_Interp M_Sersic Gamma S_Sersic S_Utils S_Petrosian S_PetroR S_Conv
  L_Numpy L_Sersic L_Petrosian L_Conv L_Conv2 L_Conv3 E_Sersic.
Local Open Scope R_scope.

Lemma line_between x0 x1 y0 y1 q : x0 < x1 -> x0 <= q <= x1 ->
  between y0 y1 ((y1 - y0) / (x1 - x0) * (q - x0) + y0).
Proof.
  intros H Hq. set (t := (q - x0) / (x1 - x0)).
  assert (Ht : 0 <= t <= 1).
  { unfold t. split.
    - apply Rmult_le_pos; [lra|]. left. apply Rinv_0_lt_compat. lra.
    - apply Rmult_le_reg_r with (x1 - x0); [lra|]. unfold Rdiv. rewrite Rmult_assoc, Rinv_l by lra. lra. }
  replace ((y1 - y0) / (x1 - x0) * (q - x0) + y0) with (y0 + t * (y1 - y0)) by (unfold t; field; lra).
  destruct (Rle_lt_dec y0 y1); [left|right]; nra.
Qed.

Lemma linear_fin xs ys q i : increasing xs -> length xs = length ys -> (S i < length xs)%nat ->
  at_ xs i <= q <= at_ xs (S i) ->
  exists y, linear_at (map Fin xs) (map Fin ys) (Fin q) = Fin y /\ between (at_ ys i) (at_ ys (S i)) y.
Proof.
  revert ys i. induction xs as [|x0 xs IH]; intros ys i I L Hi Hq; [cbn in Hi; lia|].
  destruct xs as [|x1 rest]; [cbn in Hi; lia|].
  destruct ys as [|y0 [|y1 yr]]; try (cbn in L; lia).
  assert (I0 : x0 < x1) by (apply (I 0%nat); cbn; lia).
  assert (I' : increasing (x1 :: rest)) by (intros j Hj; apply (I (S j)); cbn in *; lia).
  cbn [map linear_at]. cbn [nleb XRnum xleb].
  change (nsub (Fin y1) (Fin y0)) with (Fin (y1 - y0)). change (nsub (Fin x1) (Fin x0)) with (Fin (x1 - x0)).
  change (nsub (Fin q) (Fin x0)) with (Fin (q - x0)).
  assert (D : nadd (nmul (ndiv (Fin (y1 - y0)) (Fin (x1 - x0))) (Fin (q - x0))) (Fin y0)
     = Fin ((y1 - y0) / (x1 - x0) * (q - x0) + y0)) by (cbn [ndiv XRnum]; rewrite xdiv_fin by lra; reflexivity).
  rewrite D. destruct i as [|i].
  - unfold at_ in *. cbn [nth] in *. rewrite Rleb_true by lra. eexists. split; [reflexivity|]. now apply line_between.
  - change (at_ (x0 :: x1 :: rest) (S i)) with (at_ (x1 :: rest) i) in Hq.
    change (at_ (x0 :: x1 :: rest) (S (S i))) with (at_ (x1 :: rest) (S i)) in Hq.
    change (at_ (y0 :: y1 :: yr) (S i)) with (at_ (y1 :: yr) i).
    change (at_ (y0 :: y1 :: yr) (S (S i))) with (at_ (y1 :: yr) (S i)).
    assert (Hi' : (S i < length (x1 :: rest))%nat) by (cbn in *; lia).
    destruct (IH (y1 :: yr) i I' ltac:(cbn in *; lia) Hi' Hq) as (y & Ey & By).
    destruct (Rle_lt_dec q x1) as [Hl|Hl].
    + (* only the shared sample *)
      rewrite Rleb_true by auto. eexists. split; [reflexivity|].
      assert (i = 0%nat) as ->.
      { destruct i; auto. pose proof (inc_lt (x1 :: rest) 0 (S i) I' ltac:(lia) ltac:(lia)) as X. unfold at_ at 1 in X. cbn [nth] in X. lra. }
      unfold at_ in *. cbn [nth] in *. assert (q = x1) as -> by lra.
      replace ((y1 - y0) / (x1 - x0) * (x1 - x0) + y0) with y1 by (field; lra). destruct (Rle_lt_dec y1 (nth 0 yr 0)); [left|right]; lra.
    + rewrite Rleb_false by lra. destruct rest as [|x2 rest]; [cbn in Hi'; lia|]. exists y. split; auto.
Qed.

Lemma linear_no_overshoot k : no_overshoot (mk_linear k).
Proof.
  intros xs ys I L L2. exists (linear_at (map Fin xs) (map Fin ys)). split.
  - unfold mk_linear. now rewrite !map_length, L, Nat.eqb_refl.
  - intros i x Hi Hx. now apply linear_fin.
Qed.

Definition even (h : R) (N : nat) : list R := map (fun i => h * INR (S i)) (seq 0 N).
Lemma even_length h N : length (even h N) = N.
Proof. unfold even. now rewrite map_length, seq_length. Qed.
Lemma even_at h N i : (i < N)%nat -> at_ (even h N) i = h * INR (S i).
Proof.
  intros H. unfold at_, even. rewrite nth_indep with (d' := h * INR (S 0)) by (rewrite map_length, seq_length; lia).
  rewrite (map_nth (fun i => h * INR (S i))), seq_nth by lia. reflexivity.
Qed.
Lemma up_nat x : exists N, x <= INR N.
Proof.
  destruct (Rle_lt_dec x 0); [exists 0%nat; cbn; lra|].
  exists (Z.to_nat (up x)). pose proof (archimed x) as [H _].
  assert (0 <= up x)%Z by (apply le_IZR; lra). rewrite INR_IZR_INZ, Z2Nat.id by auto. lra.
Qed.

(** the hypotheses are met for every step, reach, profile and target: evenly spaced radii *)
Lemma sampled_even A re n e d reach : 0 < re -> 0 < n -> 0 < d ->
  exists M num, sampled A re n e d reach (even (d / 2) M) (map (enclR A re n e) (even (d / 2) M)) /\
    last_of (even (d / 2) M) < d * INR (num - 1).
Proof.
  intros Hre Hn Hd. destruct (up_nat (reach / (d / 2))) as (N & HN).
  set (M := (N + 3)%nat). exists M, (M + 1)%nat.
  assert (La : last_of (even (d / 2) M) = d / 2 * INR M).
  { unfold last_of. rewrite even_length, even_at by (unfold M; lia). f_equal. f_equal. unfold M. lia. }
  assert (P : forall i, 0 < INR (S i)) by (intros; apply lt_0_INR; lia).
  split; [split; [|split; [|split; [|split; [|split]]]]|].
  - rewrite even_length. unfold M. lia.
  - intros i Hi. rewrite even_length in Hi. rewrite !even_at by lia. apply Rmult_lt_compat_l; [lra|]. apply lt_INR. lia.
  - rewrite even_at by (unfold M; lia). cbn [INR]. lra.
  - intros i Hi. cbn [length] in Hi. rewrite even_length in Hi.
    change (at_ (0 :: even (d / 2) M) (S i)) with (at_ (even (d / 2) M) i). rewrite even_at by lia.
    destruct i as [|i]; [unfold at_; cbn [nth INR]; lra|].
    change (at_ (0 :: even (d / 2) M) (S i)) with (at_ (even (d / 2) M) i). rewrite even_at by lia.
    rewrite (S_INR (S i)). lra.
  - rewrite La. apply Rle_trans with (d / 2 * INR N).
    + replace reach with (d / 2 * (reach / (d / 2))) by (field; lra). apply Rmult_le_compat_l; lra.
    + apply Rmult_le_compat_l; [lra|]. apply le_INR. unfold M. lia.
  - unfold sersic_fluxes. assert (G : forall r, In r (even (d / 2) M) -> 0 <= r).
    { intros r Hr. apply in_map_iff in Hr. destruct Hr as (i & <- & _). specialize (P i). nra. }
    revert G. clear - Hre Hn. generalize (even (d / 2) M). intros l G.
    induction l as [|r l IH]; cbn; constructor.
    + apply enclosed_fin; auto. apply G. now left.
    + apply IH. intros r' H. apply G. now right.
  - rewrite La. replace (M + 1 - 1)%nat with M by lia. apply Rmult_lt_compat_r; [|lra]. apply lt_0_INR. unfold M. lia.
Qed.
Lemma sampled_exists A re n e d reach : 0 < re -> 0 < n -> 0 < d ->
  exists rs L num, sampled A re n e d reach rs L /\ last_of rs < d * INR (num - 1).
Proof. intros H1 H2 H3. destruct (sampled_even A re n e d reach H1 H2 H3) as (M & num & S & L). do 3 eexists. eauto. Qed.

(** with the share [f = ef] the radius is [epsilon * rt] *)
Lemma true_radius_full A re n e rt epsilon ef : 0 < re -> 0 < n -> 0 < rt -> 0 < epsilon -> ef <> 0 ->
  true_radius A re n e rt epsilon ef ef (epsilon * rt).
Proof.
  intros Hre Hn Hrt Hep H0. assert (0 < epsilon * rt) by now apply Rmult_lt_0_compat. split; auto.
  exists (enclR A re n e (epsilon * rt)). split; [apply enclosed_fin; lra|].
  rewrite enclosed_fin by lra. f_equal. field. auto.
Qed.

(** the Gaussian profile, target ln 2, default settings epsilon = 2, epsilon_fraction = 0.99 *)
Definition set_ex (num : nat) : psettings xr :=
  mkset (Fin (ln 2)) (Fin 2) (Fin (99 / 100)) (Fin (99 / 100)) (Some KLinear) num.
Lemma C97_ex : petrosian_profile (Fin 1) (Fin 1) (Fin (1 / 2)) = Fin (ln 2) /\
  (forall k, no_overshoot (mk_linear k)) /\
  forall d, 0 < d -> exists rs L num, sampled 1 1 (1 / 2) 0 d (Rmax 1 (Rmax 2 (2 * 1)) + 1) rs L /\
    settings mk_linear (ln 2) 2 (99 / 100) d rs (set_ex num).
Proof.
  split; [apply C35_ex|]. split; [apply linear_no_overshoot|]. intros d Hd.
  destruct (sampled_exists 1 1 (1 / 2) 0 d (Rmax 1 (Rmax 2 (2 * 1)) + 1) ltac:(lra) ltac:(lra) Hd) as (rs & L & num & S1 & S2).
  exists rs, L, num. split; auto. split; [reflexivity|]. split; [reflexivity|]. split; [reflexivity|].
  exists KLinear. split; [reflexivity|]. split; [apply linear_no_overshoot|exact S2].
Qed.
Lemma C98_ex : true_radius 1 1 (1 / 2) 0 1 2 (99 / 100) (99 / 100) 2 /\
  radius_of (set_ex 10) (99 / 100) A_r_total_flux /\ flux_of (set_ex 10) (99 / 100) A_total_flux.
Proof.
  split; [|split].
  - pose proof (true_radius_full 1 1 (1 / 2) 0 1 2 (99 / 100) ltac:(lra) ltac:(lra) ltac:(lra) ltac:(lra) ltac:(lra)) as T.
    now rewrite Rmult_1_r in T.
  - right. right. auto.
  - right. auto.
Qed.

(** the bracket is not empty: radii 1, 2, 3 *)
Lemma C96_ex : half_light (1 / 2) (ln 2) /\ exists L, sersic_fluxes 1 1 (1 / 2) 0 [1; 2; 3] L /\ increasing [1; 2; 3].
Proof.
  split; [apply half_light_half|]. eexists. split.
  - repeat constructor; apply enclosed_fin; lra.
  - intros [|[|[|i]]] Hi; cbn in Hi; try lia; unfold at_; cbn [nth]; lra.
Qed.

(** the inverse of the curve of growth gives the radius of any smaller share *)
Lemma true_radius_exists A re n e rt epsilon ef f : 0 < A -> 0 < re -> 0 < n -> e < 1 -> 0 < rt -> 0 < epsilon ->
  0 < f / ef <= 1 -> exists r, true_radius A re n e rt epsilon ef f r.
Proof.
  intros HA Hre Hn He Hrt Hep Hf. assert (H : 0 < epsilon * rt) by now apply Rmult_lt_0_compat.
  pose proof (F_pos A re n e HA Hre Hn He _ H) as Fp.
  pose proof (encl_lt_total A re n e (epsilon * rt) HA Hre Hn He) as Tt.
  set (Fe := enclR A re n e (epsilon * rt)) in *.
  assert (Rg : 0 <= Fe * (f / ef) < totalR A re n e) by (pose proof (Rmult_lt_0_compat _ _ Fp (proj1 Hf)); split; [lra|];
    apply Rle_lt_trans with (Fe * 1); [apply Rmult_le_compat_l; lra|lra]).
  exists (invR A re n e (Fe * (f / ef))).
  pose proof (encl_inv A re n e _ HA Hre Hn He Rg) as Ei. pose proof (inv_range A re n e (Fe * (f / ef)) Hre) as Ip.
  split.
  - destruct Ip as [|E0]; auto. exfalso. rewrite <- E0, encl_zero in Ei.
    pose proof (Rmult_lt_0_compat _ _ Fp (proj1 Hf)). lra.
  - exists Fe. split; [apply enclosed_fin; lra|]. rewrite enclosed_fin by auto. now rewrite Ei.
Qed.
Lemma C99_ex : exists r20 r80, 
  true_radius 1 1 (1 / 2) 0 1 2 (99 / 100) (1 / 5) r20 /\ true_radius 1 1 (1 / 2) 0 1 2 (99 / 100) (4 / 5) r80 /\
  concentration_of (1 / 5) (4 / 5) A_c2080.
Proof.
  destruct (true_radius_exists 1 1 (1 / 2) 0 1 2 (99 / 100) (1 / 5)) as [r20 H20]; try lra.
  destruct (true_radius_exists 1 1 (1 / 2) 0 1 2 (99 / 100) (4 / 5)) as [r80 H80]; try lra.
  exists r20, r80. split; auto. split; auto. left. auto.
Qed.
