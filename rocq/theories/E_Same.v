(** The attributes of one small object, linear interpolation. *)
From Verif Require Import Base Num Numpy M_Utils M_Petrosian M_Interp S_Utils S_Petrosian S_PetroR S_Conv S_Robust S_Noise
  L_Numpy L_Petrosian L_PetroR L_FracR L_Conv L_Conv2 L_Conv3 L_Sersic E_Petrosian E_Conv L_Robust L_Robust2 L_Robust3 E_Robust
  L_Noise L_Noise2 E_Noise L_Same.
Local Open Scope R_scope.

(** the interpolated curve of growth *)
Definition FR (x : R) : R :=
  if Rle_lt_dec x 2 then 10 + 9 * (x - 1) else if Rle_lt_dec x 3 then 19 + 2 * (x - 2) else 21 + 7 / 10 * (x - 3).

Lemma FR_line x : 1 <= x <= 4 -> linear_at (map Fin rsR) (map Fin LR) (Fin x) = Fin (FR x).
Proof.
  intros Hx. unfold FR. destruct (Rle_lt_dec x 2); [|destruct (Rle_lt_dec x 3)].
  - apply (evalN rsR LR _ 0%nat); [exact IRN|reflexivity|cbn; lia|unfold at_; cbn; lra|unfold at_; cbn; lra].
  - apply (evalN rsR LR _ 1%nat); [exact IRN|reflexivity|cbn; lia|unfold at_; cbn; lra|unfold at_; cbn; lra].
  - apply (evalN rsR LR _ 2%nat); [exact IRN|reflexivity|cbn; lia|unfold at_; cbn; lra|unfold at_; cbn; lra].
Qed.
Lemma FR_inc x y : 1 <= x < y -> y <= 4 -> FR x < FR y.
Proof.
  intros Hx Hy. unfold FR. repeat match goal with |- context [Rle_lt_dec ?a ?b] => destruct (Rle_lt_dec a b) end; lra.
Qed.

Lemma cut_total : clear_cut true (21 * ((99 / 100) / (99 / 100))) zN 3.
Proof.
  exists 3%nat. split; [cbn; lia|]. split; [unfold at_, zN; cbn; lra|]. split.
  - intros [|[|[|j]]] Hj; try lia; unfold at_, zN; cbn; lra.
  - intros [|[|[|[|j]]]] Hj Hn; try lia; dist.
Qed.

Lemma object : exists o, Petrosian_new (plain rsR AR LR) setR = Ok o /\
  read mk_linear o A_r_petrosian = Ok (VNum (Fin 3)) /\ read mk_linear o A_r_half_light = Ok (VNum (Fin 1)) /\
  read mk_linear o A_r_total_flux = Ok (VNum (Fin (13 / 4))).
Proof.
  assert (S1 : steady (mk_linear KLinear) (0 :: tl rsR)) by (apply linear_steady; [exact IXN|cbn; lia]).
  assert (S2 : steady (mk_linear KLinear) rsR) by (apply linear_steady; [exact IRN|cbn; lia]).
  assert (F3 : linear_at (map Fin rsR) (map Fin LR) (Fin (3 * 1)) = Fin 21).
  { apply (evalN rsR LR _ 1%nat); [exact IRN|reflexivity|cbn; lia|unfold at_; cbn; lra|unfold at_; cbn; lra]. }
  destruct decliningR as (L2 & LA & LL & I & R0 & IA & A0 & _).
  assert (Hk : forall k, s_kind setR = Some k -> steady (mk_linear k) (0 :: tl rsR)).
  { intros k Ek. cbn in Ek. injection Ek as <-. exact S1. }
  destruct (noise_radius mk_linear rsR AR LR (4 / 25) setR L2 LA LL I R0 IA A0 nonzeroN eq_refl Hk gN yN 3 resampleN cutN) as (d1 & H1 & N1).
  assert (HW : at_ rsR 0 <= at_ gN 3 * 1 <= last_of rsR).
  { change (at_ gN 3) with 3. change (last_of rsR) with 4. unfold rsR, at_. cbn. lra. }
  destruct (noise_fraction mk_linear rsR AR LR (4 / 25) setR L2 LA LL I R0 IA A0 nonzeroN eq_refl Hk 1 (99 / 100) (1 / 2) KLinear gN yN 3 g2N zN 0
     (linear_at (map Fin rsR) (map Fin LR)) 21 eq_refl eq_refl ltac:(lra) eq_refl S2 resampleN cutN HW eq_refl F3 resampleN2 cutN2) as (d2 & H2 & N2).
  destruct (noise_fraction mk_linear rsR AR LR (4 / 25) setR L2 LA LL I R0 IA A0 nonzeroN eq_refl Hk 1 (99 / 100) (99 / 100) KLinear gN yN 3 g2N zN 3
     (linear_at (map Fin rsR) (map Fin LR)) 21 eq_refl eq_refl ltac:(lra) eq_refl S2 resampleN cutN HW eq_refl F3 resampleN2 cut_total) as (d3 & H3 & N3).
  assert (NR : forall d, 0 < d -> near d LR LR).
  { intros d Hd. split; auto. intros i Hi. rewrite Rminus_diag_eq by auto. rewrite Rabs_R0. lra. }
  destruct (N1 LR (NR d1 H1)) as (o & E & Rd). destruct (N2 LR (NR d2 H2)) as (o2 & E2 & Rd2).
  destruct (N3 LR (NR d3 H3)) as (o3 & E3 & Rd3).
  assert (o2 = o) as -> by congruence. assert (o3 = o) as -> by congruence.
  exists o. split; auto. split; [exact Rd|]. split; [apply Rd2; right; left; auto|].
  apply (Rd3 A_r_total_flux). right. right. auto.
Qed.

Lemma minR : is_min rsR 1.
Proof. apply (inc_min rsR); [cbn; lia|exact IRN]. Qed.
Lemma maxR : is_max rsR 4.
Proof. apply (inc_max rsR); [cbn; lia|exact IRN]. Qed.

(** total_flux_fraction = epsilon_fraction: r_total_flux = 13/4 where r_epsilon = 3 and the sampling step is 3/4 *)
Lemma same_example : exists o, Petrosian_new (plain rsR AR LR) setR = Ok o /\
  s_total_flux_fraction (p_set o) = Fin (99 / 100) /\ s_epsilon_fraction (p_set o) = Fin (99 / 100) /\
  read mk_linear o A_r_petrosian = Ok (VNum (Fin 3)) /\ s_epsilon (p_set o) = Fin 1 /\
  read mk_linear o A_r_total_flux = Ok (VNum (Fin (13 / 4))) /\
  read mk_linear o A_total_flux = Ok (VNum (Fin (847 / 40))) /\
  read mk_linear o A_r_50 = Ok (VNum (Fin 1)) /\ read mk_linear o A_half_flux = Ok (VNum (Fin 10)) /\
  (forall x, 1 <= x <= 4 -> linear_at (map Fin rsR) (map Fin LR) (Fin x) = Fin (FR x)) /\
  (forall x y, 1 <= x < y -> y <= 4 -> FR x < FR y).
Proof.
  destruct object as (o & E & R1 & R2 & R3). exists o.
  assert (P : p_set o = setR /\ p_data o = plain rsR AR LR).
  { unfold Petrosian_new in E. destruct (validate_input_arrays _); [|discriminate]. cbn [bind] in E.
    destruct (calculate_petrosian _ _ _ _ _); [|discriminate]. cbn [bind] in E. injection E as <-. auto. }
  destruct P as [P1 P2].
  destruct (fluxes mk_linear o rsR KLinear (linear_at (map Fin rsR) (map Fin LR)) (99 / 100) (99 / 100)) as (T1 & T2 & _).
  { cbn; lia. } { now rewrite P2. } { now rewrite P1. } { now rewrite P2. }
  { intros p lo hi Hp Hlo _. rewrite R1 in Hp. injection Hp as <-. exists 3. split; auto. exists 1.
    rewrite P1. split; auto. destruct Hlo as [_ Hlo]. rewrite Rmult_1_r. apply Hlo. right; right; left; auto. }
  { now rewrite P1. } { now rewrite P1. }
  split; auto. rewrite P1. split; auto. split; auto. split; auto. split; auto. split; auto.
  split.
  { rewrite (T1 _ R3). rewrite FR_line by lra. do 3 f_equal. unfold FR.
    repeat match goal with |- context [Rle_lt_dec ?a ?b] => destruct (Rle_lt_dec a b) end; lra. }
  split; [exact R2|]. split.
  { rewrite (T2 _ R2). rewrite FR_line by lra. do 3 f_equal. unfold FR.
    repeat match goal with |- context [Rle_lt_dec ?a ?b] => destruct (Rle_lt_dec a b) end; lra. }
  split; [exact FR_line|exact FR_inc].
Qed.
