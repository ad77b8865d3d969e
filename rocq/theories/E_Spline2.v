(** Concrete images for measurements with interpolation that overshoots. *)
From Coq Require Import String.
From Verif Require Import Base Num Numpy M_Utils M_Photometry S_Photometry M_Petrosian M_Interp M_Sersic Gamma S_Sersic S_Utils S_Petrosian S_Conv S_Robust S_Spline
  M_PSF S_PSF M_Fitting S_Fitting M_Integrate S_Integrate M_Exact S_Exact S_Galaxy S_Render S_Image
  L_Conv2 L_Galaxy3 L_Galaxy4 L_Spline L_Spline2 E_Conv E_Spline E_Galaxy2.
Local Open Scope list_scope.
Local Open Scope R_scope.

Lemma C132_ex : petrosian_profile (Fin 1) (Fin 1) (Fin (1 / 2)) = Fin (ln 2) /\
  true_radius 1 1 (1 / 2) 0 1 2 (99 / 100) (99 / 100) 2 /\
  forall d w, 0 < d -> 0 < w -> exists rs num, (2 < List.length rs)%nat /\ increasing rs /\ 0 < at_ rs 0 /\ fine d (0 :: rs) /\
    Rmax 1 (Rmax 2 (2 * 1)) + 1 <= last_of rs /\ set_to (ln 2) 2 (99 / 100) d rs KLinear (set_ex num) /\
    radius_of (set_ex num) (99 / 100) A_r_total_flux /\ flux_of (set_ex num) (99 / 100) A_total_flux /\
    forall K, 1 <= K -> (exists M m, shows_sersic 1 (K * 1) (1 / 2) 0 M M 0 (K * last_of rs) 0 0 m) /\
      forall F Ar, List.length F = List.length rs -> calm w (K * K * w) (mk_raised w KLinear) (map (Rmult K) rs) Ar F.
Proof.
  destruct C97_ex as (H1 & _ & H3). split; auto. split; [apply C98_ex|]. intros d w Hd Hw.
  destruct (H3 d Hd) as (rs & L & num & (A1 & A2 & A3 & A4 & A5 & _) & (B1 & B2 & B3 & k & Bk & _ & B4)).
  exists rs, num. do 5 (split; [assumption|]). split; [split; [reflexivity|]; split; [reflexivity|]; split; [reflexivity|]; split; [reflexivity|exact B4]|].
  split; [right; right; auto|]. split; [right; auto|].
  intros K HK. split.
  - apply shown; [lra|]. pose proof (Rmax_l 1 (Rmax 2 (2 * 1))). lra.
  - intros F Ar LF. pose proof (scaled_inc K rs ltac:(lra) A2) as IK. split.
    + apply (within_le w); [assert (1 <= K * K) by nra; nra|]. apply raised_within; auto; [lra|rewrite map_length; lia|rewrite map_length; lia].
    + intros ys (Ly & _). destruct rs as [|r0 rs]; [cbn in A1; lia|]. cbn [map tl].
      apply raised_within; auto; [lra| |cbn in *; rewrite map_length in *; lia|cbn in *; rewrite map_length; lia].
      apply (inc_tl (K * r0)); auto. apply Rmult_lt_0_compat; [lra|exact A3].
Qed.
