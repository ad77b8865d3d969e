(** Concrete corrected epsilon: a Gaussian with eta = ln 2, twice the Petrosian radius holds 15/16 of the flux. *)
From Coq Require Import String.
From Verif Require Import Base Num Numpy M_Utils M_Photometry S_Photometry M_Petrosian M_Interp M_Cubic M_Sersic Gamma S_Sersic S_Utils S_Petrosian S_Conv S_Robust S_Spline S_Cubic S_Epsilon
  M_PSF S_PSF M_Fitting S_Fitting M_Integrate S_Integrate M_Exact S_Exact S_Galaxy S_Render S_Image
  L_Sersic L_Conv2 L_Galaxy3 L_Cubic L_Cubic2 L_Epsilon E_Sersic E_Conv E_Galaxy2 E_Cubic.
Local Open Scope list_scope.
Local Open Scope R_scope.

Lemma enclosed_two : enclR 1 1 (1 / 2) 0 2 = 15 / 16 * totalR 1 1 (1 / 2) 0.
Proof.
  unfold enclR, totalR. replace (scaleR 1 1 (1 / 2) 0 * lower_gamma (2 * (1 / 2)) (argR 1 (1 / 2) 2))
    with (lower_gamma 1 (argR 1 (1 / 2) 2) * scaleR 1 1 (1 / 2) 0) by (replace (2 * (1 / 2)) with 1 by field; ring).
  replace (2 * (1 / 2)) with 1 by field. rewrite Gamma_1. pose proof ln2_pos.
  assert (E : argR 1 (1 / 2) 2 = ln 16).
  { unfold argR. rewrite bn_half. replace (2 / 1) with 2 by field. rewrite rpow_pos by lra. replace (1 / (1 / 2)) with 2 by field.
    rewrite Rpower_2 by lra. replace 16 with (2 ^ 4) by ring. rewrite ln_pow by lra. replace (INR 4) with 4 by (cbn; ring). ring. }
  rewrite E. assert (0 < ln 16) by (rewrite <- ln_1; apply ln_increasing; lra).
  rewrite lower_gamma_1 by lra. rewrite exp_Ropp, exp_ln by lra. field.
Qed.
Lemma fits_two : fits_epsilon 1 1 (1 / 2) 0 1 (15 / 16) 2.
Proof.
  exists (totalR 1 1 (1 / 2) 0). split; [apply enclosed_inf; lra|]. replace (2 * 1) with 2 by ring.
  rewrite enclosed_fin by lra. now rewrite enclosed_two.
Qed.
Definition set_fit (num : nat) : psettings xr := mkset (Fin (ln 2)) (Fin 2) (Fin (15 / 16)) (Fin (15 / 16)) (Some KCubic) num.

Lemma C139_ex : petrosian_profile (Fin 1) (Fin 1) (Fin (1 / 2)) = Fin (ln 2) /\ 0 < ln 2 < 1 /\ fits_epsilon 1 1 (1 / 2) 0 1 (15 / 16) 2 /\
  forall d, 0 < d -> exists rs num, (2 < List.length rs)%nat /\ increasing rs /\ 0 < at_ rs 0 /\ fine d (0 :: rs) /\ steps_within 1 (0 :: rs) /\
    Rmax 1 (Rmax 1 (2 * 1)) + 1 <= last_of rs /\ set_to (ln 2) 2 (15 / 16) d rs KCubic (set_fit num) /\
    forall K, 1 <= K -> exists M m, shows_sersic 1 (K * 1) (1 / 2) 0 M M 0 (K * last_of rs) 0 0 m.
Proof.
  split; [apply C35_ex|]. split; [apply C136_ex|]. split; [exact fits_two|]. intros d Hd.
  destruct (sampled_even 1 1 (1 / 2) 0 d (Rmax 1 (Rmax 1 (2 * 1)) + 1) ltac:(lra) ltac:(lra) Hd) as (M & num & S1 & S2).
  destruct S1 as (A1 & A2 & A3 & A4 & A5 & _). eexists. exists num. do 4 (split; [eassumption|]). split; [apply even_steps; lra|].
  split; [assumption|]. split; [repeat (split; [reflexivity|]); exact S2|].
  intros K HK. apply shown; [lra|]. pose proof (Rmax_l 1 (Rmax 1 (2 * 1))). lra.
Qed.
