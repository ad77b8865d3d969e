(** Concrete images for the measurements of rendered Sersic galaxies. *)
From Coq Require Import String.
From Verif Require Import Base Num Numpy M_Utils M_Photometry S_Photometry M_Petrosian M_Interp M_Sersic Gamma S_Sersic S_Utils S_Petrosian S_Conv S_Robust
  M_PSF S_PSF M_Fitting S_Fitting M_Integrate S_Integrate M_Exact S_Exact S_Galaxy S_Render S_Image
  E_Conv E_Integrate E_Exact E_Galaxy.
Local Open Scope list_scope.
Local Open Scope R_scope.

Lemma shown K last : 0 < K -> 0 < last -> exists M m, shows_sersic 1 (K * 1) (1 / 2) 0 M M 0 (K * last) 0 0 m.
Proof.
  intros HK Hl. destruct C119_ex as (_ & Q & _ & H). destruct (H K last HK Hl) as (N & M & m & HN & Hm & Hs & Ho).
  exists M, m, quad, (VInt N), false, 1%Z, None, N, N. split; auto. split; auto. split.
  { split; reflexivity. }
  split; auto. split; auto. split; [lia|]. split; auto.
Qed.

Lemma C120_ex : petrosian_profile (Fin 1) (Fin 1) (Fin (1 / 2)) = Fin (ln 2) /\
  true_radius 1 1 (1 / 2) 0 1 2 (99 / 100) (99 / 100) 2 /\
  (forall d, 0 < d -> exists rs num, (2 < List.length rs)%nat /\ increasing rs /\ 0 < at_ rs 0 /\ fine d (0 :: rs) /\
    Rmax 1 (Rmax 2 (2 * 1)) + 1 <= last_of rs /\ settings mk_linear (ln 2) 2 (99 / 100) d rs (set_ex num) /\
    radius_of (set_ex num) (99 / 100) A_r_total_flux /\ flux_of (set_ex num) (99 / 100) A_total_flux /\
    forall K, 0 < K -> exists M m, shows_sersic 1 (K * 1) (1 / 2) 0 M M 0 (K * last_of rs) 0 0 m).
Proof.
  destruct C97_ex as (H1 & _ & H3). split; auto. split; [apply C98_ex|]. intros d Hd.
  destruct (H3 d Hd) as (rs & L & num & (A1 & A2 & A3 & A4 & A5 & _) & B).
  exists rs, num. repeat (split; [assumption|]). split; [right; right; auto|]. split; [right; auto|].
  intros K HK. apply shown; auto.
  pose proof (Rmax_l 1 (Rmax 2 (2 * 1))). lra.
Qed.
