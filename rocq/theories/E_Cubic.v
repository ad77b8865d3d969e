(** Concrete splines and radii for measurements with cubic interpolation. *)
From Coq Require Import String.
From Verif Require Import Base Num Numpy M_Utils M_Photometry S_Photometry M_Petrosian M_Interp M_Cubic M_Sersic Gamma S_Sersic S_Utils S_Petrosian S_Conv S_Robust S_Spline S_Cubic
  M_PSF S_PSF M_Fitting S_Fitting M_Integrate S_Integrate M_Exact S_Exact S_Galaxy S_Render S_Image
  L_Sersic L_Conv2 L_Galaxy3 L_Spline L_Spline2 L_Cubic L_Cubic2 L_PetroExists E_Sersic E_Conv E_Galaxy2.
Local Open Scope list_scope.
Local Open Scope R_scope.

Lemma C133_ex : increasing [0; 1; 2; 3] /\ steps_within 1 [0; 1; 2; 3] /\ jumps_within 1 [0; 1; 1; 0] /\
  exists f, not_a_knot f [0; 1; 2; 3] [0; 1; 1; 0] /\ f (3 / 2) = 9 / 8 /\
    exists F, mk_cubic KCubic (map Fin [0; 1; 2; 3]) (map Fin [0; 1; 1; 0]) = Ok F /\ F (Fin (3 / 2)) = Fin (9 / 8).
Proof.
  assert (I : increasing [0; 1; 2; 3]).
  { intros [|[|[|[|i]]]] Hi; cbn in Hi; try lia; unfold at_; cbn [nth]; lra. }
  split; auto. split; [|split].
  - intros [|[|[|i]]] [|[|[|j]]] Hi Hj; cbn in Hi, Hj; try lia; unfold at_; cbn [nth]; lra.
  - intros [|[|[|i]]] Hi; cbn in Hi; try lia; unfold at_; cbn [nth]; unfold Rabs; destruct (Rcase_abs _); lra.
  - destruct (mk_cubic_spline KCubic ltac:(now left) [0; 1; 2; 3] [0; 1; 1; 0] I eq_refl ltac:(cbn; lia)) as (F & f & E & V & N).
    exists f. split; auto.
    assert (Ef : f (3 / 2) = 9 / 8).
    { rewrite (spline_exact f _ _ 0 (3 / 2) (- 1 / 2) 0 I N); [field| |unfold at_, last_of, at_; cbn; lra].
      intros [|[|[|[|i]]]] Hi; cbn in Hi; try lia; unfold at_; cbn [nth]; field. }
    split; auto. exists F. split; auto. rewrite V by (unfold at_, last_of, at_; cbn; lra). now rewrite Ef.
Qed.

Lemma even_steps h N : 0 < h -> steps_within 1 (0 :: even h N).
Proof.
  intros Hh i j Hi Hj. cbn [List.length] in Hi, Hj. rewrite even_length in Hi, Hj.
  assert (E : forall k, (k < N)%nat -> at_ (0 :: even h N) (S k) - at_ (0 :: even h N) k = h).
  { intros k Hk. change (at_ (0 :: even h N) (S k)) with (at_ (even h N) k). rewrite even_at by lia.
    destruct k as [|k]; [unfold at_; cbn [nth INR]; lra|]. change (at_ (0 :: even h N) (S k)) with (at_ (even h N) k).
    rewrite even_at by lia. rewrite (S_INR (S k)). lra. }
  rewrite !E by lia. lra.
Qed.

Definition set_cubic (num : nat) : psettings xr := mkset (Fin (ln 2)) (Fin 2) (Fin (99 / 100)) (Fin (99 / 100)) (Some KCubic) num.

Lemma C134_ex : petrosian_profile (Fin 1) (Fin 1) (Fin (1 / 2)) = Fin (ln 2) /\
  true_radius 1 1 (1 / 2) 0 1 2 (99 / 100) (99 / 100) 2 /\ cubic_spline (mk_cubic KCubic) /\
  forall d, 0 < d -> exists rs L num, sampled 1 1 (1 / 2) 0 d (Rmax 1 (Rmax 2 (2 * 1)) + 1) rs L /\ steps_within 1 (0 :: rs) /\
    set_to (ln 2) 2 (99 / 100) d rs KCubic (set_cubic num).
Proof.
  split; [apply C35_ex|]. split; [apply C98_ex|]. split; [apply mk_cubic_spline; auto|]. intros d Hd.
  destruct (sampled_even 1 1 (1 / 2) 0 d (Rmax 1 (Rmax 2 (2 * 1)) + 1) ltac:(lra) ltac:(lra) Hd) as (M & num & S1 & S2).
  do 2 eexists. exists num. split; [exact S1|]. split; [apply even_steps; lra|]. repeat (split; [reflexivity|]). exact S2.
Qed.
Lemma C135_ex : forall d, 0 < d -> exists rs num, (2 < List.length rs)%nat /\ increasing rs /\ 0 < at_ rs 0 /\ fine d (0 :: rs) /\ steps_within 1 (0 :: rs) /\
    Rmax 1 (Rmax 2 (2 * 1)) + 1 <= last_of rs /\ set_to (ln 2) 2 (99 / 100) d rs KCubic (set_cubic num) /\
    radius_of (set_cubic num) (99 / 100) A_r_total_flux /\ flux_of (set_cubic num) (99 / 100) A_total_flux /\
    forall K, 1 <= K -> exists M m, shows_sersic 1 (K * 1) (1 / 2) 0 M M 0 (K * last_of rs) 0 0 m.
Proof.
  intros d Hd. destruct C134_ex as (_ & _ & _ & H). destruct (H d Hd) as (rs & L & num & (A1 & A2 & A3 & A4 & A5 & _) & St & Se).
  exists rs, num. do 7 (split; [assumption|]). split; [right; right; auto|]. split; [right; auto|].
  intros K HK. apply shown; [lra|]. pose proof (Rmax_l 1 (Rmax 2 (2 * 1))). lra.
Qed.
Lemma C136_ex : petrosian_profile (Fin 1) (Fin 1) (Fin (1 / 2)) = Fin (ln 2) /\ 0 < ln 2 < 1 /\
  exists Fe Ft, sersic_enclosed (Fin (2 * 1)) (Fin 1) (Fin 1) (Fin (1 / 2)) (Fin 0) = Fin Fe /\
    sersic_enclosed PInf (Fin 1) (Fin 1) (Fin (1 / 2)) (Fin 0) = Fin Ft.
Proof.
  split; [apply C35_ex|]. split.
  - pose proof (proj1 (L_PetroExists.petrosian_exists 1 (1 / 2) (ln 2) ltac:(lra) ltac:(lra))) as [_ Q]. apply Q. exists 1. split; [lra|apply C35_ex].
  - do 2 eexists. split; [apply enclosed_fin; lra|apply enclosed_inf; lra].
Qed.
