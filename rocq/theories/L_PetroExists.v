(** The true radii the measurements converge to exist and are unique. *)
From Verif Require Import Base Num M_Petrosian M_Sersic Gamma S_Sersic S_Petrosian S_Conv L_Sersic L_Petrosian L_Conv L_Conv2 L_Cubic3.
Local Open Scope R_scope.

Theorem profile_limits re n : 0 < re -> 0 < n ->
  (forall w, 0 < w -> exists d, 0 < d /\ forall r, 0 < r < d -> exists v, petrosian_profile (Fin r) (Fin re) (Fin n) = Fin v /\ 1 - w < v) /\
  (forall w, 0 < w -> exists X, forall r, 0 < r -> X <= r -> exists v, petrosian_profile (Fin r) (Fin re) (Fin n) = Fin v /\ v < w).
Proof.
  intros Hre Hn. split; intros w Hw.
  - destruct (prof_zero 1 re n 0 ltac:(lra) Hre Hn ltac:(lra) w Hw) as (d & Hd & H). exists d. split; auto. intros r Hr.
    exists (profR re n r). split; [apply petro_fin; lra|]. pose proof (H r Hr) as Q. apply Rabs_def2 in Q. lra.
  - destruct (prof_infty 1 re n 0 ltac:(lra) Hre Hn ltac:(lra) w Hw) as (X & H). exists X. intros r Hr HX.
    exists (profR re n r). split; [apply petro_fin; lra|]. pose proof (H r HX) as Q. apply Rabs_def2 in Q. lra.
Qed.
Theorem petrosian_exists re n eta : 0 < re -> 0 < n ->
  (0 < eta < 1 <-> exists rt, 0 < rt /\ petrosian_profile (Fin rt) (Fin re) (Fin n) = Fin eta) /\
  forall r r', 0 < r -> 0 < r' -> petrosian_profile (Fin r) (Fin re) (Fin n) = Fin eta -> petrosian_profile (Fin r') (Fin re) (Fin n) = Fin eta -> r = r'.
Proof.
  intros Hre Hn. split; [split|].
  - intros He. destruct (prof_onto 1 re n 0 ltac:(lra) Hre Hn ltac:(lra) eta He) as (r & Hr & E). exists r. split; auto.
    rewrite petro_fin by auto. unfold profR in E. now rewrite E.
  - intros (r & Hr & E). rewrite petro_fin in E by auto. injection E as <-. now apply prof_range.
  - intros r r' Hr Hr' E E'. rewrite petro_fin in E, E' by auto. injection E as E. injection E' as E'.
    change (profR re n r = eta) in E. change (profR re n r' = eta) in E'.
    destruct (Rtotal_order r r') as [L|[L|L]]; auto.
    + pose proof (prof_dec re n Hre Hn r r' ltac:(lra)). lra.
    + pose proof (prof_dec re n Hre Hn r' r ltac:(lra)). lra.
Qed.
(** the radius of a share of the flux within [epsilon * rt]: it exists if the galaxy has that much flux *)
Theorem share_exists A re n e rt epsilon ef f Fe Ft : 0 < A -> 0 < re -> 0 < n -> e < 1 -> 0 < rt -> 0 < epsilon ->
  sersic_enclosed (Fin (epsilon * rt)) (Fin A) (Fin re) (Fin n) (Fin e) = Fin Fe ->
  sersic_enclosed PInf (Fin A) (Fin re) (Fin n) (Fin e) = Fin Ft ->
  ((exists r, true_radius A re n e rt epsilon ef f r) <-> 0 < f / ef /\ Fe * (f / ef) < Ft) /\
  (forall r r', true_radius A re n e rt epsilon ef f r -> true_radius A re n e rt epsilon ef f r' -> r = r') /\
  (0 < f / ef <= 1 -> exists r, true_radius A re n e rt epsilon ef f r /\ r <= epsilon * rt).
Proof.
  intros HA Hre Hn He Hrt Hep EF ET.
  assert (H : 0 < epsilon * rt) by now apply Rmult_lt_0_compat.
  rewrite enclosed_fin in EF by lra. injection EF as <-. rewrite enclosed_inf in ET by auto. injection ET as <-.
  pose proof (F_pos A re n e HA Hre Hn He _ H) as Fp. pose proof (encl_lt_total A re n e (epsilon * rt) HA Hre Hn He) as Tt.
  set (Fe := enclR A re n e (epsilon * rt)) in *.
  assert (Mk : 0 < f / ef -> Fe * (f / ef) < totalR A re n e -> exists r, true_radius A re n e rt epsilon ef f r /\ enclR A re n e r = Fe * (f / ef)).
  { intros Hf Hl. assert (Hp : 0 < Fe * (f / ef)) by now apply Rmult_lt_0_compat.
    assert (Rg : 0 <= Fe * (f / ef) < totalR A re n e) by lra.
    exists (invR A re n e (Fe * (f / ef))).
    pose proof (encl_inv A re n e _ HA Hre Hn He Rg) as Ei. pose proof (inv_range A re n e (Fe * (f / ef)) Hre) as Ip.
    split; auto. split.
    - destruct Ip as [|E0]; auto. exfalso. rewrite <- E0, encl_zero in Ei. lra.
    - exists Fe. split; [apply enclosed_fin; lra|]. rewrite enclosed_fin by auto. now rewrite Ei. }
  split; [split|split].
  - intros (r & Hr & Fe' & E1 & E2). rewrite enclosed_fin in E1 by lra. injection E1 as <-. fold Fe in E2.
    rewrite enclosed_fin in E2 by lra. injection E2 as E2.
    pose proof (F_pos A re n e HA Hre Hn He r Hr). pose proof (encl_lt_total A re n e r HA Hre Hn He). split; [|lra].
    rewrite E2 in H0. destruct (Rlt_le_dec 0 (f / ef)); auto. nra.
  - intros [Hf Hl]. destruct (Mk Hf Hl) as (r & Hr & _). eauto.
  - intros r r' (Hr & G & E1 & E2) (Hr' & G' & E1' & E2'). rewrite E1 in E1'. injection E1' as <-.
    rewrite enclosed_fin in E2, E2' by lra. injection E2 as E2. injection E2' as E2'.
    apply (encl_inj A re n e); auto; lra.
  - intros Hf. destruct (Mk (proj1 Hf)) as (r & Hr & Er); [nra|]. exists r. split; auto.
    apply Rnot_lt_le. intros L. pose proof (encl_inc A re n e (epsilon * rt) r HA Hre Hn He ltac:(lra)). fold Fe in H0. nra.
Qed.
