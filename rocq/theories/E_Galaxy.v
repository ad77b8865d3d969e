(** Concrete galaxies drawn on pixels. *)
From Coq Require Import String.
From Coquelicot Require Import Coquelicot.
From Verif Require Import Base Num Numpy M_Utils M_Photometry S_Photometry M_Petrosian M_Interp M_Sersic Gamma S_Sersic S_Utils S_Petrosian S_Conv S_Robust
  M_PSF S_PSF M_Fitting S_Fitting M_Integrate S_Integrate M_Exact S_Exact S_Galaxy S_Render
  L_Numpy L_Sersic L_Fitting L_Galaxy L_Galaxy2 E_Sersic E_Conv E_Exact E_Integrate.
Local Open Scope list_scope.
Local Open Scope R_scope.

(** an exponential disc seen face on *)
Definition disc_law (p : R) : R := exp (- p).
Definition disc_fn (x y : xr) : xr :=
  match x, y with Fin u, Fin w => Fin (disc_law (ell_radius 2 2 1 0 u w)) | _, _ => NaN end.
Lemma disc_falls : falls disc_law.
Proof.
  split; intros; unfold disc_law; [left; apply exp_pos|].
  destruct H as [_ [H| ->]]; [left; apply exp_increasing|]; lra.
Qed.
Lemma disc_real : real_function disc_fn (fun u w => disc_law (ell_radius 2 2 1 0 u w)).
Proof. intros u w. reflexivity. Qed.
Lemma disc_cont : continuous2 (fun u w => disc_law (ell_radius 2 2 1 0 u w)).
Proof.
  apply radial_cont; [lra|]. intros p e Hp He.
  assert (C : continuity_pt disc_law p) by (apply derivable_continuous_pt; unfold disc_law; reg).
  destruct (C e He) as (d & Hd & H). exists d. split; auto. intros q _ Hq.
  destruct (Req_dec p q) as [->|N]; [rewrite Rminus_eq_0, Rabs_R0; lra|]. apply H. split; [split; [exact I|auto]|exact Hq].
Qed.
Lemma disc_flux : flux_within disc_law 1 1 (2 * PI * (1 - 2 * exp (- 1))).
Proof.
  unfold flux_within.
  assert (D : is_RInt (fun p => disc_law p * (2 * PI * p / 1)) 0 1
    (minus (- (2 * PI) * (1 + 1) * exp (- 1)) (- (2 * PI) * (1 + 0) * exp (- 0)))).
  { apply (is_RInt_derive (fun p => - (2 * PI) * (1 + p) * exp (- p))).
    - intros p _. unfold disc_law. auto_derive; auto. field.
    - intros p _. unfold disc_law. apply (ex_derive_continuous (V := R_NormedModule)). auto_derive. lra. }
  replace (2 * PI * (1 - 2 * exp (- 1))) with (minus (- (2 * PI) * (1 + 1) * exp (- 1)) (- (2 * PI) * (1 + 0) * exp (- 0))); auto.
  change (@eq R (- (2 * PI) * (1 + 1) * exp (- 1) + - (- (2 * PI) * (1 + 0) * exp (- 0))) (2 * PI * (1 - 2 * exp (- 1)))).
  rewrite Ropp_0, exp_0. ring.
Qed.
Lemma size5 : size_means (VInt 5) false 5 5.
Proof. constructor. left. reflexivity. Qed.
Lemma origin0 nx ny : origin_is None nx ny 0 0.
Proof. split; reflexivity. Qed.

Lemma C117_ex : falls disc_law /\ real_function disc_fn (fun u w => disc_law (ell_radius 2 2 1 0 u w)) /\
  continuous2 (fun u w => disc_law (ell_radius 2 2 1 0 u w)) /\
  (exists m, rendered quad disc_fn (VInt 5) false 1 None m) /\ on_image (2 - 0) (2 - 0) 1 (1 / 1) 0 5 5 /\
  flux_within disc_law 1 1 (2 * PI * (1 - 2 * exp (- 1))).
Proof.
  split; [exact disc_falls|]. split; [exact disc_real|]. split; [exact disc_cont|]. split; [|split; [|exact disc_flux]].
  - destruct (center_pixels disc_fn _ (VInt 5) false 1 None 5 5 0 0 disc_real size5 (origin0 5 5)) as (m & E & _).
    exists m. apply (in_mode _ _ _ _ _ _ _ Center); [discriminate|exact E].
  - replace (1 / 1) with 1 by field. apply circle_on; cbn; lra.
Qed.

Lemma C116_ex : exists image v, iny image = 5%nat /\ inx image = 5%nat /\ finite_img image v /\
  v 2%nat 2%nat = 1 /\ v 2%nat 3%nat = exp (- 1) /\
  drawn_within (sqrt 2) disc_law 2 2 1 0 5 5 v /\ on_image 2 2 1 (1 / 1) 0 5 5.
Proof.
  exists (mkimg 5 5 (fun j i => Fin (disc_law (ell_radius 2 2 1 0 (INR i) (INR j))))),
    (fun j i => disc_law (ell_radius 2 2 1 0 (INR i) (INR j))).
  split; [reflexivity|]. split; [reflexivity|]. split; [intros j i _ _; reflexivity|].
  split; [|split; [|split]].
  - unfold disc_law, ell_radius, along, across. rewrite cos_0, sin_0. cbn [INR]. replace (_ ^ 2 + _ ^ 2) with 0 by ring. now rewrite sqrt_0, Ropp_0, exp_0.
  - unfold disc_law, ell_radius, along, across. rewrite cos_0, sin_0. cbn [INR]. replace (_ ^ 2 + _ ^ 2) with 1 by ring. now rewrite sqrt_1.
  - intros j i u w _ _ Hu Hw.
    assert (C : Rabs (ell_radius 2 2 1 0 u w - ell_radius 2 2 1 0 (INR i) (INR j)) <= sqrt 2).
    { apply Rle_trans with (sqrt 2 * (1/2) * Rmax 1 1); [apply rad_close; lra|]. rewrite Rmax_left by lra. generalize (sqrt_pos 2). lra. }
    apply Rabs_le_between in C. generalize (rad_nonneg 2 2 1 0 u w) (rad_nonneg 2 2 1 0 (INR i) (INR j)). intros P Q.
    destruct disc_falls as [_ S]. split; apply S; [lra|]. split; [apply Rmax_l|apply Rmax_lub; lra].
  - replace (1 / 1) with 1 by field. apply circle_on; cbn; lra.
Qed.

(** a Gaussian profile (n = 1/2), seen face on, on an odd number of pixels *)
Definition gauss K M : xr -> xr -> xr :=
  fun x y => gen_sersic2d x y (Fin 1) (Fin (K * 1)) (Fin (1 / 2)) (Fin M) (Fin M) (Fin 0) (Fin 0) (Fin 0).
Lemma gauss_rendered K M N : 0 < K -> (0 <= N)%Z -> exists m, rendered quad (gauss K M) (VInt N) false 1 None m.
Proof.
  intros HK HN.
  destruct (center_pixels (gauss K M) _ (VInt N) false 1 None N N 0 0 (sersic_radial 1 (K * 1) (1 / 2) M M 0 0 ltac:(lra) ltac:(lra) ltac:(lra)))
    as (m & E & _); [constructor; left; reflexivity|apply origin0|].
  exists m. apply (in_mode _ _ _ _ _ _ _ Center); [discriminate|exact E].
Qed.
Lemma C118_ex : half_light (1 / 2) (ln 2) /\ (exists m, rendered quad (gauss 1 2) (VInt 5) false 1 None m) /\
  forall i, (i < 2)%nat -> 0 < at_ [1; 2] i /\ on_image (2 - 0) (2 - 0) (at_ [1; 2] i) (at_ [1; 2] i * (1 - 0)) 0 5 5.
Proof.
  split; [apply half_light_half|]. split; [apply gauss_rendered; [lra|lia]|].
  intros [|[|i]] Hi; try lia; unfold at_; cbn [nth]; (split; [lra|]).
  - replace (1 * (1 - 0)) with 1 by ring. apply circle_on; cbn; lra.
  - replace (2 * (1 - 0)) with 2 by ring. apply circle_on; cbn; lra.
Qed.

Lemma C119_ex : petrosian_profile (Fin 1) (Fin 1) (Fin (1 / 2)) = Fin (ln 2) /\ integrates quad /\
  (forall d, 0 < d -> exists rs num, (2 < List.length rs)%nat /\ increasing rs /\ 0 < at_ rs 0 /\ fine d (0 :: rs) /\ 2 <= last_of rs /\
    forall q, no_overshoot (mk_linear q) /\ last_of rs < d * INR (num - 1)) /\
  forall K last, 0 < K -> 0 < last -> exists N M m, (0 <= N)%Z /\ rendered quad (gauss K M) (VInt N) false 1 None m /\
    size_means (VInt N) false N N /\ on_image (M - 0) (M - 0) (K * last) (K * last * (1 - 0)) 0 (Z.to_nat N) (Z.to_nat N).
Proof.
  split; [apply C35_ex|]. split; [exact quad_ok|]. split.
  - intros d Hd. destruct (sampled_exists 1 1 (1 / 2) 0 d 2 ltac:(lra) ltac:(lra) Hd) as (rs & L & num & (H1 & H2 & H3 & H4 & H5 & _) & H6).
    exists rs, num. repeat (split; [assumption|]). intros q. split; [apply linear_no_overshoot|exact H6].
  - intros K la HK Hl. destruct (up_nat (K * la)) as (P & HP). exists (Z.of_nat (2 * P + 1)), (INR P).
    destruct (gauss_rendered K (INR P) (Z.of_nat (2 * P + 1)) HK ltac:(lia)) as (m & Hm). exists m. split; [lia|]. split; auto.
    split; [constructor; left; reflexivity|]. replace (K * la * (1 - 0)) with (K * la) by ring. rewrite Rminus_0_r, Nat2Z.id.
    assert (0 < K * la) by now apply Rmult_lt_0_compat.
    assert (E : INR (2 * P + 1) = 2 * INR P + 1) by (rewrite plus_INR, mult_INR; cbn [INR]; ring).
    apply circle_on; rewrite ?E; lra.
Qed.
