(** Fluxes of the simulated galaxies, and the rows of the correction grid. *)
From Coq Require Import String FunctionalExtensionality.
From Coquelicot Require Import Coquelicot.
From Verif Require Import Base Num Numpy M_Utils M_Photometry S_Photometry M_Petrosian S_Petrosian M_PSF S_PSF M_Fitting S_Fitting
  M_Ellipse M_Exact S_Center S_Exact Gamma M_Sersic S_Sersic S_Galaxy M_Correction S_Correction S_CorRow M_Worker S_Worker
  L_Photometry L_Sersic L_Sersic2 L_Growth L_Galaxy L_Galaxy2 L_Correction4 L_CorRow L_Worker L_Worker2.
Local Open Scope list_scope.
Local Open Scope R_scope.

Lemma round_law A re n b X Y u w : 0 < re -> sersic2d b A re n X Y 0 0 u w = sersic_law A re n b (ell_radius X Y 1 0 u w).
Proof.
  intros Hre. unfold sersic2d, sersic_law, ell_radius. do 5 f_equal.
  set (p := along X Y 0 u w). set (q := across X Y 0 u w).
  replace (p / re * (p / re) + q / ((1 - 0) * re) * (q / ((1 - 0) * re))) with ((p ^ 2 + (1 * q) ^ 2) * (/ re * / re)) by (field; lra).
  assert (0 < / re) by now apply Rinv_0_lt_compat.
  rewrite sqrt_mult by nra. rewrite sqrt_square by lra. reflexivity.
Qed.

Lemma sampled_pos h over k j i : sampled h over k -> (0 < k j i)%nat.
Proof. intros H. destruct H; try lia. destruct (insideb _ _ _ && insideb _ _ _); lia. Qed.

(** pixel means show the profile *)
Lemma means_drawn A re n X Y k N : 0 <= A -> 0 < re -> 0 < n -> (forall j i, (0 < k j i)%nat) ->
  drawn_within (blur 1) (sersic_law A re n (bnR n)) X Y 1 0 N N
    (fun j i => mean_samples (sersic2d (bnR n) A re n X Y 0 0) (k j i) (INR i) (INR j)).
Proof.
  intros HA Hre Hn Hk j i u w Hj Hi Hu Hw. destruct (law_falls A re n HA Hre Hn) as [S1 S2].
  apply mean_bounds; auto. intros u' w' Hu' Hw'. rewrite round_law by auto.
  assert (C : Rabs (ell_radius X Y 1 0 u' w' - ell_radius X Y 1 0 u w) <= blur 1).
  { unfold blur. replace (sqrt 2 * Rmax 1 1) with (sqrt 2 * 1 * Rmax 1 1) by ring. apply rad_close; auto; [lra|lra| |];
      apply Rabs_le; apply Rabs_le_between in Hu'; apply Rabs_le_between in Hw'; apply Rabs_def2 in Hu; apply Rabs_def2 in Hw; lra. }
  apply Rabs_le_between in C. generalize (rad_nonneg X Y 1 0 u' w') (rad_nonneg X Y 1 0 u w). intros P Q. split; apply S2.
  - lra.
  - split; [apply Rmax_l|]. apply Rmax_lub; lra.
Qed.

Lemma means_nonneg A re n X Y k j i : 0 <= A -> (0 < k)%nat -> 0 <= mean_samples (sersic2d (bnR n) A re n X Y 0 0) k (INR i) (INR j).
Proof.
  intros HA Hk. unfold mean_samples. apply Rmult_le_pos.
  - apply Rle_trans with (sum2 k k (fun _ _ => 0 * 0)); [rewrite sum2_mult; lra|]. apply sum2_le. intros. rewrite Rmult_0_l.
    unfold sersic2d. apply Rmult_le_pos; auto. left. apply exp_pos.
  - left. apply Rinv_0_lt_compat. assert (0 < INR k) by now apply lt_0_INR. nra.
Qed.

(** ** the photometry *)
Lemma photometry_at rotate over k re n (h : Z) radii : 0 < re -> 0 < n -> (1 <= h)%Z -> sampled h over k ->
  (forall r, In r radii -> (1 <= r <= h)%Z) ->
  exists F Ar, worker_photometry rotate None over VNone (Fin re) (Fin n) radii (2 * h) h = Ok (map Fin F, map Fin Ar) /\
    List.length F = List.length radii /\ List.length Ar = List.length radii /\
    forall i r, nth_error radii i = Some r -> measured_ok (100 / exp (bnR n)) re n h r (at_ F i) (at_ Ar i).
Proof.
  intros Hre Hn Hh Hs Hr. set (A := 100 / exp (bnR n)).
  assert (HA : 0 <= A) by (left; apply Rdiv_lt_0_compat; [lra|apply exp_pos]).
  destruct (image_pixels rotate h re n ltac:(lia) Hre Hn over k Hs) as (m & Em & Im).
  destruct (image_finite _ _ _ _ Im) as (Fi & Ey & Ex). fold A in Im, Fi.
  set (v := fun j i => mean_samples (sersic2d (bnR n) A re n (IZR h) (IZR h) 0 0) (k j i) (INR i) (INR j)) in *.
  set (N := Z.to_nat (2 * h)) in *. set (s := sersic_law A re n (bnR n)). set (G := enclR A re n 0).
  assert (Hk : forall j i, (0 < k j i)%nat) by (intros; eapply sampled_pos; eauto).
  assert (H1 : 1 <= IZR h) by (apply IZR_le; lia).
  assert (HN : INR N = 2 * IZR h) by (unfold N; rewrite INR_IZR_INZ, Z2Nat.id, mult_IZR by lia; reflexivity).
  assert (HS : falls s) by now apply law_falls.
  assert (HD : forall q, drawn_within (blur 1) s (IZR h) (IZR h) 1 0 q q v) by (intros; now apply means_drawn).
  assert (HG : forall r, gains_at_most s (PI / 1) r G /\ gains_at_least s (PI / 1) r G).
  { intros r. replace (PI / 1) with (PI * (1 - 0)) by field. apply sersic_gains; auto; lra. }
  assert (Gm : forall r, gains_at_most s (PI / 1) r G) by apply HG. assert (Gl : forall r, gains_at_least s (PI / 1) r G) by apply HG.
  assert (G0 : G 0 = 0) by apply encl_zero.
  assert (Hv : forall j i, 0 <= v j i) by (intros; apply means_nonneg; auto).
  assert (B : blur 1 * s 0 = sqrt 2 * 100).
  { unfold blur. rewrite Rmax_left by lra. unfold s. rewrite law_0 by auto. unfold A. replace (100 / exp (bnR n) * exp (bnR n)) with 100; [ring|].
    field. apply Rgt_not_eq, exp_pos. }
  assert (Hw : (Z.to_nat h < N)%nat) by (unfold N; lia).
  assert (Hwh : INR (Z.to_nat h) = IZR h) by (rewrite INR_IZR_INZ, Z2Nat.id by lia; reflexivity).
  destruct (rp_list M_Exact.exact_overlap NpFloat m (Fin (IZR h), Fin (IZR h)) (map IZR radii) None None (Fin 1) (Fin 0)
     (fun q f a => forall r, q = IZR r -> (1 <= r <= h)%Z -> measured_ok A re n h r f a)) as (F & Ar & E & LF & LA & H).
  { intros i Hi. rewrite map_length in Hi. destruct (nth_error radii i) as [r|] eqn:Er; [|apply nth_error_None in Er; lia].
    assert (Eq : at_ (map IZR radii) i = IZR r) by (unfold at_; apply nth_error_nth; rewrite nth_error_map, Er; reflexivity).
    rewrite Eq. specialize (Hr r (nth_error_In _ _ Er)). assert (Hr1 : 1 <= IZR r) by (apply IZR_le; lia).
    destruct (Z.eq_dec r h) as [->|Ne].
    - destruct (outer_value (IZR h) N s G v (blur 1) H1 HN (blur_pos 1) HS HD G0 Gm Gl Hv NpFloat m (Z.to_nat h) Fi Ey Ex Hwh Hw) as (f & a & E & Bf & Ba).
      exists f, a. split; [exact E|]. intros r Er' _. apply eq_IZR in Er'. subst r. split; [lia|]. intros _.
      exists (G (IZR h)), (G (IZR h - 1/2)). split; [apply enclosed_fin; auto; lra|]. split; [apply enclosed_fin; auto; lra|].
      replace (2 * PI * (IZR h - 1/2) * blur 1 * s 0) with (2 * PI * (IZR h - 1/2) * (blur 1 * s 0)) in Bf by ring.
      replace (2 * PI * IZR h * blur 1 * s 0) with (2 * PI * IZR h * (blur 1 * s 0)) in Bf by ring. rewrite B in Bf. split; lra.
    - assert (Hlt : IZR r <= IZR h - 1) by (rewrite <- minus_IZR; apply IZR_le; lia).
      destruct (inner_value (IZR h) N s G v (blur 1) HN (blur_pos 1) HS HD G0 Gm Gl NpFloat m (IZR r) Fi Ey Ex ltac:(lra)) as (f & a & E & Bf & Ba).
      exists f, a. split; [exact E|]. intros r' Er' _. apply eq_IZR in Er'. subst r'. split; [|lia]. intros _.
      exists (G (IZR r)). split; [apply enclosed_fin; auto; lra|]. split; [|exact Ba].
      replace (2 * PI * IZR r * blur 1 * s 0) with (2 * PI * IZR r * (blur 1 * s 0)) in Bf by ring. rewrite B in Bf.
      replace (200 * sqrt 2 * PI * IZR r) with (2 * PI * IZR r * (sqrt 2 * 100)) by ring. exact Bf. }
  exists F, Ar. rewrite map_length in LF, LA. split.
  - unfold worker_photometry. rewrite Em. cbn [bind]. rewrite map_map in E.
    replace (map nofZ radii) with (map (fun x => Fin (IZR x)) radii) by reflexivity.
    change (nofZ h) with (Fin (IZR h)). change (@n1 xr XRnum) with (Fin 1). change (@n0 xr XRnum) with (Fin 0). rewrite E. reflexivity.
  - split; auto. split; auto. intros i r Er. assert (Hi : (i < List.length radii)%nat) by (apply nth_error_Some; congruence).
    assert (Eq : at_ (map IZR radii) i = IZR r) by (unfold at_; apply nth_error_nth; rewrite nth_error_map, Er; reflexivity).
    rewrite map_length in H. apply (H i Hi r Eq). apply Hr. eapply nth_error_In; eauto.
Qed.

Theorem photometry_ok rotate over k re n b x m radii size x0 : 0 < re -> 0 < n -> half_light n b ->
  int_of (Fin x) = Ok m -> sim_geometry (nleb (nofZ 200) (Fin x)) m = Ok (radii, size, x0) -> sampled x0 over k ->
  exists F Ar, worker_photometry rotate None over VNone (Fin re) (Fin n) radii size x0 = Ok (map Fin F, map Fin Ar) /\
    List.length F = List.length radii /\ List.length Ar = List.length radii /\
    forall i r, nth_error radii i = Some r -> measured_ok (100 / exp b) re n x0 r (at_ F i) (at_ Ar i).
Proof.
  intros Hre Hn Hb Em Eg Hs. rewrite (half_light_unique n b Hn Hb).
  destruct (Rlt_le_dec (-1) x) as [Hx|Hx].
  - destruct (geometry_ok x Hx) as (m' & radii' & size' & x0' & E1 & E2 & _ & _ & R1 & last & L1 & L2 & Es & E0 & _).
    rewrite Em in E1. apply Ok_inj in E1. subst m'. rewrite Eg in E2. apply Ok_inj in E2. injection E2 as -> -> ->. subst size' x0'.
    apply (photometry_at rotate over k re n last radii'); auto.
  - destruct (geometry_bad (Fin x) Hx) as (m' & E1 & E2). rewrite Em in E1. apply Ok_inj in E1. subst m'. congruence.
Qed.

(** ** the row *)
Lemma amp_pos n : 0 < 100 / exp (bnR n).
Proof. apply Rdiv_lt_0_compat; [lra|apply exp_pos]. Qed.

Lemma radius_ok re n f : 0 < re -> 0 < n -> 0 <= f < totalR (100 / exp (bnR n)) re n 0 ->
  exists r, 0 <= r /\ worker_radius (Fin re) (Fin n) (Fin f) = Fin r /\
    sersic_enclosed (Fin r) (Fin (100 / exp (bnR n))) (Fin re) (Fin n) (Fin 0) = Fin f.
Proof.
  intros Hre Hn Hf. destruct (inverse_spec (100 / exp (bnR n)) re n 0 (amp_pos n) Hre Hn ltac:(lra)) as (t & E & _ & _ & H & _).
  rewrite enclosed_inf in E by auto. injection E as <-. destruct (H f Hf) as (r & Hr & E1 & E2). exists r. split; auto. split; auto.
  unfold worker_radius. rewrite amplitude_fin by auto. exact E1.
Qed.

Lemma total_ok re n : 0 < re -> 0 < n -> worker_total (Fin re) (Fin n) = Fin (totalR (100 / exp (bnR n)) re n 0) /\ 0 < totalR (100 / exp (bnR n)) re n 0.
Proof.
  intros Hre Hn. split; [|apply total_pos; auto using amp_pos; lra]. unfold worker_total. rewrite amplitude_fin by auto. now apply enclosed_inf.
Qed.

Theorem input_radii re n b : 0 < re -> 0 < n -> half_light n b ->
  exists L, worker_total (Fin re) (Fin n) = Fin L /\ 0 < L /\
    sersic_enclosed PInf (Fin (100 / exp b)) (Fin re) (Fin n) (Fin 0) = Fin L /\
    forall p, 0 <= p < 1 -> exists r, 0 <= r /\ worker_radius (Fin re) (Fin n) (Fin (p * L)) = Fin r /\
      sersic_enclosed (Fin r) (Fin (100 / exp b)) (Fin re) (Fin n) (Fin 0) = Fin (p * L).
Proof.
  intros Hre Hn Hb. rewrite (half_light_unique n b Hn Hb). destruct (total_ok re n Hre Hn) as [ET HT].
  eexists. split; [exact ET|]. split; auto. split; [now apply enclosed_inf|]. intros p Hp. apply radius_ok; auto. nra.
Qed.

(** the default oversampling window does not fit into the image of a small galaxy *)
Lemma max_r_fin re n r : sim_max_r (Fin re) (Fin n) (Fin r) = Fin (largest_radius re n r).
Proof.
  unfold sim_max_r, largest_radius. cbn [nltb XRnum xltb n1 n2 nofZ nmul xmul]. rewrite lit by lra. cbn [xmul].
  destruct (Rlt_dec n 1).
  - rewrite (Rltb_true n 1), (Rltb_true n 2) by lra. destruct (Rlt_dec re 7); [rewrite Rltb_true by auto|rewrite Rltb_false by lra]; cbn [andb]; f_equal; ring.
  - rewrite (Rltb_false n 1) by lra. rewrite andb_false_r. destruct (Rlt_dec n 2); [rewrite Rltb_true by auto|rewrite Rltb_false by lra]; f_equal; ring.
Qed.

Theorem small_rejected rotate mk re n b L r99 : 0 < re -> 0 < n -> half_light n b ->
  sersic_enclosed PInf (Fin (100 / exp b)) (Fin re) (Fin n) (Fin 0) = Fin L ->
  0 <= r99 -> sersic_enclosed (Fin r99) (Fin (100 / exp b)) (Fin re) (Fin n) (Fin 0) = Fin (99/100 * L) ->
  largest_radius re n r99 < 4 ->
  worker rotate None default_oversample VNone mk (Fin re) (Fin n) = Err ValueError.
Proof.
  intros Hre Hn Hb EL P99 E99 HM. rewrite (half_light_unique n b Hn Hb) in *. destruct (total_ok re n Hre Hn) as [ET HT].
  rewrite enclosed_inf in EL by auto. injection EL as <-. set (L := totalR (100 / exp (bnR n)) re n 0) in *.
  destruct (radius_ok re n (99/100 * L) Hre Hn) as (r & Pr & Er & Hr); [fold L; lra|].
  assert (r = r99) as ->.
  { rewrite enclosed_fin in Hr, E99 by auto. apply (encl_inj (100 / exp (bnR n)) re n 0); auto; [apply amp_pos|lra|congruence]. }
  unfold worker, generate_row. cbv zeta. rewrite ET, mul1. rewrite !lit by lra. cbn [nmul XRnum xmul].
  replace (L * (99 / 100)) with (99/100 * L) by ring. rewrite Er, max_r_fin.
  assert (HM0 : 0 <= largest_radius re n r99) by (unfold largest_radius; repeat destruct Rlt_dec; lra).
  set (x := largest_radius re n r99) in *.
  destruct (geometry_ok x ltac:(lra)) as (m & radii & size & x0 & E1 & E2 & _ & _ & R1 & last & L1 & L2 & Es & E0 & _).
  rewrite E1. cbn [bind].
  assert (Big : nleb (nofZ 200) (Fin x) = false) by (cbn; apply Rleb_false; lra).
  rewrite Big in *. rewrite E2. cbn [bind fst snd]. subst size x0.
  assert (Hm : (0 <= m <= 3)%Z).
  { clear -E1 HM HM0. unfold int_of in E1. cbn [ntrunc XRnum xtrunc] in E1. apply Ok_inj in E1. subst m.
    assert (T : IZR (Rtrunc x) <= x < IZR (Rtrunc x) + 1) by (unfold Rtrunc; destruct (Rleb_spec 0 x); [|lra]; generalize (base_Int_part x); lra). destruct T as [T1 T2]. split.
    - apply Z.lt_succ_r, lt_IZR. rewrite succ_IZR. lra.
    - apply Z.lt_succ_r, lt_IZR. change (IZR (Z.succ 3)) with 4. lra. }
  assert (Hl : (1 <= last <= 3)%Z).
  { assert (Hm' : m = 0%Z \/ m = 1%Z \/ m = 2%Z \/ m = 3%Z) by lia.
    destruct Hm' as [-> | [-> | [-> | ->]]]; vm_compute in E2; apply Ok_inj in E2; injection E2; intros; subst; lia. }
  unfold worker_photometry, default_oversample. rewrite image_window; auto; try lia.
Qed.

Theorem image_ok rotate h re n b over k : (0 < h)%Z -> 0 < re -> 0 < n -> half_light n b -> sampled h over k ->
  exists m, worker_image rotate None over VNone (Fin re) (Fin n) (2 * h) h = Ok m /\
    image_of m (Z.to_nat (2 * h)) (Z.to_nat (2 * h))
      (fun j i => mean_samples (sersic2d b (100 / exp b) re n (IZR h) (IZR h) 0 0) (k j i) (INR i) (INR j)).
Proof. intros Hh Hre Hn Hb. rewrite (half_light_unique n b Hn Hb). now apply image_pixels. Qed.

Theorem image_not_ok rotate h re n s f : (0 < h)%Z -> 0 < re -> 0 < n -> (1 < s)%Z -> (1 < f)%Z ->
  ~ (s / 2 <= h /\ h - s / 2 + s <= 2 * h)%Z ->
  worker_image rotate None (VSeq [VStr "x_0"; VStr "y_0"; VInt s; VInt f]) VNone (Fin re) (Fin n) (2 * h) h = Err ValueError.
Proof. intros. now apply image_window. Qed.
