(** Photometry of rendered models. *)
From Coq Require Import String.
From Coquelicot Require Import Coquelicot.
From Verif Require Import Base Num Numpy M_Photometry S_Photometry S_Petrosian M_PSF S_PSF M_Fitting S_Fitting M_Integrate S_Integrate
  M_Ellipse M_Exact S_Center S_Exact Gamma M_Sersic S_Sersic S_Galaxy S_Render L_Photometry L_Fitting L_Integrate L_Sersic L_Sersic2 L_Growth L_Galaxy.
Local Open Scope list_scope.
Local Open Scope R_scope.

(** ** the elliptical radius changes slowly *)
Lemma rad_close x y elong t u w u' w' h : 0 < elong -> 0 <= h -> Rabs (u' - u) <= h -> Rabs (w' - w) <= h ->
  Rabs (ell_radius x y elong t u' w' - ell_radius x y elong t u w) <= sqrt 2 * h * Rmax 1 elong.
Proof.
  intros He Hh Hu Hw. unfold ell_radius.
  set (a := along x y t u w). set (b := elong * across x y t u w). set (a' := along x y t u' w'). set (b' := elong * across x y t u' w').
  assert (E : forall a b, sqrt (a ^ 2 + b ^ 2) = dist_euc a b 0 0).
  { intros. unfold dist_euc. f_equal. unfold Rsqr. ring. }
  rewrite !E.
  assert (T : dist_euc a b a' b' <= sqrt 2 * h * Rmax 1 elong).
  { set (M := Rmax 1 elong). assert (M1 : 1 <= M) by apply Rmax_l. assert (M2 : elong <= M) by apply Rmax_r.
    unfold dist_euc. apply Rle_trans with (sqrt (2 * ((h * M) * (h * M)))).
    - apply sqrt_le_1_alt. unfold a, b, a', b', along, across, Rsqr.
      set (p := u' - u). set (q := w' - w). fold p in Hu. fold q in Hw.
      set (c := cos t). set (s := sin t). assert (S : s * s + c * c = 1) by (unfold s, c; generalize (sin2_cos2 t); unfold Rsqr; lra).
      replace ((u - x) * c + (w - y) * s - ((u' - x) * c + (w' - y) * s)) with (- (p * c + q * s)) by (unfold p, q; ring).
      replace (elong * ((w - y) * c - (u - x) * s) - elong * ((w' - y) * c - (u' - x) * s)) with (- (elong * (q * c - p * s))) by (unfold p, q; ring).
      assert (P2 : p * p <= h * h) by (unfold Rabs in Hu; destruct (Rcase_abs p); nra).
      assert (Q2 : q * q <= h * h) by (unfold Rabs in Hw; destruct (Rcase_abs q); nra).
      set (X := p * c + q * s). set (Y := q * c - p * s).
      assert (XY : X * X + Y * Y = p * p + q * q).
      { unfold X, Y. replace ((p * c + q * s) * (p * c + q * s) + (q * c - p * s) * (q * c - p * s)) with ((p * p + q * q) * (s * s + c * c)) by ring. rewrite S. ring. }
      assert (X2 : X * X <= M * M * (X * X)) by (assert (0 <= X * X) by nra; assert (1 <= M * M) by nra; nra).
      assert (Y2 : elong * elong * (Y * Y) <= M * M * (Y * Y)) by (apply Rmult_le_compat_r; nra).
      replace (- X * - X + - (elong * Y) * - (elong * Y)) with (X * X + elong * elong * (Y * Y)) by ring.
      apply Rle_trans with (M * M * (p * p + q * q)); [rewrite <- XY; lra|].
      replace (2 * (h * M * (h * M))) with (M * M * (h * h + h * h)) by ring. apply Rmult_le_compat_l; nra.
    - rewrite sqrt_mult by nra. rewrite sqrt_square by nra. right. ring. }
  apply Rabs_le. split.
  - generalize (triangle a b 0 0 a' b'). lra.
  - generalize (triangle a' b' 0 0 a b). rewrite (distance_symm a' b' a b). lra.
Qed.

Lemma rad_shift X Y x0 y0 elong t u w : ell_radius (X - x0) (Y - y0) elong t u w = ell_radius X Y elong t (x0 + u) (y0 + w).
Proof. unfold ell_radius, along, across. f_equal. f_equal; f_equal; ring. Qed.

(** ** pixels of every mode lie between the bounds of the model *)
Lemma mean_bounds g n cx cy lo hi : (0 < n)%nat ->
  (forall u w, Rabs (u - cx) <= 1/2 -> Rabs (w - cy) <= 1/2 -> lo <= g u w <= hi) -> lo <= mean_samples g n cx cy <= hi.
Proof.
  intros Hn H. unfold mean_samples. assert (P : 0 < INR n) by (apply lt_0_INR; lia).
  assert (In : forall a, (a < n)%nat -> 0 < (INR a + 1/2) / INR n < 1).
  { intros a Ha. generalize (pos_INR a). intros. assert (INR a + 1 <= INR n) by (rewrite <- S_INR; apply le_INR; lia). split.
    - apply Rdiv_lt_0_compat; lra.
    - apply Rmult_lt_reg_r with (INR n); auto. replace ((INR a + 1/2) / INR n * INR n) with (INR a + 1/2) by (field; lra). lra. }
  assert (B : forall a b, (a < n)%nat -> (b < n)%nat -> lo <= g (cx - 1/2 + (INR b + 1/2) / INR n) (cy - 1/2 + (INR a + 1/2) / INR n) <= hi).
  { intros a b Ha Hb. generalize (In a Ha) (In b Hb). intros. apply H; apply Rabs_le; lra. }
  assert (C : forall c, sum2 n n (fun _ _ => c * 1) = c * (INR n * INR n)).
  { intros c. rewrite sum2_mult. f_equal. unfold sum2. rewrite !sum_to_const. ring. }
  assert (L : sum2 n n (fun _ _ => lo * 1) <= sum2 n n (fun a b => g (cx - 1/2 + (INR b + 1/2) / INR n) (cy - 1/2 + (INR a + 1/2) / INR n)))
    by (apply sum2_le; intros a b Ha Hb; generalize (B a b Ha Hb); lra).
  assert (U : sum2 n n (fun a b => g (cx - 1/2 + (INR b + 1/2) / INR n) (cy - 1/2 + (INR a + 1/2) / INR n)) <= sum2 n n (fun _ _ => hi * 1))
    by (apply sum2_le; intros a b Ha Hb; generalize (B a b Ha Hb); lra).
  rewrite C in L, U. assert (0 < INR n * INR n) by nra. split; apply Rmult_le_reg_r with (INR n * INR n); auto.
  - match goal with |- _ <= ?a / ?b * ?b => replace (a / b * b) with a by (field; lra) end. exact L.
  - match goal with |- ?a / ?b * ?b <= _ => replace (a / b * b) with a by (field; lra) end. exact U.
Qed.

Theorem rendered_bounds dblquad f g size flag k center nx ny x0 y0 m : integrates dblquad -> real_function f g -> continuous2 g ->
  size_means size flag nx ny -> origin_is center nx ny x0 y0 -> (0 <= nx)%Z -> (0 <= ny)%Z -> (0 < k)%Z ->
  rendered dblquad f size flag k center m ->
  exists v, image_of m (Z.to_nat ny) (Z.to_nat nx) v /\
    forall j i lo hi, (j < Z.to_nat ny)%nat -> (i < Z.to_nat nx)%nat ->
      (forall u w, Rabs (u - (x0 + INR i)) <= 1/2 -> Rabs (w - (y0 + INR j)) <= 1/2 -> lo <= g u w <= hi) -> lo <= v j i <= hi.
Proof.
  intros HI Hf G Hs Ho Nx Ny Hk [mode Hm E|E].
  - destruct mode; [| | |contradiction].
    + destruct (center_pixels f g size flag k center nx ny x0 y0) as (m' & E' & I); auto. assert (m' = m) as <- by congruence.
      eexists. split; [exact I|]. intros j i lo hi _ _ H. apply H; rewrite Rminus_eq_0, Rabs_R0; lra.
    + destruct (bilinear_pixels f g size flag k center nx ny x0 y0) as (m' & E' & I); auto. assert (m' = m) as <- by congruence.
      eexists. split; [exact I|]. intros j i lo hi _ _ H. cbv zeta.
      assert (C : forall p q, (p = 1/2 \/ p = - (1/2)) -> (q = 1/2 \/ q = - (1/2)) -> lo <= g (x0 + INR i + p) (y0 + INR j + q) <= hi).
      { intros p q Hp Hq. apply H; match goal with |- Rabs ?a <= _ => first [replace a with p by ring | replace a with q by ring] end; apply Rabs_le; lra. }
      generalize (C (1/2) (1/2) ltac:(lra) ltac:(lra)) (C (1/2) (- (1/2)) ltac:(lra) ltac:(lra)) (C (- (1/2)) (1/2) ltac:(lra) ltac:(lra)) (C (- (1/2)) (- (1/2)) ltac:(lra) ltac:(lra)).
      unfold Rminus. intros. lra.
    + destruct (oversample_pixels f g size flag k center nx ny x0 y0) as (m' & E' & I); auto. assert (m' = m) as <- by congruence.
      eexists. split; [exact I|]. intros j i lo hi _ _ H. apply mean_bounds; [lia|]. exact H.
  - destruct (integrate_bounds dblquad f g size flag center nx ny x0 y0 0 0) as (m' & v & E' & I & _); auto. assert (m' = m) as -> by congruence.
    exists v. split; auto. intros j i lo hi Hj Hi H.
    destruct (integrate_bounds dblquad f g size flag center nx ny x0 y0 lo hi) as (m2 & v2 & E2 & I2 & B); auto. assert (m2 = m) as -> by congruence.
    destruct I as (_ & _ & I). destruct I2 as (_ & _ & I2). specialize (I j i Hj Hi). rewrite (I2 j i Hj Hi) in I. injection I as <-.
    apply B. intros. apply H; lra.
Qed.

(** ** so a rendered profile is drawn within the diagonal of a pixel *)
Definition blur (elong : R) : R := sqrt 2 * Rmax 1 elong.
Lemma blur_pos elong : 0 <= blur elong.
Proof. unfold blur. apply Rmult_le_pos; [apply sqrt_pos|]. generalize (Rmax_l 1 elong). lra. Qed.

Lemma drawn dblquad f s X Y elong t size flag k center nx ny x0 y0 m : integrates dblquad -> 0 < elong -> falls s ->
  real_function f (fun u w => s (ell_radius X Y elong t u w)) -> continuous2 (fun u w => s (ell_radius X Y elong t u w)) ->
  size_means size flag nx ny -> origin_is center nx ny x0 y0 -> (0 <= nx)%Z -> (0 <= ny)%Z -> (0 < k)%Z ->
  rendered dblquad f size flag k center m ->
  exists v, image_of m (Z.to_nat ny) (Z.to_nat nx) v /\
    drawn_within (blur elong) s (X - x0) (Y - y0) elong t (Z.to_nat ny) (Z.to_nat nx) v.
Proof.
  intros HI He [S1 S2] Hf G Hs Ho Nx Ny Hk Hm.
  destruct (rendered_bounds dblquad f _ size flag k center nx ny x0 y0 m HI Hf G Hs Ho Nx Ny Hk Hm) as (v & I & B).
  exists v. split; auto. intros j i u w Hj Hi Hu Hw. apply B; auto. intros u' w' Hu' Hw'. rewrite rad_shift.
  assert (C : Rabs (ell_radius X Y elong t u' w' - ell_radius X Y elong t (x0 + u) (y0 + w)) <= blur elong).
  { unfold blur. replace (sqrt 2 * Rmax 1 elong) with (sqrt 2 * 1 * Rmax 1 elong) by ring. apply rad_close; auto; [lra| |];
      apply Rabs_le; apply Rabs_le_between in Hu'; apply Rabs_le_between in Hw'; apply Rabs_def2 in Hu; apply Rabs_def2 in Hw; lra. }
  apply Rabs_le_between in C. generalize (rad_nonneg X Y elong t u' w') (rad_nonneg X Y elong t (x0 + u) (y0 + w)). intros P Q. split; apply S2.
  - lra.
  - split; [apply Rmax_l|]. apply Rmax_lub; lra.
Qed.

Lemma image_finite m ny nx v : image_of m ny nx v -> finite_img m v /\ iny m = ny /\ inx m = nx.
Proof. intros (E1 & E2 & E3). split; auto. intros j i Hj Hi. apply E3; congruence. Qed.

Theorem rendered_fluxes dblquad f s X Y elong t size flag factor center nx ny x0 y0 m k rs : integrates dblquad -> 0 < elong -> falls s ->
  real_function f (fun u w => s (ell_radius X Y elong t u w)) -> continuous2 (fun u w => s (ell_radius X Y elong t u w)) ->
  size_means size flag nx ny -> origin_is center nx ny x0 y0 -> (0 <= nx)%Z -> (0 <= ny)%Z -> (0 < factor)%Z ->
  rendered dblquad f size flag factor center m ->
  (forall i, (i < List.length rs)%nat -> 0 < at_ rs i /\ on_image (X - x0) (Y - y0) (at_ rs i) (at_ rs i / elong) t (Z.to_nat ny) (Z.to_nat nx)) ->
  exists F A, radial_photometry exact_overlap k m (Fin (X - x0), Fin (Y - y0)) (map Fin rs) None None (Fin elong) (Fin t)
      = Ok (map Fin F, map Fin A, map (fun _ => NaN) rs) /\
    List.length F = List.length rs /\ List.length A = List.length rs /\
    forall i, (i < List.length rs)%nat ->
      Rabs (at_ A i - PI * at_ rs i * (at_ rs i / elong)) <= 5 / 10000000 /\
      forall I, flux_within s elong (at_ rs i) I ->
        Rabs (at_ F i - I) <= 2 * sqrt 2 * PI * at_ rs i * Rmax 1 (/ elong) * s 0 + 5 / 10000000.
Proof.
  intros HI He S Hf G Hs Ho Nx Ny Hk Hm Hrs.
  destruct (drawn dblquad f s X Y elong t size flag factor center nx ny x0 y0 m) as (v & I & D); auto.
  destruct (image_finite _ _ _ _ I) as (Fi & Ey & Ex). rewrite <- Ey, <- Ex in D, Hrs.
  destruct (galaxy_fluxes k m v (X - x0) (Y - y0) rs elong t (blur elong) s He (blur_pos elong) S Fi D Hrs) as (F & A & E & LF & LA & H).
  exists F, A. split; auto. split; auto. split; auto. intros i Hi. destruct (H i Hi) as [HA HF]. split; auto. intros J HJ.
  specialize (HF J HJ). replace (2 * sqrt 2 * PI * at_ rs i * Rmax 1 (/ elong) * s 0) with (2 * PI * at_ rs i / elong * blur elong * s 0); auto.
  unfold blur. replace (Rmax 1 (/ elong)) with (/ elong * Rmax 1 elong); [field; lra|].
  rewrite <- RmaxRmult by (left; now apply Rinv_0_lt_compat). rewrite Rinv_l by lra. rewrite Rmult_1_r. apply Rmax_comm.
Qed.

(** ** Sersic models *)
Lemma law_falls A re n : 0 <= A -> 0 < re -> 0 < n -> falls (sersic_law A re n (bnR n)).
Proof.
  intros HA Hre Hn. assert (Hb := bnR_pos n Hn). split.
  - intros p _. unfold sersic_law. apply Rmult_le_pos; auto. left. apply exp_pos.
  - intros p q H. unfold sersic_law. apply Rmult_le_compat_l; auto.
    assert (L : rpow (p / re) (1 / n) <= rpow (q / re) (1 / n)).
    { apply rpow_mono; [|apply Rdiv_lt_0_compat; lra]. assert (0 < / re) by now apply Rinv_0_lt_compat. unfold Rdiv. split; [apply Rmult_le_pos; lra|apply Rmult_le_compat_r; lra]. }
    destruct (Rle_lt_or_eq_dec _ _ L) as [K|K]; [left; apply exp_increasing; nra|rewrite K; lra].
Qed.

Lemma law_0 A re n : 0 < re -> sersic_law A re n (bnR n) 0 = A * exp (bnR n).
Proof. intros H. unfold sersic_law. replace (0 / re) with 0 by (field; lra). rewrite rpow_0. f_equal. f_equal. ring. Qed.

(** continuity from 0 on *)
Definition cont0 (s : R -> R) : Prop := forall p e, 0 <= p -> 0 < e -> exists d, 0 < d /\ forall q, 0 <= q -> Rabs (q - p) < d -> Rabs (s q - s p) < e.
Lemma rpow_cont b : 0 < b -> cont0 (fun p => rpow p b).
Proof.
  intros Hb p e Hp He. destruct (Req_dec p 0) as [->|N].
  - exists (rpow e (1 / b)). split; [now apply rpow_gt0|]. intros q Hq H. rewrite Rminus_0_r in H. rewrite Rabs_pos_eq in H by auto.
    rewrite rpow_0, Rminus_0_r, Rabs_pos_eq by apply rpow_nonneg. rewrite <- (rpow_inv_l e b) by lra. apply rpow_inc; auto.
  - assert (P : 0 < p) by lra.
    assert (C : continuity_pt (fun z => Rpower z b) p) by (apply derivable_continuous_pt; eexists; now apply derivable_pt_lim_power).
    destruct (C e He) as (d & Hd & H). exists (Rmin d p). split; [apply Rmin_pos; auto|]. intros q Hq Hqp.
    assert (Q1 : Rabs (q - p) < d) by (eapply Rlt_le_trans; [exact Hqp|apply Rmin_l]).
    assert (Q2 : Rabs (q - p) < p) by (eapply Rlt_le_trans; [exact Hqp|apply Rmin_r]). apply Rabs_def2 in Q2.
    rewrite !rpow_pos by lra. destruct (Req_dec q p) as [->|M]; [rewrite Rminus_eq_0, Rabs_R0; auto|].
    apply (H q). split; [split; [exact I|auto]|]. exact Q1.
Qed.
Lemma law_cont A re n b : 0 < re -> 0 < n -> cont0 (sersic_law A re n b).
Proof.
  intros Hre Hn p e Hp He.
  set (h := fun z => A * exp (- b * (z - 1))).
  assert (C : continuity_pt h (rpow (p / re) (1 / n))) by (apply derivable_continuous_pt; unfold h; reg).
  destruct (C e He) as (d1 & Hd1 & H1).
  assert (Q0 : 0 <= p / re) by (apply Rmult_le_pos; [auto|left; now apply Rinv_0_lt_compat]).
  destruct (rpow_cont (1 / n) ltac:(apply Rdiv_lt_0_compat; lra) (p / re) d1 Q0 Hd1) as (d2 & Hd2 & H2).
  exists (d2 * re). split; [nra|]. intros q Hq Hqp. change (Rabs (h (rpow (q / re) (1 / n)) - h (rpow (p / re) (1 / n))) < e).
  assert (Q1 : 0 <= q / re) by (apply Rmult_le_pos; [auto|left; now apply Rinv_0_lt_compat]).
  assert (Q2 : Rabs (q / re - p / re) < d2).
  { replace (q / re - p / re) with ((q - p) / re) by (field; lra). unfold Rdiv. rewrite Rabs_mult, (Rabs_pos_eq (/ re)) by (left; now apply Rinv_0_lt_compat).
    apply Rmult_lt_reg_r with re; auto. replace (Rabs (q - p) * / re * re) with (Rabs (q - p)) by (field; lra). exact Hqp. }
  specialize (H2 _ Q1 Q2). destruct (Req_dec (rpow (q / re) (1 / n)) (rpow (p / re) (1 / n))) as [->|M]; [rewrite Rminus_eq_0, Rabs_R0; auto|].
  apply (H1 (rpow (q / re) (1 / n))). split; [split; [exact I|auto]|]. exact H2.
Qed.
Lemma radial_cont s X Y elong t : 0 < elong -> cont0 s -> continuous2 (fun u w => s (ell_radius X Y elong t u w)).
Proof.
  intros He C u w e Hpe. destruct (C (ell_radius X Y elong t u w) e (rad_nonneg _ _ _ _ _ _) Hpe) as (d & Hd & H).
  assert (K : 0 < sqrt 2 * Rmax 1 elong).
  { apply Rmult_lt_0_compat; [apply sqrt_lt_R0; lra|]. generalize (Rmax_l 1 elong). lra. }
  exists (d / (2 * (sqrt 2 * Rmax 1 elong))). split; [apply Rdiv_lt_0_compat; lra|]. intros u' w' Hu Hw. apply H; [apply rad_nonneg|].
  eapply Rle_lt_trans; [apply (rad_close X Y elong t u w u' w' (d / (2 * (sqrt 2 * Rmax 1 elong)))); auto; try lra|].
  - left. apply Rdiv_lt_0_compat; lra.
  - replace (sqrt 2 * (d / (2 * (sqrt 2 * Rmax 1 elong))) * Rmax 1 elong) with (d / 2) by (field; split; [apply Rgt_not_eq; generalize (Rmax_l 1 elong); lra|apply Rgt_not_eq, sqrt_lt_R0; lra]). lra.
Qed.

(** GenSersic2D with c_0 = 0 is the profile at the elliptical radius *)
Lemma sersic_radial A re n X Y e t : 0 < re -> 0 < n -> e < 1 ->
  real_function (fun x y => gen_sersic2d x y (Fin A) (Fin re) (Fin n) (Fin X) (Fin Y) (Fin e) (Fin t) (Fin 0))
    (fun u w => sersic_law A re n (bnR n) (ell_radius X Y (/ (1 - e)) t u w)).
Proof.
  intros Hre Hn He u w. destruct (gen_sersic_spec A re n X Y e t 0) as (f & F1 & F2 & _); auto; [lra|].
  rewrite F1. f_equal. rewrite (F2 eq_refl (bnR n)) by now apply bnR_half. unfold sersic2d, sersic_law, ell_radius.
  do 5 f_equal.
  set (a := along X Y t u w). set (b := across X Y t u w).
  replace (a / re * (a / re) + b / ((1 - e) * re) * (b / ((1 - e) * re))) with ((a ^ 2 + (/ (1 - e) * b) ^ 2) * (/ re * / re)) by (field; lra).
  assert (0 < / re) by now apply Rinv_0_lt_compat.
  rewrite sqrt_mult by nra. rewrite sqrt_square by lra. reflexivity.
Qed.

Lemma sersic_gains A re n e r : 0 <= A -> 0 < re -> 0 < n -> e < 1 ->
  gains_at_most (sersic_law A re n (bnR n)) (PI * (1 - e)) r (enclR A re n e) /\
  gains_at_least (sersic_law A re n (bnR n)) (PI * (1 - e)) r (enclR A re n e).
Proof.
  intros HA Hre Hn He. apply derivative_gains.
  - apply Rmult_le_pos; [left; apply PI_RGT_0|lra].
  - now apply law_falls.
  - apply encl_zero.
  - apply encl_limit0; auto.
  - intros x Hx. replace (2 * (PI * (1 - e)) * x * sersic_law A re n (bnR n) x) with (2 * PI * x * (1 - e) * sersic_law A re n (bnR n) x) by ring.
    now apply encl_derive.
Qed.

Theorem sersic_measured dblquad A re n X Y e t size flag factor center nx ny x0 y0 m k rs b : integrates dblquad ->
  0 <= A -> 0 < re -> 0 < n -> 0 <= e < 1 -> half_light n b ->
  size_means size flag nx ny -> origin_is center nx ny x0 y0 -> (0 <= nx)%Z -> (0 <= ny)%Z -> (0 < factor)%Z ->
  rendered dblquad (fun x y => gen_sersic2d x y (Fin A) (Fin re) (Fin n) (Fin X) (Fin Y) (Fin e) (Fin t) (Fin 0)) size flag factor center m ->
  (forall i, (i < List.length rs)%nat -> 0 < at_ rs i /\ on_image (X - x0) (Y - y0) (at_ rs i) (at_ rs i * (1 - e)) t (Z.to_nat ny) (Z.to_nat nx)) ->
  exists F Ar, radial_photometry exact_overlap k m (Fin (X - x0), Fin (Y - y0)) (map Fin rs) None None (Fin (/ (1 - e))) (Fin t)
      = Ok (map Fin F, map Fin Ar, map (fun _ => NaN) rs) /\
    List.length F = List.length rs /\ List.length Ar = List.length rs /\
    forall i, (i < List.length rs)%nat -> exists L,
      sersic_enclosed (Fin (at_ rs i)) (Fin A) (Fin re) (Fin n) (Fin e) = Fin L /\
      Rabs (at_ F i - L) <= 2 * sqrt 2 * PI * at_ rs i * (A * exp b) + 5 / 10000000 /\
      Rabs (at_ Ar i - PI * (at_ rs i * at_ rs i) * (1 - e)) <= 5 / 10000000.
Proof.
  intros HI HA Hre Hn He Hb Hs Ho Nx Ny Hk Hm Hrs. rewrite (half_light_unique n b Hn Hb).
  assert (Hel : 0 < / (1 - e)) by (apply Rinv_0_lt_compat; lra).
  assert (Ed : forall r, r / / (1 - e) = r * (1 - e)) by (intros; field; lra).
  destruct (drawn dblquad _ (sersic_law A re n (bnR n)) X Y (/ (1 - e)) t size flag factor center nx ny x0 y0 m HI Hel
     (law_falls A re n HA Hre Hn) (sersic_radial A re n X Y e t Hre Hn (proj2 He)) (radial_cont _ X Y _ t Hel (law_cont A re n (bnR n) Hre Hn)) Hs Ho Nx Ny Hk Hm) as (v & I & D).
  destruct (image_finite _ _ _ _ I) as (Fi & Ey & Ex). rewrite <- Ey, <- Ex in D, Hrs.
  apply (rp_list exact_overlap k m (Fin (X - x0), Fin (Y - y0)) rs None None (Fin (/ (1 - e))) (Fin t) (fun r f a => exists L,
      sersic_enclosed (Fin r) (Fin A) (Fin re) (Fin n) (Fin e) = Fin L /\
      Rabs (f - L) <= 2 * sqrt 2 * PI * r * (A * exp (bnR n)) + 5 / 10000000 /\
      Rabs (a - PI * (r * r) * (1 - e)) <= 5 / 10000000)).
  intros i Hi. destruct (Hrs i Hi) as [Hr On]. rewrite <- Ed in On.
  destruct (exact_value k m v (X - x0) (Y - y0) (at_ rs i) (/ (1 - e)) t) as (f & a & E & RA & RF); auto.
  exists f, a. split; auto. exists (enclR A re n e (at_ rs i)). split; [apply enclosed_fin; auto; lra|]. split.
  - eapply rounded_close; [exact RF|]. rewrite <- (law_0 A re n Hre).
    destruct (sersic_gains A re n e (at_ rs i) HA Hre Hn (proj2 He)) as [Gm Gl].
    replace (PI * (1 - e)) with (PI / / (1 - e)) in Gm, Gl by (field; lra).
    generalize (image_flux_close (X - x0) (Y - y0) (/ (1 - e)) t (iny m) (inx m) v (at_ rs i) (blur (/ (1 - e))) (sersic_law A re n (bnR n)) (enclR A re n e)
      Hr Hel (blur_pos _) (law_falls A re n HA Hre Hn) On D (encl_zero A re n e) Gm Gl). intros C.
    eapply Rle_trans; [exact C|]. right. unfold blur. rewrite Rmax_right.
    + field. lra.
    + rewrite <- Rinv_1. apply Rinv_le_contravar; lra.
  - apply rounded6_near in RA. rewrite Ed in RA. replace (PI * (at_ rs i * at_ rs i) * (1 - e)) with (PI * at_ rs i * (at_ rs i * (1 - e))) by ring. exact RA.
Qed.
