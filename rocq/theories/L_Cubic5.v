(** Convergence of the measurements of drawn galaxies with cubic splines. *)
From Coq Require Import String.
From Verif Require Import Base Num Numpy M_Utils M_Photometry S_Photometry M_Petrosian M_Sersic Gamma S_Sersic S_Utils S_Petrosian S_PetroR S_Conv S_Robust S_Noise S_Spline S_Cubic
  M_PSF S_PSF M_Fitting S_Fitting M_Integrate S_Integrate M_Exact S_Exact S_Galaxy S_Render S_Image
  L_Numpy L_Sersic L_Petrosian L_Conv L_Conv2 L_Conv3 L_Galaxy3 L_Galaxy4 L_Spline L_Spline2 L_Spline3 L_Spline4 L_Cubic L_Cubic3 L_Cubic4.
Local Open Scope list_scope.
Local Open Scope R_scope.

Lemma meas_scale K A re n e a b : 0 < A -> 0 < re -> 0 < n -> e < 1 -> 0 < K -> 0 < a < b ->
  measured A (K * re) n e (K * a) (K * b) = measured A re n e a b.
Proof.
  intros HA Hre Hn He HK H. unfold measured. rewrite !encl_scale by lra.
  pose proof (F_pos A re n e HA Hre Hn He b ltac:(lra)). pose proof (area_inc e He a b ltac:(lra)) as Ai. pose proof (area_pos e He b ltac:(lra)) as Ap.
  assert (Ea : forall x, ellipse_area e (K * x) = K * K * ellipse_area e x) by (intros; unfold ellipse_area; ring). rewrite !Ea.
  field. repeat split; try lra. rewrite <- Rmult_minus_distr_l. apply Rmult_integral_contrapositive_currified; [|lra]. apply Rgt_not_eq. nra.
Qed.
Lemma map_fin_inj (l m : list R) : map Fin l = map Fin m -> l = m.
Proof.
  revert m. induction l as [|x l IH]; intros [|y m] H; try discriminate; auto. cbn in H. injection H as E1 E2. f_equal; auto.
Qed.

Section Image.
  Variables A re n e : R.
  Hypothesis HA : 0 < A.
  Hypothesis Hre : 0 < re.
  Hypothesis Hn : 0 < n.
  Hypothesis He : 0 <= e < 1.
  Variable q : R.
  Hypothesis Hq : 0 < q.

  Definition measures (K X Y t x0 y0 : R) (m : img xr) (k : flavour) (rs F Ar : list R) : Prop :=
    radial_photometry exact_overlap k m (Fin (X - x0), Fin (Y - y0)) (map Fin (map (Rmult K) rs)) None None (Fin (/ (1 - e))) (Fin t)
      = Ok (map Fin F, map Fin Ar, map (fun _ => NaN) (map (Rmult K) rs)).

  Lemma image_calm w : 0 < w -> exists d, 0 < d /\ forall rs, (4 <= List.length rs)%nat -> increasing rs -> 0 < at_ rs 0 -> fine d (0 :: rs) ->
    steps_within q (0 :: rs) ->
    exists K0, 0 < K0 /\ forall K X Y t x0 y0 m k F Ar interp, K0 <= K -> shows_sersic A (K * re) n e X Y t (K * last_of rs) x0 y0 m ->
      measures K X Y t x0 y0 m k rs F Ar -> cubic_spline interp ->
      calm w (K * K * w) interp (map (Rmult K) rs) Ar F.
  Proof.
    intros Hw. set (c := (1 + 4 * q) * (2 * q) ^ 2).
    assert (Hc : 0 < c) by (unfold c; apply Rmult_lt_0_compat; [lra|apply pow_lt; lra]).
    set (w1 := w / c). assert (Hw1 : 0 < w1) by now apply Rdiv_lt_0_compat.
    assert (Ec : c * w1 = w) by (unfold w1; field; lra).
    destruct (close_samples A re n e HA Hre Hn (proj2 He) (w1 / 2) ltac:(lra)) as (d & Hd & H). exists d. split; auto.
    intros rs L4 I P0 Fi St. destruct (H rs ltac:(lia) I P0 Fi) as [J1 J2].
    destruct (image_data_full A re n e (w1 / 16) (w1 / 8) rs HA Hre Hn He ltac:(lra) ltac:(lra) ltac:(lia) I P0) as (K0 & HK0 & ID).
    exists K0. split; auto. intros K X Y t x0 y0 m k F Ar interp HK Sh E Cs. assert (HKp : 0 < K) by lra.
    destruct (ID K X Y t x0 y0 m k (mkset (Fin 0) (Fin 0) (Fin 0) (Fin 0) None 0) HK Sh) as (F' & Ar' & V & E' & LF & _ & LV & HV & HF & LAr & VV).
    unfold measures in E. rewrite E in E'. injection E' as EF EA. apply map_fin_inj in EF, EA. subst F' Ar'.
    pose proof (q_ge q rs ltac:(lia) P0 St) as Q1.
    assert (HK2 : 0 < K * K) by nra.
    apply (calm_of interp q w (K * K * w) w1 (K * K * w1) _ _ _ V); auto; try (fold c; nra).
    - now rewrite map_length.
    - now apply scaled_inc.
    - rewrite at_scale. now apply Rmult_lt_0_compat.
    - replace (0 :: map (Rmult K) rs) with (map (Rmult K) (0 :: rs)) by (cbn [map]; now rewrite Rmult_0_r).
      intros i j Hi Hj. rewrite map_length in Hi, Hj. rewrite !at_scale. pose proof (St i j Hi Hj). nra.
    - now rewrite map_length.
    - intros i Hi. rewrite LF in Hi. pose proof (HF i ltac:(lia)) as B1. pose proof (HF (S i) ltac:(lia)) as B2.
      rewrite encl_scale in B1, B2 by lra. pose proof (J1 i Hi) as B3. apply near_le in B1, B2.
      apply Rabs_le_iff in B3. apply Rabs_le_iff. nra.
    - assert (J : jumps_within (w1 / 2) (1 :: V)).
      { apply J2; auto. intros i Hi. pose proof (HV i Hi) as B. rewrite meas_scale in B; auto; [lra|lra|].
        split; [apply at_pos; auto; lia|now apply I]. }
      intros i Hi. pose proof (J i Hi). lra.
    - now apply (samples_at rs); auto; lia.
  Qed.

  Variables rt eta : R.
  Hypothesis Hrt : 0 < rt.
  Hypothesis Heta : petrosian_profile (Fin rt) (Fin re) (Fin n) = Fin eta.

  Theorem image_spline_radius eps : 0 < eps ->
    exists d, 0 < d /\ forall rs, (2 < List.length rs)%nat -> increasing rs -> 0 < at_ rs 0 -> fine d (0 :: rs) -> steps_within q (0 :: rs) ->
      rt + eps <= last_of rs ->
    exists K0, forall K X Y t x0 y0 m k kd mk s, K0 <= K -> shows_sersic A (K * re) n e X Y t (K * last_of rs) x0 y0 m ->
      s_eta s = Fin eta -> s_kind s = Some kd -> cubic_spline (mk kd) -> last_of rs < d * INR (s_num s - 1) ->
      exists F Ar o a, measures K X Y t x0 y0 m k rs F Ar /\ Petrosian_new (plain (map (Rmult K) rs) Ar F) s = Ok o /\
        read mk o A_r_petrosian = Ok (VNum (Fin a)) /\ Rabs (a / K - rt) < eps.
  Proof.
    intros Heps. destruct (petrosian_of_image2 A re n e rt eta eps HA Hre Hn He Hrt Heta Heps) as (d1 & w & Hd1 & Hw & H).
    destruct (image_calm w Hw) as (d2 & Hd2 & C).
    set (d := Rmin d1 (Rmin d2 (rt / 4))). assert (0 < d) by (unfold d; repeat apply Rmin_pos; lra).
    assert (G1 : d <= d1) by apply Rmin_l. assert (G2 : d <= d2) by (unfold d; eapply Rle_trans; [apply Rmin_r|apply Rmin_l]).
    assert (G3 : d <= rt / 4) by (unfold d; eapply Rle_trans; [apply Rmin_r|apply Rmin_r]).
    exists d. split; auto. intros rs Len I P0 Fi St La.
    destruct (H rs Len I P0 ltac:(eapply fine_le; eauto) La) as (K1 & H1).
    destruct (C rs ltac:(apply (many d rs rt); auto; [lia|lra]) I P0 ltac:(eapply fine_le; eauto) St) as (K2 & HK2 & C1).
    exists (Rmax K1 K2). intros K X Y t x0 y0 m k kd mk s HK Sh Es Ek Cs Hnum. pose proof (Rmax_l K1 K2). pose proof (Rmax_r K1 K2).
    destruct (H1 K X Y t x0 y0 m k mk s ltac:(lra) Sh Es) as (F & Ar & E & G).
    { intros k' _. apply Rlt_le_trans with (1 := Hnum). apply Rmult_le_compat_r; [apply pos_INR|auto]. }
    destruct G as (o & a & G). 
    { intros k' Ek'. rewrite Ek in Ek'. injection Ek' as <-. apply (C1 K X Y t x0 y0 m k F Ar (mk kd)); auto. lra. }
    exists F, Ar, o, a. split; [exact E|exact G].
  Qed.

  Variables epsilon ef : R.
  Hypothesis Hep : 0 < epsilon.

  Lemma by_image (reach : R) (Q : R -> (kind -> list xr -> list xr -> result (xr -> xr)) -> psettings xr -> petrosian xr -> Prop) : rt <= reach ->
    (exists d w, 0 < d /\ 0 < w /\ forall rs, (2 < List.length rs)%nat -> increasing rs -> 0 < at_ rs 0 -> fine d (0 :: rs) -> reach <= last_of rs ->
     exists K0, forall K X Y t x0 y0 m k kd mk s, K0 <= K -> shows_sersic A (K * re) n e X Y t (K * last_of rs) x0 y0 m ->
       set_to eta epsilon ef d rs kd s ->
       exists F Ar, measures K X Y t x0 y0 m k rs F Ar /\
         (calm w (K * K * w) (mk kd) (map (Rmult K) rs) Ar F -> exists o, Petrosian_new (plain (map (Rmult K) rs) Ar F) s = Ok o /\ Q K mk s o)) ->
    exists d, 0 < d /\ forall rs, (2 < List.length rs)%nat -> increasing rs -> 0 < at_ rs 0 -> fine d (0 :: rs) -> steps_within q (0 :: rs) -> reach <= last_of rs ->
     exists K0, forall K X Y t x0 y0 m k kd mk s, K0 <= K -> shows_sersic A (K * re) n e X Y t (K * last_of rs) x0 y0 m ->
       set_to eta epsilon ef d rs kd s -> cubic_spline (mk kd) ->
       exists F Ar o, measures K X Y t x0 y0 m k rs F Ar /\ Petrosian_new (plain (map (Rmult K) rs) Ar F) s = Ok o /\ Q K mk s o.
  Proof.
    intros Hr (d1 & w & Hd1 & Hw & H).
    destruct (image_calm w Hw) as (d2 & Hd2 & C).
    set (d := Rmin d1 (Rmin d2 (rt / 4))). assert (0 < d) by (unfold d; repeat apply Rmin_pos; lra).
    assert (G1 : d <= d1) by apply Rmin_l. assert (G2 : d <= d2) by (unfold d; eapply Rle_trans; [apply Rmin_r|apply Rmin_l]).
    assert (G3 : d <= rt / 4) by (unfold d; eapply Rle_trans; [apply Rmin_r|apply Rmin_r]).
    exists d. split; auto. intros rs Len I P0 Fi St La.
    destruct (H rs Len I P0 ltac:(eapply fine_le; eauto) La) as (K1 & H1).
    destruct (C rs ltac:(apply (many d rs rt); auto; [lia|lra]) I P0 ltac:(eapply fine_le; eauto) St) as (K2 & HK2 & C1).
    exists (Rmax K1 K2). intros K X Y t x0 y0 m k kd mk s HK Sh Se Cs. pose proof (Rmax_l K1 K2). pose proof (Rmax_r K1 K2).
    destruct (H1 K X Y t x0 y0 m k kd mk s ltac:(lra) Sh) as (F & Ar & E & G).
    { destruct Se as (S1 & S2 & S3 & S4 & S5). split; auto. split; auto. split; auto. split; auto.
      apply Rlt_le_trans with (1 := S5). apply Rmult_le_compat_r; [apply pos_INR|auto]. }
    destruct G as (o & G).
    { apply (C1 K X Y t x0 y0 m k F Ar (mk kd)); auto. lra. }
    exists F, Ar, o. split; [exact E|exact G].
  Qed.

  Theorem image_spline_fraction f r eps : 0 < f / ef -> true_radius A re n e rt epsilon ef f r -> 0 < eps ->
    exists d, 0 < d /\ forall rs, (2 < List.length rs)%nat -> increasing rs -> 0 < at_ rs 0 -> fine d (0 :: rs) -> steps_within q (0 :: rs) ->
      Rmax rt (Rmax r (epsilon * rt)) + eps <= last_of rs ->
    exists K0, forall K X Y t x0 y0 m k kd mk s, K0 <= K -> shows_sersic A (K * re) n e X Y t (K * last_of rs) x0 y0 m ->
      set_to eta epsilon ef d rs kd s -> cubic_spline (mk kd) ->
    exists F Ar o, measures K X Y t x0 y0 m k rs F Ar /\ Petrosian_new (plain (map (Rmult K) rs) Ar F) s = Ok o /\
      forall a, radius_of s f a -> exists b, read mk o a = Ok (VNum (Fin b)) /\ Rabs (b / K - r) < eps.
  Proof.
    intros Hf Hr Heps.
    apply (by_image _ (fun K mk s o => forall a, radius_of s f a -> exists b, read mk o a = Ok (VNum (Fin b)) /\ Rabs (b / K - r) < eps)).
    { pose proof (Rmax_l rt (Rmax r (epsilon * rt))); lra. }
    exact (image_fraction2 A re n e rt eta epsilon ef HA Hre Hn He Hrt Heta Hep f r eps Hf Hr Heps).
  Qed.
  Theorem image_spline_flux f r Ft eps : 0 < f / ef -> true_radius A re n e rt epsilon ef f r ->
    sersic_enclosed (Fin r) (Fin A) (Fin re) (Fin n) (Fin e) = Fin Ft -> 0 < eps ->
    exists d, 0 < d /\ forall rs, (2 < List.length rs)%nat -> increasing rs -> 0 < at_ rs 0 -> fine d (0 :: rs) -> steps_within q (0 :: rs) ->
      Rmax rt (Rmax r (epsilon * rt)) + eps <= last_of rs ->
    exists K0, forall K X Y t x0 y0 m k kd mk s, K0 <= K -> shows_sersic A (K * re) n e X Y t (K * last_of rs) x0 y0 m ->
      set_to eta epsilon ef d rs kd s -> cubic_spline (mk kd) ->
    exists F Ar o, measures K X Y t x0 y0 m k rs F Ar /\ Petrosian_new (plain (map (Rmult K) rs) Ar F) s = Ok o /\
      forall a, flux_of s f a -> exists v, read mk o a = Ok (VNum (Fin v)) /\ Rabs (v / (K * K) - Ft) < eps.
  Proof.
    intros Hf Hr HF Heps.
    apply (by_image _ (fun K mk s o => forall a, flux_of s f a -> exists v, read mk o a = Ok (VNum (Fin v)) /\ Rabs (v / (K * K) - Ft) < eps)).
    { pose proof (Rmax_l rt (Rmax r (epsilon * rt))); lra. }
    exact (image_flux2 A re n e rt eta epsilon ef HA Hre Hn He Hrt Heta Hep f r Ft eps Hf Hr HF Heps).
  Qed.
  Theorem image_spline_concentration f1 f2 r1 r2 eps : 0 < f1 / ef -> 0 < f2 / ef ->
    true_radius A re n e rt epsilon ef f1 r1 -> true_radius A re n e rt epsilon ef f2 r2 -> 0 < eps ->
    exists d, 0 < d /\ forall rs, (2 < List.length rs)%nat -> increasing rs -> 0 < at_ rs 0 -> fine d (0 :: rs) -> steps_within q (0 :: rs) ->
      Rmax rt (Rmax (Rmax r1 r2) (epsilon * rt)) + eps <= last_of rs ->
    exists K0, forall K X Y t x0 y0 m k kd mk s, K0 <= K -> shows_sersic A (K * re) n e X Y t (K * last_of rs) x0 y0 m ->
      set_to eta epsilon ef d rs kd s -> cubic_spline (mk kd) ->
    exists F Ar o, measures K X Y t x0 y0 m k rs F Ar /\ Petrosian_new (plain (map (Rmult K) rs) Ar F) s = Ok o /\
      (exists a b c, read mk o (A_concentration (Fin f1) (Fin f2)) = Ok (VTriple (Fin a) (Fin b) (Fin c)) /\
         Rabs (a / K - r1) < eps /\ Rabs (b / K - r2) < eps /\ Rabs (c - 5 * (ln (r2 / r1) / ln 10)) < eps) /\
      forall a, concentration_of f1 f2 a -> exists c, read mk o a = Ok (VNum (Fin c)) /\
         Rabs (c - 5 * (ln (r2 / r1) / ln 10)) < eps.
  Proof.
    intros Hf1 Hf2 Hr1 Hr2 Heps.
    apply (by_image _ (fun K mk s o => (exists a b c, read mk o (A_concentration (Fin f1) (Fin f2)) = Ok (VTriple (Fin a) (Fin b) (Fin c)) /\
         Rabs (a / K - r1) < eps /\ Rabs (b / K - r2) < eps /\ Rabs (c - 5 * (ln (r2 / r1) / ln 10)) < eps) /\
      forall a, concentration_of f1 f2 a -> exists c, read mk o a = Ok (VNum (Fin c)) /\
         Rabs (c - 5 * (ln (r2 / r1) / ln 10)) < eps)).
    { pose proof (Rmax_l rt (Rmax (Rmax r1 r2) (epsilon * rt))); lra. }
    exact (image_concentration2 A re n e rt eta epsilon ef HA Hre Hn He Hrt Heta Hep f1 f2 r1 r2 eps Hf1 Hf2 Hr1 Hr2 Heps).
  Qed.
End Image.
