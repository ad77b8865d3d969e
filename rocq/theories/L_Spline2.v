(** Radii, fluxes and concentrations with interpolation that overshoots a little. *)
From Verif Require Import Base Num Numpy M_Utils M_Petrosian M_Sersic Gamma S_Sersic S_Utils S_Petrosian S_PetroR S_Conv S_Spline
  L_Numpy L_Utils L_Utils3 L_Sersic L_Petrosian L_PetroR L_FracR L_Conv L_Conv2 L_Conv3 L_Spline.
Local Open Scope R_scope.

(** interpolated fluxes are close to the true ones *)
Section Sersic.
  Variables A re n e : R.
  Hypothesis HA : 0 < A.
  Hypothesis Hre : 0 < re.
  Hypothesis Hn : 0 < n.
  Hypothesis He : e < 1.
  Notation F := (enclR A re n e).

  (** a sampled curve of growth *)
  Section Data.
    Variables (mk : kind -> list xr -> list xr -> result (xr -> xr)) (k : kind) (rs : list R) (d w : R).
    Hypothesis Len : (2 < length rs)%nat.
    Hypothesis Irs : increasing rs.
    Hypothesis P0 : 0 < at_ rs 0.
    Hypothesis Fi : fine d (0 :: rs).
    Hypothesis Hd : 0 < d.
    Notation L := (map F rs).
    Hypothesis NO : overshoots_within w (mk k) rs L.

    Lemma nearly_flux t z : nearly w rs L t z -> F (Rmax 0 (t - d)) - w <= z <= F (t + d) + w.
    Proof.
      intros (z' & (i & i' & Hi & Hi' & Hx & B) & Cz). pose proof (near_le _ _ _ Cz). rewrite !at_map in B by lia.
      assert (at_ rs i' - at_ rs i < d).
      { assert (i' = i \/ i' = S i) as [->| ->] by lia; [lra|]. apply (fine_rs rs d Len Fi i). lia. }
      pose proof (at_pos rs i P0 Irs ltac:(lia)). pose proof (at_pos rs i' P0 Irs ltac:(lia)).
      assert (F (Rmax 0 (t - d)) <= F (at_ rs i)).
      { apply (F_mono A re n e HA Hre Hn He). split; [apply Rmax_l|]. apply Rmax_lub; lra. }
      assert (F (Rmax 0 (t - d)) <= F (at_ rs i')).
      { apply (F_mono A re n e HA Hre Hn He). split; [apply Rmax_l|]. apply Rmax_lub; lra. }
      pose proof (F_mono A re n e HA Hre Hn He (at_ rs i) (t + d) ltac:(lra)). pose proof (F_mono A re n e HA Hre Hn He (at_ rs i') (t + d) ltac:(lra)).
      destruct B; lra.
    Qed.
    Lemma oracle_flux : exists f, mk k (map Fin rs) (map Fin L) = Ok f /\
      forall t, at_ rs 0 <= t <= last_of rs -> exists z, f (Fin t) = Fin z /\ nearly w rs L t z.
    Proof.
      destruct NO as (f & Ef & Hf). exists f. split; auto.
      intros t Ht. destruct (find_step rs t ltac:(lia) Ht) as (i & Hi & Hx).
      destruct (Hf i t Hi Hx) as (z & z' & Ez & B & Cz). exists z. split; auto. exists z'. split; auto. exists i, (S i). repeat split; auto; try lia; apply Hx.
    Qed.
  End Data.

  Lemma frac_conv rt epsilon ef frac r eps : 0 < rt -> 0 < epsilon -> 0 < frac / ef -> 0 < r -> 0 < eps ->
    F r = F (epsilon * rt) * (frac / ef) ->
    exists d t w, 0 < d /\ 0 < t /\ 0 < w /\ forall mk k num rs a pe,
      (2 < length rs)%nat -> increasing rs -> 0 < at_ rs 0 -> fine d (0 :: rs) ->
      r + eps <= last_of rs -> epsilon * rt + eps <= last_of rs ->
      overshoots_within w (mk k) rs (map F rs) -> last_of rs < d * INR (num - 1) -> Rabs (a - rt) < t ->
      exists b, fraction_to_r mk (Fin frac) (map Fin rs) (map Fin (map F rs)) (Fin a) None pe (Fin epsilon) (Fin ef) (Some k) num
          = Ok (Fin b, NaN) /\ Rabs (b - r) < eps /\ at_ rs 0 <= b <= last_of rs.
  Proof.
    intros Hrt Hep Hq Hr Heps Eq. set (q0 := frac / ef) in *.
    assert (E0 : ef <> 0).
    { intros ->. unfold q0, Rdiv in Hq. rewrite Rinv_0, Rmult_0_r in Hq. lra. }
    set (s0 := Rmax 0 (r - eps / 2)).
    assert (Hs0 : 0 <= s0 < r) by (split; [apply Rmax_l|apply Rmax_lub_lt; lra]).
    pose proof (encl_inc A re n e s0 r HA Hre Hn He Hs0) as Hm.
    set (m := (F r - F s0) / 2). assert (Em : 2 * m = F r - F s0) by (unfold m; field). assert (0 < m) by (unfold m; lra).
    destruct (F_cont A re n e Hre Hn r Hr (m / 2) ltac:(lra)) as (d1 & Hd1 & C1).
    set (h := Rmin eps (d1 / 3)).
    assert (Hh : 0 < h) by (unfold h; apply Rmin_glb_lt; lra).
    assert (h <= eps) by apply Rmin_l. assert (h <= d1 / 3) by apply Rmin_r.
    pose proof (encl_inc A re n e r (r + h / 4) HA Hre Hn He ltac:(lra)) as H4.
    set (tau := Rmin (m / 4) ((F (r + h / 4) - F r) / 2)).
    assert (Ht : 0 < tau) by (unfold tau; apply Rmin_glb_lt; lra).
    assert (tau <= m / 4) by apply Rmin_l. assert (tau <= (F (r + h / 4) - F r) / 2) by apply Rmin_r.
    assert (Her : 0 < epsilon * rt) by now apply Rmult_lt_0_compat.
    assert (Htq : 0 < tau / q0) by now apply Rdiv_lt_0_compat.
    destruct (F_cont A re n e Hre Hn (epsilon * rt) Her (tau / q0 / 2) ltac:(lra)) as (d2 & Hd2 & C2).
    set (w := Rmin tau (tau / q0 / 2)).
    assert (Hw : 0 < w) by (unfold w; apply Rmin_glb_lt; lra).
    assert (w <= tau) by apply Rmin_l. assert (w <= tau / q0 / 2) by apply Rmin_r.
    set (d := Rmin (Rmin (h / 8) (d2 / 4)) (epsilon * rt / 8)).
    assert (Hd : 0 < d) by (unfold d; repeat apply Rmin_glb_lt; lra).
    assert (d <= h / 8) by (unfold d; eapply Rle_trans; apply Rmin_l).
    assert (d <= d2 / 4) by (unfold d; eapply Rle_trans; [apply Rmin_l|apply Rmin_r]).
    assert (d <= epsilon * rt / 8) by apply Rmin_r.
    set (t := Rmin (Rmin (d2 / 4) (epsilon * rt / 2)) (eps / 2) / epsilon).
    assert (Hte : epsilon * t = Rmin (Rmin (d2 / 4) (epsilon * rt / 2)) (eps / 2)) by (unfold t; field; lra).
    assert (Htp : 0 < t) by (unfold t; apply Rdiv_lt_0_compat; auto; repeat apply Rmin_glb_lt; lra).
    assert (Ht1 : epsilon * t <= d2 / 4) by (rewrite Hte; eapply Rle_trans; apply Rmin_l).
    assert (Ht2 : epsilon * t <= epsilon * rt / 2) by (rewrite Hte; eapply Rle_trans; [apply Rmin_l|apply Rmin_r]).
    assert (Ht3 : epsilon * t <= eps / 2) by (rewrite Hte; apply Rmin_r).
    exists d, t, w. split; auto. split; auto. split; auto. intros mk k num rs a pe Len I P0 Fi La1 La2 NO Hnum Ha.
    pose proof (first_small rs d Len Fi) as Fs.
    assert (Hae : epsilon * rt - epsilon * t < a * epsilon < epsilon * rt + epsilon * t).
    { apply Rabs_def2 in Ha. split.
      - replace (a * epsilon) with (epsilon * a) by ring. rewrite <- Rmult_minus_distr_l. apply Rmult_lt_compat_l; lra.
      - replace (a * epsilon) with (epsilon * a) by ring. rewrite <- Rmult_plus_distr_l. apply Rmult_lt_compat_l; lra. }
    assert (Hin : at_ rs 0 <= a * epsilon <= last_of rs) by lra.
    destruct (oracle_flux mk k rs w Len NO) as (f & Ef & Hf).
    destruct (frac_total mk frac rs (map F rs) a pe epsilon ef k num f) as (v & Ev); auto;
      [lia|now rewrite map_length|].
    destruct (frac_spec mk frac rs (map Fin (map F rs)) a pe epsilon ef (Some k) num v NaN) as (f' & g & q & Ef' & Rs & _ & Fr & Rg & _); auto.
    { lia. }
    { intros lo hi Hlo Hhi. rewrite (min_unique rs lo (at_ rs 0)), (max_unique rs hi (last_of rs)); auto.
      - apply inc_max; auto; lia. - apply inc_min; auto; lia. }
    cbn [kind_or_cubic] in Ef'. assert (f' = f) as -> by congruence.
    destruct (Hf (a * epsilon) Hin) as (z0 & Ez0 & Fz0). specialize (Fr z0 Ez0).
    pose proof (nearly_flux rs d w Len I P0 Fi Hd _ _ Fz0) as Bz0.
    rewrite Rmax_right in Bz0 by lra.
    assert (Hz0 : Rabs (z0 - F (epsilon * rt)) < tau / q0).
    { pose proof (C2 (a * epsilon - d)) as X1. pose proof (C2 (a * epsilon + d)) as X2.
      assert (Y1 : Rabs (a * epsilon - d - epsilon * rt) < d2) by (apply Rabs_def1; lra).
      assert (Y2 : Rabs (a * epsilon + d - epsilon * rt) < d2) by (apply Rabs_def1; lra).
      specialize (X1 Y1). specialize (X2 Y2). apply Rabs_def2 in X1. apply Rabs_def2 in X2. apply Rabs_def1; lra. }
    fold q0 in Fr. set (tgt := z0 * q0) in *.
    assert (Htgt : Rabs (tgt - F r) < tau).
    { unfold tgt. rewrite Eq. replace (z0 * q0 - F (epsilon * rt) * q0) with ((z0 - F (epsilon * rt)) * q0) by ring.
      rewrite Rabs_mult, (Rabs_pos_eq q0) by lra.
      apply Rmult_lt_reg_r with (/ q0); [now apply Rinv_0_lt_compat|]. rewrite Rmult_assoc, Rinv_r, Rmult_1_r by lra. exact Hz0. }
    apply Rabs_def2 in Htgt.
    destruct (resample_nearly mk (Some k) num rs (map F rs) d w ltac:(lia) I ltac:(now rewrite map_length) ltac:(lra)) with (g := g) (q := q)
      as (z & -> & Lg & Ng & Fz & Hit); auto.
    { intros k' E'. injection E' as <-. split; auto. lra. }
    { now apply fine_rs. }
    assert (Gp : forall j, (j < length g)%nat -> 0 < at_ g j).
    { intros j Hj. destruct (Fz j Hj) as (z' & (i & i' & Hi & Hi' & Hx & _) & _). pose proof (at_pos rs i P0 I ltac:(lia)). lra. }
    destruct (search_bounds true tgt g z v (r - eps) (r + h) m Ng Lg) as (b & -> & Hb); auto.
    - intros j Hj Hg. unfold gap. pose proof (nearly_flux rs d w Len I P0 Fi Hd _ _ (Fz j Hj)) as B. pose proof (Gp j Hj).
      assert (s0 = r - eps / 2) by (unfold s0; apply Rmax_right; lra).
      pose proof (F_mono A re n e HA Hre Hn He (at_ g j + d) s0 ltac:(lra)). lra.
    - intros j Hj Hg. unfold gap. pose proof (nearly_flux rs d w Len I P0 Fi Hd _ _ (Fz j Hj)) as B. pose proof (Gp j Hj).
      pose proof (F_mono A re n e HA Hre Hn He (at_ g j + d) (r + 2 * h) ltac:(lra)).
      pose proof (C1 (r + 2 * h)) as X1. rewrite Rabs_pos_eq in X1 by lra. specialize (X1 ltac:(lra)). apply Rabs_def2 in X1. lra.
    - destruct (Hit (r + h / 2) ltac:(lra) ltac:(lra)) as (j & Hj & Hg). exists j. split; auto. split; [lra|]. unfold gap.
      pose proof (nearly_flux rs d w Len I P0 Fi Hd _ _ (Fz j Hj)) as B. rewrite Rmax_right in B by lra.
      pose proof (F_mono A re n e HA Hre Hn He (r + h / 4) (at_ g j - d) ltac:(lra)). lra.
    - exists b. split; auto. split; [apply Rabs_def1; lra|]. apply Rg; auto; [apply inc_min|apply inc_max]; auto; lia.
  Qed.

  (** the flux read off at a radius close to [r] *)
  Lemma flux_conv r eps : 0 < r -> 0 < eps -> exists d w, 0 < d /\ 0 < w /\ forall (mk : kind -> list xr -> list xr -> result (xr -> xr)) k rs b,
      (2 < length rs)%nat -> increasing rs -> 0 < at_ rs 0 -> fine d (0 :: rs) -> overshoots_within w (mk k) rs (map F rs) ->
      Rabs (b - r) < d -> at_ rs 0 <= b <= last_of rs ->
      exists f z, mk k (map Fin rs) (map Fin (map F rs)) = Ok f /\ f (Fin b) = Fin z /\ Rabs (z - F r) < eps.
  Proof.
    intros Hr Heps. destruct (F_cont A re n e Hre Hn r Hr (eps / 2) ltac:(lra)) as (d2 & Hd2 & C2).
    set (d := Rmin (d2 / 3) (r / 3)). assert (Hd : 0 < d) by (unfold d; apply Rmin_glb_lt; lra).
    assert (d <= d2 / 3) by apply Rmin_l. assert (d <= r / 3) by apply Rmin_r.
    set (w := eps / 2). assert (Hw : 0 < w) by (unfold w; lra). assert (w = eps / 2) by reflexivity.
    exists d, w. split; auto. split; auto. intros mk k rs b Len I P0 Fi NO Hb Hin. apply Rabs_def2 in Hb.
    destruct (oracle_flux mk k rs w Len NO) as (f & Ef & Hf). destruct (Hf b Hin) as (z & Ez & Fz).
    exists f, z. split; auto. split; auto. pose proof (nearly_flux rs d w Len I P0 Fi Hd _ _ Fz) as B. rewrite Rmax_right in B by lra.
    pose proof (C2 (b - d)) as X1. pose proof (C2 (b + d)) as X2.
    assert (Y1 : Rabs (b - d - r) < d2) by (apply Rabs_def1; lra).
    assert (Y2 : Rabs (b + d - r) < d2) by (apply Rabs_def1; lra).
    specialize (X1 Y1). specialize (X2 Y2). apply Rabs_def2 in X1. apply Rabs_def2 in X2. apply Rabs_def1; lra.
  Qed.
End Sersic.

Lemma within_le w w' interp xs ys : w <= w' -> overshoots_within w interp xs ys -> overshoots_within w' interp xs ys.
Proof.
  intros H (f & Ef & Hf). exists f. split; auto. intros i x Hi Hx. destruct (Hf i x Hi Hx) as (y & z & Ey & B & C).
  exists y, z. split; auto. split; auto. lra.
Qed.
Lemma calm_le w w' v v' interp rs As L : w <= w' -> v <= v' -> calm w v interp rs As L -> calm w' v' interp rs As L.
Proof. intros H H' [C1 C2]. split; [eapply within_le; eauto|]. intros ys Hy. eapply within_le; eauto. Qed.

Section Objects.
  Variables A re n e rt eta epsilon ef : R.
  Hypothesis HA : 0 < A.
  Hypothesis Hre : 0 < re.
  Hypothesis Hn : 0 < n.
  Hypothesis He : e < 1.
  Hypothesis Hrt : 0 < rt.
  Hypothesis Heta : petrosian_profile (Fin rt) (Fin re) (Fin n) = Fin eta.
  Hypothesis Hep : 0 < epsilon.
  Notation F := (enclR A re n e).

  Lemma fraction_core f r eps : 0 < f / ef -> true_radius A re n e rt epsilon ef f r -> 0 < eps ->
    exists d w, 0 < d /\ 0 < w /\ forall d' w' mk rs L s, d' <= d -> 0 < d' -> w' <= w ->
      sampled A re n e d' (Rmax rt (Rmax r (epsilon * rt)) + eps) rs L -> settings_within mk eta epsilon ef d' w' e rs L s ->
      forall o, Petrosian_new (ideal_data e rs L) s = Ok o ->
      exists b, obj_fraction mk o (Fin f) = Ok (Fin b, NaN) /\ Rabs (b - r) < eps /\ at_ rs 0 <= b <= last_of rs.
  Proof.
    intros Hf Tr Heps. destruct (true_radius_eq A re n e rt epsilon ef Hre Hn Hrt Hep f r Tr) as [Hr Eq].
    destruct (frac_conv A re n e HA Hre Hn He rt epsilon ef f r eps Hrt Hep Hf Hr Heps Eq) as (d1 & t & w1 & Hd1 & Ht & Hw1 & C1).
    set (t' := Rmin t (Rmin eps rt)).
    assert (Ht' : 0 < t') by (unfold t'; repeat apply Rmin_glb_lt; auto).
    assert (t' <= t) by apply Rmin_l.
    assert (t' <= eps) by (unfold t'; eapply Rle_trans; [apply Rmin_r|apply Rmin_l]).
    assert (t' <= rt) by (unfold t'; eapply Rle_trans; [apply Rmin_r|apply Rmin_r]).
    destruct (petro_conv2 A re n e HA Hre Hn He rt t' Hrt ltac:(lra)) as (d2 & w2 & Hd2 & Hw2 & C2).
    exists (Rmin d1 d2), (Rmin w1 w2). split; [now apply Rmin_glb_lt|]. split; [now apply Rmin_glb_lt|].
    intros d w mk rs L s Hd Hd0 Hw (Len & I & P0 & Fi & La & SF) (k & (Es1 & Es2 & Es3 & Ek & Hnum) & [NO1 NO2]) o Eo.
    assert (w <= w1) by (eapply Rle_trans; [apply Hw|apply Rmin_l]).
    assert (w <= w2) by (eapply Rle_trans; [apply Hw|apply Rmin_r]).
    pose proof (fluxes_map A re n e rs L Hre Hn P0 I SF) as EL. rewrite EL in NO1.
    assert (d <= d1) by (eapply Rle_trans; [apply Hd|apply Rmin_l]).
    assert (d <= d2) by (eapply Rle_trans; [apply Hd|apply Rmin_r]).
    pose proof (Rmax_l rt (Rmax r (epsilon * rt))). pose proof (Rmax_r rt (Rmax r (epsilon * rt))).
    pose proof (Rmax_l r (epsilon * rt)). pose proof (Rmax_r r (epsilon * rt)).
    destruct (ideal_object A re n e rs L s HA Hre Hn He Len I P0 SF) as (V & E & LV & HV).
    assert (o = mkpet (ideal_data e rs L) s (NaN :: map Fin V) None) as -> by congruence.
    pose proof (pos_INR (s_num s - 1)).
    assert (last_of rs < d1 * INR (s_num s - 1)) by nra.
    assert (last_of rs < d2 * INR (s_num s - 1)) by nra.
    destruct (C2 mk (s_kind s) (s_num s) rs V Len I P0 ltac:(eapply fine_le; [|exact Fi]; lra) ltac:(lra) LV HV) as (a & Ea & Ha).
    { intros k' Ek'. assert (k' = k) as -> by congruence. split; auto.
      apply (within_le w); auto. apply NO2. rewrite EL. now apply samples_of. }
    destruct (C1 mk k (s_num s) rs a (Some NaN) Len I P0 ltac:(eapply fine_le; [|exact Fi]; lra) ltac:(lra) ltac:(lra)
      ltac:(now apply (within_le w)) ltac:(lra) ltac:(lra))
      as (b & Eb & Hb & Rb).
    exists b. split; [|auto].
    unfold obj_fraction, obj_r_petrosian, obj_r_petrosian_err, obj_petro_r. cbn [p_data p_set p_list p_err ideal_data d_r d_flux d_flux_err].
    assert (Eeta : eta = profR re n rt) by (rewrite petro_fin in Heta by auto; unfold profR; congruence).
    rewrite Es1, Eeta, Ea. cbn [bind fst snd]. rewrite Es2, Es3, Ek.
    rewrite (fluxes_map A re n e rs L Hre Hn P0 I SF). exact Eb.
  Qed.

  (** C131: fraction radii *)
  Theorem fraction_converges f r eps : 0 < f / ef -> true_radius A re n e rt epsilon ef f r -> 0 < eps ->
    exists d w, 0 < d /\ 0 < w /\ forall mk rs L s,
      sampled A re n e d (Rmax rt (Rmax r (epsilon * rt)) + eps) rs L -> settings_within mk eta epsilon ef d w e rs L s ->
      exists o, Petrosian_new (ideal_data e rs L) s = Ok o /\
        forall a, radius_of s f a -> exists b, read mk o a = Ok (VNum (Fin b)) /\ Rabs (b - r) < eps.
  Proof.
    intros Hf Tr Heps. destruct (fraction_core f r eps Hf Tr Heps) as (d & w & Hd & Hw & C).
    exists d, w. split; auto. split; auto. intros mk rs L s Sa Se. pose proof Sa as (Len & I & P0 & Fi & La & SF).
    destruct (ideal_object A re n e rs L s HA Hre Hn He Len I P0 SF) as (V & E & _).
    eexists. split; [exact E|]. destruct (C d w mk rs L s (Rle_refl d) Hd (Rle_refl w) Sa Se _ E) as (b & Eb & Hb & _).
    intros a [->|[[-> ->]|[-> Et]]]; exists b; split; auto; cbn [read]; unfold num.
    - rewrite Eb. reflexivity.
    - unfold half. rewrite half_lit. rewrite Eb. reflexivity.
    - cbn [p_set]. rewrite Et, Eb. reflexivity.
  Qed.

  (** C131: fluxes *)
  Theorem flux_converges f r Ft eps : 0 < f / ef -> true_radius A re n e rt epsilon ef f r ->
    sersic_enclosed (Fin r) (Fin A) (Fin re) (Fin n) (Fin e) = Fin Ft -> 0 < eps ->
    exists d w, 0 < d /\ 0 < w /\ forall mk rs L s,
      sampled A re n e d (Rmax rt (Rmax r (epsilon * rt)) + eps) rs L -> settings_within mk eta epsilon ef d w e rs L s ->
      exists o, Petrosian_new (ideal_data e rs L) s = Ok o /\
        forall a, flux_of s f a -> exists F, read mk o a = Ok (VNum (Fin F)) /\ Rabs (F - Ft) < eps.
  Proof.
    intros Hf Tr EF Heps. destruct (true_radius_eq A re n e rt epsilon ef Hre Hn Hrt Hep f r Tr) as [Hr _].
    rewrite enclosed_fin in EF by (auto; lra). injection EF as <-.
    destruct (flux_conv A re n e HA Hre Hn He r eps Hr Heps) as (d1 & w1 & Hd1 & Hw1 & C1).
    set (eps' := Rmin eps d1). assert (Heps' : 0 < eps') by now apply Rmin_glb_lt.
    assert (eps' <= eps) by apply Rmin_l. assert (eps' <= d1) by apply Rmin_r.
    destruct (fraction_core f r eps' Hf Tr Heps') as (d2 & w2 & Hd2 & Hw2 & C).
    set (w := Rmin w1 w2). assert (Hw : 0 < w) by now apply Rmin_glb_lt.
    assert (w <= w1) by apply Rmin_l. assert (w <= w2) by apply Rmin_r.
    set (d := Rmin d1 d2). assert (Hd : 0 < d) by now apply Rmin_glb_lt.
    assert (d <= d1) by apply Rmin_l. assert (d <= d2) by apply Rmin_r.
    exists d, w. split; auto. split; auto. intros mk rs L s Sa Se. pose proof Sa as (Len & I & P0 & Fi & La & SF).
    destruct (ideal_object A re n e rs L s HA Hre Hn He Len I P0 SF) as (V & E & _).
    eexists. split; [exact E|].
    destruct (C d w mk rs L s ltac:(lra) Hd ltac:(lra)) with (o := mkpet (ideal_data e rs L) s (NaN :: map Fin V) None) as (b & Eb & Hb & Rb); auto.
    { repeat (split; auto). lra. }
    destruct Se as (k & (Es1 & Es2 & Es3 & Ek & Hnum) & [NO _]). rewrite (fluxes_map A re n e rs L Hre Hn P0 I SF) in NO.
    destruct (C1 mk k rs b Len I P0 ltac:(eapply fine_le; [|exact Fi]; lra) ltac:(now apply (within_le w)) ltac:(lra) Rb) as (g & z & Eg & Ez & Hz).
    assert (At : obj_flux_at mk (mkpet (ideal_data e rs L) s (NaN :: map Fin V) None) (Fin b) = Ok (Fin z)).
    { unfold obj_flux_at. cbn [p_data p_set ideal_data d_r d_flux].
      pose proof (inc_min rs ltac:(lia) I) as Hlo. pose proof (inc_max rs ltac:(lia) I) as Hhi.
      rewrite (pymin_is_min _ _ Hlo), (pymax_is_max _ _ Hhi). cbn [bind nleb XRnum xleb].
      rewrite !Rleb_true by lra. cbn [andb]. rewrite Ek.
      rewrite (fluxes_map A re n e rs L Hre Hn P0 I SF), (interp1d_fin _ _ _ _ _ _ _ Eg Hlo Hhi). cbn [bind nltb XRnum xltb].
      rewrite !Rltb_false by lra. cbn [orb]. now rewrite Ez. }
    intros a [[-> ->]|[-> Et]]; exists z; split; auto; cbn [read]; unfold num.
    - unfold obj_half_flux, half. rewrite half_lit, Eb. cbn [bind fst]. now rewrite At.
    - unfold obj_total_flux. cbn [p_set]. rewrite Et, Eb. cbn [bind fst]. now rewrite At.
  Qed.

  (** C131: concentration *)
  Theorem concentration_converges f1 f2 r1 r2 eps : 0 < f1 / ef -> 0 < f2 / ef ->
    true_radius A re n e rt epsilon ef f1 r1 -> true_radius A re n e rt epsilon ef f2 r2 -> 0 < eps ->
    exists d w, 0 < d /\ 0 < w /\ forall mk rs L s,
      sampled A re n e d (Rmax rt (Rmax (Rmax r1 r2) (epsilon * rt)) + eps) rs L -> settings_within mk eta epsilon ef d w e rs L s ->
      exists o, Petrosian_new (ideal_data e rs L) s = Ok o /\
        (exists a b c, read mk o (A_concentration (Fin f1) (Fin f2)) = Ok (VTriple (Fin a) (Fin b) (Fin c)) /\
           Rabs (a - r1) < eps /\ Rabs (b - r2) < eps /\ Rabs (c - 5 * (ln (r2 / r1) / ln 10)) < eps) /\
        forall a, concentration_of f1 f2 a -> exists c, read mk o a = Ok (VNum (Fin c)) /\
           Rabs (c - 5 * (ln (r2 / r1) / ln 10)) < eps.
  Proof.
    intros Hf1 Hf2 Tr1 Tr2 Heps.
    destruct (true_radius_eq A re n e rt epsilon ef Hre Hn Hrt Hep f1 r1 Tr1) as [Hr1 _]. destruct (true_radius_eq A re n e rt epsilon ef Hre Hn Hrt Hep f2 r2 Tr2) as [Hr2 _].
    destruct (log_cont r1 r2 eps Hr1 Hr2 Heps) as (t & Ht & CL).
    set (eps' := Rmin eps t). assert (Heps' : 0 < eps') by now apply Rmin_glb_lt.
    assert (eps' <= eps) by apply Rmin_l. assert (eps' <= t) by apply Rmin_r.
    destruct (fraction_core f1 r1 eps' Hf1 Tr1 Heps') as (d1 & w1 & Hd1 & Hw1 & C1).
    destruct (fraction_core f2 r2 eps' Hf2 Tr2 Heps') as (d2 & w2 & Hd2 & Hw2 & C2).
    set (d := Rmin d1 d2). assert (Hd : 0 < d) by now apply Rmin_glb_lt.
    assert (d <= d1) by apply Rmin_l. assert (d <= d2) by apply Rmin_r.
    set (w := Rmin w1 w2). assert (Hw : 0 < w) by now apply Rmin_glb_lt.
    assert (w <= w1) by apply Rmin_l. assert (w <= w2) by apply Rmin_r.
    exists d, w. split; auto. split; auto. intros mk rs L s (Len & I & P0 & Fi & La & SF) Se.
    assert (Mx : forall a b, Rmax a b <= Rmax (Rmax a b) b) by (intros; apply Rmax_l).
    assert (M1 : Rmax rt (Rmax r1 (epsilon * rt)) + eps' <= last_of rs).
    { eapply Rle_trans; [|exact La]. apply Rplus_le_compat; auto. apply Rle_max_compat_l, Rle_max_compat_r, Rmax_l. }
    assert (M2 : Rmax rt (Rmax r2 (epsilon * rt)) + eps' <= last_of rs).
    { eapply Rle_trans; [|exact La]. apply Rplus_le_compat; auto. apply Rle_max_compat_l, Rle_max_compat_r, Rmax_r. }
    destruct (ideal_object A re n e rs L s HA Hre Hn He Len I P0 SF) as (V & E & _).
    eexists. split; [exact E|].
    destruct (C1 d w mk rs L s ltac:(lra) Hd ltac:(lra) ltac:(repeat (split; auto)) Se _ E) as (a & Ea & Ha & _).
    destruct (C2 d w mk rs L s ltac:(lra) Hd ltac:(lra) ltac:(repeat (split; auto)) Se _ E) as (b & Eb & Hb & _).
    destruct (CL a b ltac:(lra) ltac:(lra)) as (Pa & Pb & Hc).
    set (o := mkpet (ideal_data e rs L) s (NaN :: map Fin V) None) in *.
    assert (Co : obj_concentration mk o (Fin f1) (Fin f2) = Ok (Fin a, Fin b, Fin (5 * Rlog10 (b / a)))).
    { unfold obj_concentration. unfold obj_fraction in Ea, Eb.
      destruct (obj_r_petrosian mk o) as [rp|]; [|discriminate]. cbn [bind] in *.
      destruct (obj_r_petrosian_err mk o) as [rpe|]; [|discriminate]. cbn [bind] in *.
      destruct (conc_spec mk _ _ _ _ _ _ _ _ _ _ _ _ _ _ _ Ea Eb) as [_ X]. now apply X. }
    split.
    - exists a, b, (5 * Rlog10 (b / a)). split; [cbn [read]; rewrite Co; reflexivity|].
      split; [lra|]. split; [lra|exact Hc].
    - intros x Hx. exists (5 * Rlog10 (b / a)). split; [|exact Hc].
      assert (L5 : (nlit 1 5 : xr) = Fin (1 / 5)) by (unfold nlit; cbn [ndiv XRnum nofZ]; rewrite xdiv_fin by lra; reflexivity).
      assert (L45 : (nlit 4 5 : xr) = Fin (4 / 5)) by (unfold nlit; cbn [ndiv XRnum nofZ]; rewrite xdiv_fin by lra; reflexivity).
      assert (L9 : (nlit 9 10 : xr) = Fin (9 / 10)) by (unfold nlit; cbn [ndiv XRnum nofZ]; rewrite xdiv_fin by lra; reflexivity).
      destruct Hx as [(-> & -> & ->)|(-> & -> & ->)]; cbn [read]; unfold num.
      + rewrite L5, L45, Co. reflexivity.
      + unfold half. rewrite half_lit, L9, Co. reflexivity.
  Qed.
End Objects.
