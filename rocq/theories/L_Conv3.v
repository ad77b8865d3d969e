(** Convergence of the measured fraction radii, fluxes and concentrations. *)
From Verif Require Import Base Num Numpy M_Utils M_Petrosian M_Sersic Gamma S_Sersic S_Utils S_Petrosian S_PetroR S_Conv
  L_Numpy L_Utils L_Utils3 L_Sersic L_Petrosian L_PetroR L_FracR L_Conv L_Conv2.
Local Open Scope R_scope.

Lemma fine_le d d' l : d <= d' -> fine d l -> fine d' l.
Proof. intros H F i Hi. specialize (F i Hi). lra. Qed.

(** the call succeeds when the radius is inside the data *)
Lemma frac_total mk frac (r y : list R) a pe eps ef k num f :
  (2 <= length r)%nat -> length y = length r -> increasing r -> at_ r 0 <= a * eps <= last_of r -> ef <> 0 ->
  mk k (map Fin r) (map Fin y) = Ok f ->
  exists v, fraction_to_r mk (Fin frac) (map Fin r) (map Fin y) (Fin a) None pe (Fin eps) (Fin ef) (Some k) num = Ok (v, NaN).
Proof.
  intros L2 Ly I In E0 Ef.
  pose proof (inc_min r ltac:(lia) I) as Hlo. pose proof (inc_max r ltac:(lia) I) as Hhi.
  unfold fraction_to_r. rewrite (pymax_is_max _ _ Hhi). cbn [bind].
  cbn [nmul XRnum xmul nltb xltb]. rewrite Rltb_false by lra.
  rewrite (interp1d_fin _ _ _ _ _ _ _ Ef Hlo Hhi). cbn [bind].
  cbn [nltb XRnum xltb]. rewrite !Rltb_false by lra. cbn [orb bind].
  unfold fdiv. cbn [neqb XRnum n0 nofZ xeqb].
  destruct (Reqb_spec ef 0) as [E|_]; [contradiction|]. cbn [bind].
  assert (G : exists gq, get_interpolated_values mk (map Fin r) (map Fin y) num (Some k) = Ok gq).
  { destruct (giv_spec mk k r (map Fin y) num f L2 Ef) as (lo & hi & g & Eg & _). eauto. }
  destruct G as [[gx q] G]. rewrite G. cbn [bind fst snd].
  destruct (giv_resampled mk (Some k) num r (map Fin y) _ L2 G) as (g & Eg & Rs). cbn [fst snd] in *. subst gx.
  match goal with |- context [closest_value_index ?v q true] => destruct (pick_total true v g q) as [o Ho] end.
  { apply resampled_length in Rs; [lia|]. rewrite map_length. lia. }
  rewrite Ho. cbn [bind]. eauto.
Qed.

(** interpolated fluxes are close to the true ones *)
Section Sersic.
  Variables A re n e : R.
  Hypothesis HA : 0 < A.
  Hypothesis Hre : 0 < re.
  Hypothesis Hn : 0 < n.
  Hypothesis He : e < 1.
  Notation F := (enclR A re n e).

  Lemma F_mono r r' : 0 <= r <= r' -> F r <= F r'.
  Proof. intros [H [H1| ->]]; [left; apply encl_inc; auto|lra]. Qed.

  (** a sampled curve of growth *)
  Section Data.
    Variables (mk : kind -> list xr -> list xr -> result (xr -> xr)) (k : kind) (rs : list R) (d : R).
    Hypothesis Len : (2 < length rs)%nat.
    Hypothesis Irs : increasing rs.
    Hypothesis P0 : 0 < at_ rs 0.
    Hypothesis Fi : fine d (0 :: rs).
    Hypothesis Hd : 0 < d.
    Hypothesis NO : no_overshoot (mk k).
    Notation L := (map F rs).

    Lemma fine_rs : fine d rs.
    Proof. intros i Hi. apply (Fi (S i)). cbn. lia. Qed.
    Lemma first_small : at_ rs 0 < d.
    Proof. pose proof (Fi 0%nat ltac:(cbn; lia)) as H. unfold at_ in *. cbn [nth] in H. lra. Qed.
    Lemma framed_flux t z : framed rs L t z -> F (Rmax 0 (t - d)) <= z <= F (t + d).
    Proof.
      intros (i & i' & Hi & Hi' & Hx & B). rewrite !at_map in B by lia.
      assert (at_ rs i' - at_ rs i < d).
      { assert (i' = i \/ i' = S i) as [->| ->] by lia; [lra|]. apply (fine_rs i). lia. }
      pose proof (at_pos rs i P0 Irs ltac:(lia)). pose proof (at_pos rs i' P0 Irs ltac:(lia)).
      assert (F (Rmax 0 (t - d)) <= F (at_ rs i)).
      { apply F_mono. split; [apply Rmax_l|]. apply Rmax_lub; lra. }
      assert (F (Rmax 0 (t - d)) <= F (at_ rs i')).
      { apply F_mono. split; [apply Rmax_l|]. apply Rmax_lub; lra. }
      pose proof (F_mono (at_ rs i) (t + d) ltac:(lra)). pose proof (F_mono (at_ rs i') (t + d) ltac:(lra)).
      destruct B; lra.
    Qed.
    Lemma oracle_flux : exists f, mk k (map Fin rs) (map Fin L) = Ok f /\
      forall t, at_ rs 0 <= t <= last_of rs -> exists z, f (Fin t) = Fin z /\ framed rs L t z.
    Proof.
      destruct (NO rs L Irs ltac:(now rewrite map_length) ltac:(lia)) as (f & Ef & Hf). exists f. split; auto.
      intros t Ht. destruct (find_step rs t ltac:(lia) Ht) as (i & Hi & Hx).
      destruct (Hf i t Hi Hx) as (z & Ez & B). exists z. split; auto. exists i, (S i). repeat split; auto; try lia; apply Hx.
    Qed.
  End Data.

  Lemma frac_conv rt epsilon ef frac r eps : 0 < rt -> 0 < epsilon -> 0 < frac / ef -> 0 < r -> 0 < eps ->
    F r = F (epsilon * rt) * (frac / ef) ->
    exists d t, 0 < d /\ 0 < t /\ forall mk k num rs a pe,
      (2 < length rs)%nat -> increasing rs -> 0 < at_ rs 0 -> fine d (0 :: rs) ->
      r + eps <= last_of rs -> epsilon * rt + eps <= last_of rs ->
      no_overshoot (mk k) -> last_of rs < d * INR (num - 1) -> Rabs (a - rt) < t ->
      exists b, fraction_to_r mk (Fin frac) (map Fin rs) (map Fin (map F rs)) (Fin a) None pe (Fin epsilon) (Fin ef) (Some k) num
          = Ok (Fin b, NaN) /\ Rabs (b - r) < eps /\ at_ rs 0 <= b <= last_of rs.
  Proof.
    intros Hrt Hep Hq Hr Heps Eq. set (q0 := frac / ef) in *.
    assert (E0 : ef <> 0).
    { intros ->. unfold q0, Rdiv in Hq. rewrite Rinv_0, Rmult_0_r in Hq. lra. }
    set (s0 := Rmax 0 (r - eps / 2)).
    assert (Hs0 : 0 <= s0 < r) by (split; [apply Rmax_l|apply Rmax_lub_lt; lra]).
    pose proof (encl_inc A re n e s0 r HA Hre Hn He Hs0) as Hm.
    set (m := (F r - F s0) / 2). assert (Em : 2 * m = F r - F s0) by (unfold m; field). assert (0 < m) by (unfold m; lra).
    destruct (F_cont A re n e Hre Hn r Hr (m / 2) ltac:(lra)) as (d1 & Hd1 & C1).
    set (h := Rmin eps (d1 / 3)).
    assert (Hh : 0 < h) by (unfold h; apply Rmin_glb_lt; lra).
    assert (h <= eps) by apply Rmin_l. assert (h <= d1 / 3) by apply Rmin_r.
    pose proof (encl_inc A re n e r (r + h / 4) HA Hre Hn He ltac:(lra)) as H4.
    set (tau := Rmin (m / 2) (F (r + h / 4) - F r)).
    assert (Ht : 0 < tau) by (unfold tau; apply Rmin_glb_lt; lra).
    assert (tau <= m / 2) by apply Rmin_l. assert (tau <= F (r + h / 4) - F r) by apply Rmin_r.
    assert (Her : 0 < epsilon * rt) by now apply Rmult_lt_0_compat.
    destruct (F_cont A re n e Hre Hn (epsilon * rt) Her (tau / q0) ltac:(now apply Rdiv_lt_0_compat)) as (d2 & Hd2 & C2).
    set (d := Rmin (Rmin (h / 8) (d2 / 4)) (epsilon * rt / 8)).
    assert (Hd : 0 < d) by (unfold d; repeat apply Rmin_glb_lt; lra).
    assert (d <= h / 8) by (unfold d; eapply Rle_trans; apply Rmin_l).
    assert (d <= d2 / 4) by (unfold d; eapply Rle_trans; [apply Rmin_l|apply Rmin_r]).
    assert (d <= epsilon * rt / 8) by apply Rmin_r.
    set (t := Rmin (Rmin (d2 / 4) (epsilon * rt / 2)) (eps / 2) / epsilon).
    assert (Hte : epsilon * t = Rmin (Rmin (d2 / 4) (epsilon * rt / 2)) (eps / 2)) by (unfold t; field; lra).
    assert (Htp : 0 < t) by (unfold t; apply Rdiv_lt_0_compat; auto; repeat apply Rmin_glb_lt; lra).
    assert (Ht1 : epsilon * t <= d2 / 4) by (rewrite Hte; eapply Rle_trans; apply Rmin_l).
    assert (Ht2 : epsilon * t <= epsilon * rt / 2) by (rewrite Hte; eapply Rle_trans; [apply Rmin_l|apply Rmin_r]).
    assert (Ht3 : epsilon * t <= eps / 2) by (rewrite Hte; apply Rmin_r).
    exists d, t. split; auto. split; auto. intros mk k num rs a pe Len I P0 Fi La1 La2 NO Hnum Ha.
    pose proof (first_small rs d Len Fi) as Fs.
    assert (Hae : epsilon * rt - epsilon * t < a * epsilon < epsilon * rt + epsilon * t).
    { apply Rabs_def2 in Ha. split.
      - replace (a * epsilon) with (epsilon * a) by ring. rewrite <- Rmult_minus_distr_l. apply Rmult_lt_compat_l; lra.
      - replace (a * epsilon) with (epsilon * a) by ring. rewrite <- Rmult_plus_distr_l. apply Rmult_lt_compat_l; lra. }
    assert (Hin : at_ rs 0 <= a * epsilon <= last_of rs) by lra.
    destruct (oracle_flux mk k rs Len I NO) as (f & Ef & Hf).
    destruct (frac_total mk frac rs (map F rs) a pe epsilon ef k num f) as (v & Ev); auto;
      [lia|now rewrite map_length|].
    destruct (frac_spec mk frac rs (map Fin (map F rs)) a pe epsilon ef (Some k) num v NaN) as (f' & g & q & Ef' & Rs & _ & Fr & Rg & _); auto.
    { lia. }
    { intros lo hi Hlo Hhi. rewrite (min_unique rs lo (at_ rs 0)), (max_unique rs hi (last_of rs)); auto.
      - apply inc_max; auto; lia. - apply inc_min; auto; lia. }
    cbn [kind_or_cubic] in Ef'. assert (f' = f) as -> by congruence.
    destruct (Hf (a * epsilon) Hin) as (z0 & Ez0 & Fz0). specialize (Fr z0 Ez0).
    pose proof (framed_flux rs d Len I P0 Fi Hd _ _ Fz0) as Bz0.
    rewrite Rmax_right in Bz0 by lra.
    assert (Hz0 : Rabs (z0 - F (epsilon * rt)) < tau / q0).
    { pose proof (C2 (a * epsilon - d)) as X1. pose proof (C2 (a * epsilon + d)) as X2.
      assert (Y1 : Rabs (a * epsilon - d - epsilon * rt) < d2) by (apply Rabs_def1; lra).
      assert (Y2 : Rabs (a * epsilon + d - epsilon * rt) < d2) by (apply Rabs_def1; lra).
      specialize (X1 Y1). specialize (X2 Y2). apply Rabs_def2 in X1. apply Rabs_def2 in X2. apply Rabs_def1; lra. }
    fold q0 in Fr. set (tgt := z0 * q0) in *.
    assert (Htgt : Rabs (tgt - F r) < tau).
    { unfold tgt. rewrite Eq. replace (z0 * q0 - F (epsilon * rt) * q0) with ((z0 - F (epsilon * rt)) * q0) by ring.
      rewrite Rabs_mult, (Rabs_pos_eq q0) by lra.
      apply Rmult_lt_reg_r with (/ q0); [now apply Rinv_0_lt_compat|]. rewrite Rmult_assoc, Rinv_r, Rmult_1_r by lra. exact Hz0. }
    apply Rabs_def2 in Htgt.
    destruct (resample_framed mk (Some k) num rs (map F rs) d ltac:(lia) I ltac:(now rewrite map_length)) with (g := g) (q := q)
      as (z & -> & Lg & Ng & Fz & Hit); auto.
    { intros k' E'. injection E' as <-. split; auto. lra. }
    { now apply fine_rs. }
    assert (Gp : forall j, (j < length g)%nat -> 0 < at_ g j).
    { intros j Hj. destruct (Fz j Hj) as (i & i' & Hi & Hi' & Hx & _). pose proof (at_pos rs i P0 I ltac:(lia)). lra. }
    destruct (search_bounds true tgt g z v (r - eps) (r + h) m Ng Lg) as (b & -> & Hb); auto.
    - intros j Hj Hg. unfold gap. pose proof (framed_flux rs d Len I P0 Fi Hd _ _ (Fz j Hj)) as B. pose proof (Gp j Hj).
      assert (s0 = r - eps / 2) by (unfold s0; apply Rmax_right; lra).
      pose proof (F_mono (at_ g j + d) s0 ltac:(lra)). lra.
    - intros j Hj Hg. unfold gap. pose proof (framed_flux rs d Len I P0 Fi Hd _ _ (Fz j Hj)) as B. pose proof (Gp j Hj).
      pose proof (F_mono (at_ g j + d) (r + 2 * h) ltac:(lra)).
      pose proof (C1 (r + 2 * h)) as X1. rewrite Rabs_pos_eq in X1 by lra. specialize (X1 ltac:(lra)). apply Rabs_def2 in X1. lra.
    - destruct (Hit (r + h / 2) ltac:(lra) ltac:(lra)) as (j & Hj & Hg). exists j. split; auto. split; [lra|]. unfold gap.
      pose proof (framed_flux rs d Len I P0 Fi Hd _ _ (Fz j Hj)) as B. rewrite Rmax_right in B by lra.
      pose proof (F_mono (r + h / 4) (at_ g j - d) ltac:(lra)). lra.
    - exists b. split; auto. split; [apply Rabs_def1; lra|]. apply Rg; auto; [apply inc_min|apply inc_max]; auto; lia.
  Qed.

  (** the flux read off at a radius close to [r] *)
  Lemma flux_conv r eps : 0 < r -> 0 < eps -> exists d, 0 < d /\ forall (mk : kind -> list xr -> list xr -> result (xr -> xr)) k rs b,
      (2 < length rs)%nat -> increasing rs -> 0 < at_ rs 0 -> fine d (0 :: rs) -> no_overshoot (mk k) ->
      Rabs (b - r) < d -> at_ rs 0 <= b <= last_of rs ->
      exists f z, mk k (map Fin rs) (map Fin (map F rs)) = Ok f /\ f (Fin b) = Fin z /\ Rabs (z - F r) < eps.
  Proof.
    intros Hr Heps. destruct (F_cont A re n e Hre Hn r Hr eps Heps) as (d2 & Hd2 & C2).
    set (d := Rmin (d2 / 3) (r / 3)). assert (Hd : 0 < d) by (unfold d; apply Rmin_glb_lt; lra).
    assert (d <= d2 / 3) by apply Rmin_l. assert (d <= r / 3) by apply Rmin_r.
    exists d. split; auto. intros mk k rs b Len I P0 Fi NO Hb Hin. apply Rabs_def2 in Hb.
    destruct (oracle_flux mk k rs Len I NO) as (f & Ef & Hf). destruct (Hf b Hin) as (z & Ez & Fz).
    exists f, z. split; auto. split; auto. pose proof (framed_flux rs d Len I P0 Fi Hd _ _ Fz) as B. rewrite Rmax_right in B by lra.
    pose proof (C2 (b - d)) as X1. pose proof (C2 (b + d)) as X2.
    assert (Y1 : Rabs (b - d - r) < d2) by (apply Rabs_def1; lra).
    assert (Y2 : Rabs (b + d - r) < d2) by (apply Rabs_def1; lra).
    specialize (X1 Y1). specialize (X2 Y2). apply Rabs_def2 in X1. apply Rabs_def2 in X2. apply Rabs_def1; lra.
  Qed.
End Sersic.

(** ** Objects *)
Lemma ideal_object A re n e rs L s : 0 < A -> 0 < re -> 0 < n -> e < 1 ->
  (2 < length rs)%nat -> increasing rs -> 0 < at_ rs 0 -> sersic_fluxes A re n e rs L ->
  exists V, Petrosian_new (ideal_data e rs L) s = Ok (mkpet (ideal_data e rs L) s (NaN :: map Fin V) None) /\
    length V = (length rs - 1)%nat /\
    forall i, (S i < length rs)%nat -> at_ V i = measured A re n e (at_ rs i) (at_ rs (S i)).
Proof.
  intros HA Hre Hn He Len I P0 SF.
  destruct (sersic_list A re n e rs L HA Hre Hn He Len I P0 SF) as (V & E & LV & HV).
  assert (LL : length L = length rs) by (rewrite (fluxes_map A re n e rs L); auto; apply map_length).
  exists V. split; auto. unfold Petrosian_new, validate_input_arrays, ideal_data. cbn [d_r d_flux d_flux_err d_area_err d_area d_dtype].
  rewrite !map_length. rewrite LL, Nat.eqb_refl.
  replace (Nat.ltb 2 (length rs)) with true by (symmetry; now apply Nat.ltb_lt).
  cbn [assert_ bind]. rewrite E. reflexivity.
Qed.

Section Objects.
  Variables A re n e rt eta epsilon ef : R.
  Hypothesis HA : 0 < A.
  Hypothesis Hre : 0 < re.
  Hypothesis Hn : 0 < n.
  Hypothesis He : e < 1.
  Hypothesis Hrt : 0 < rt.
  Hypothesis Heta : petrosian_profile (Fin rt) (Fin re) (Fin n) = Fin eta.
  Hypothesis Hep : 0 < epsilon.
  Notation F := (enclR A re n e).

  Lemma true_radius_eq f r : true_radius A re n e rt epsilon ef f r ->
    0 < r /\ F r = F (epsilon * rt) * (f / ef).
  Proof.
    intros (Hr & Fe & E1 & E2). split; auto. rewrite enclosed_fin in E1, E2 by (auto; try (left; apply Rmult_lt_0_compat; auto); lra).
    congruence.
  Qed.

  Lemma fraction_core f r eps : 0 < f / ef -> true_radius A re n e rt epsilon ef f r -> 0 < eps ->
    exists d, 0 < d /\ forall d' mk rs L s, d' <= d -> 0 < d' ->
      sampled A re n e d' (Rmax rt (Rmax r (epsilon * rt)) + eps) rs L -> settings mk eta epsilon ef d' rs s ->
      forall o, Petrosian_new (ideal_data e rs L) s = Ok o ->
      exists b, obj_fraction mk o (Fin f) = Ok (Fin b, NaN) /\ Rabs (b - r) < eps /\ at_ rs 0 <= b <= last_of rs.
  Proof.
    intros Hf Tr Heps. destruct (true_radius_eq f r Tr) as [Hr Eq].
    destruct (frac_conv A re n e HA Hre Hn He rt epsilon ef f r eps Hrt Hep Hf Hr Heps Eq) as (d1 & t & Hd1 & Ht & C1).
    set (t' := Rmin t (Rmin eps rt)).
    assert (Ht' : 0 < t') by (unfold t'; repeat apply Rmin_glb_lt; auto).
    assert (t' <= t) by apply Rmin_l.
    assert (t' <= eps) by (unfold t'; eapply Rle_trans; [apply Rmin_r|apply Rmin_l]).
    assert (t' <= rt) by (unfold t'; eapply Rle_trans; [apply Rmin_r|apply Rmin_r]).
    destruct (petro_conv A re n e HA Hre Hn He rt t' Hrt ltac:(lra)) as (d2 & Hd2 & C2).
    exists (Rmin d1 d2). split; [now apply Rmin_glb_lt|].
    intros d mk rs L s Hd Hd0 (Len & I & P0 & Fi & La & SF) (Es1 & Es2 & Es3 & k & Ek & NO & Hnum) o Eo.
    assert (d <= d1) by (eapply Rle_trans; [apply Hd|apply Rmin_l]).
    assert (d <= d2) by (eapply Rle_trans; [apply Hd|apply Rmin_r]).
    pose proof (Rmax_l rt (Rmax r (epsilon * rt))). pose proof (Rmax_r rt (Rmax r (epsilon * rt))).
    pose proof (Rmax_l r (epsilon * rt)). pose proof (Rmax_r r (epsilon * rt)).
    destruct (ideal_object A re n e rs L s HA Hre Hn He Len I P0 SF) as (V & E & LV & HV).
    assert (o = mkpet (ideal_data e rs L) s (NaN :: map Fin V) None) as -> by congruence.
    pose proof (pos_INR (s_num s - 1)).
    assert (last_of rs < d1 * INR (s_num s - 1)) by nra.
    assert (last_of rs < d2 * INR (s_num s - 1)) by nra.
    destruct (C2 mk (s_kind s) (s_num s) rs V Len I P0 ltac:(eapply fine_le; [|exact Fi]; lra) ltac:(lra) LV HV) as (a & Ea & Ha).
    { intros k' Ek'. assert (k' = k) as -> by congruence. auto. }
    destruct (C1 mk k (s_num s) rs a (Some NaN) Len I P0 ltac:(eapply fine_le; [|exact Fi]; lra) ltac:(lra) ltac:(lra) NO ltac:(lra) ltac:(lra))
      as (b & Eb & Hb & Rb).
    exists b. split; [|auto].
    unfold obj_fraction, obj_r_petrosian, obj_r_petrosian_err, obj_petro_r. cbn [p_data p_set p_list p_err ideal_data d_r d_flux d_flux_err].
    assert (Eeta : eta = profR re n rt) by (rewrite petro_fin in Heta by auto; unfold profR; congruence).
    rewrite Es1, Eeta, Ea. cbn [bind fst snd]. rewrite Es2, Es3, Ek.
    rewrite (fluxes_map A re n e rs L Hre Hn P0 I SF). exact Eb.
  Qed.

  (** C98 *)
  Theorem fraction_converges f r eps : 0 < f / ef -> true_radius A re n e rt epsilon ef f r -> 0 < eps ->
    exists d, 0 < d /\ forall mk rs L s,
      sampled A re n e d (Rmax rt (Rmax r (epsilon * rt)) + eps) rs L -> settings mk eta epsilon ef d rs s ->
      exists o, Petrosian_new (ideal_data e rs L) s = Ok o /\
        forall a, radius_of s f a -> exists b, read mk o a = Ok (VNum (Fin b)) /\ Rabs (b - r) < eps.
  Proof.
    intros Hf Tr Heps. destruct (fraction_core f r eps Hf Tr Heps) as (d & Hd & C).
    exists d. split; auto. intros mk rs L s Sa Se. pose proof Sa as (Len & I & P0 & Fi & La & SF).
    destruct (ideal_object A re n e rs L s HA Hre Hn He Len I P0 SF) as (V & E & _).
    eexists. split; [exact E|]. destruct (C d mk rs L s (Rle_refl d) Hd Sa Se _ E) as (b & Eb & Hb & _).
    intros a [->|[[-> ->]|[-> Et]]]; exists b; split; auto; cbn [read]; unfold num.
    - rewrite Eb. reflexivity.
    - unfold half. rewrite half_lit. rewrite Eb. reflexivity.
    - cbn [p_set]. rewrite Et, Eb. reflexivity.
  Qed.

  (** C99: fluxes *)
  Theorem flux_converges f r Ft eps : 0 < f / ef -> true_radius A re n e rt epsilon ef f r ->
    sersic_enclosed (Fin r) (Fin A) (Fin re) (Fin n) (Fin e) = Fin Ft -> 0 < eps ->
    exists d, 0 < d /\ forall mk rs L s,
      sampled A re n e d (Rmax rt (Rmax r (epsilon * rt)) + eps) rs L -> settings mk eta epsilon ef d rs s ->
      exists o, Petrosian_new (ideal_data e rs L) s = Ok o /\
        forall a, flux_of s f a -> exists F, read mk o a = Ok (VNum (Fin F)) /\ Rabs (F - Ft) < eps.
  Proof.
    intros Hf Tr EF Heps. destruct (true_radius_eq f r Tr) as [Hr _].
    rewrite enclosed_fin in EF by (auto; lra). injection EF as <-.
    destruct (flux_conv A re n e HA Hre Hn He r eps Hr Heps) as (d1 & Hd1 & C1).
    set (eps' := Rmin eps d1). assert (Heps' : 0 < eps') by now apply Rmin_glb_lt.
    assert (eps' <= eps) by apply Rmin_l. assert (eps' <= d1) by apply Rmin_r.
    destruct (fraction_core f r eps' Hf Tr Heps') as (d2 & Hd2 & C).
    set (d := Rmin d1 d2). assert (Hd : 0 < d) by now apply Rmin_glb_lt.
    assert (d <= d1) by apply Rmin_l. assert (d <= d2) by apply Rmin_r.
    exists d. split; auto. intros mk rs L s Sa Se. pose proof Sa as (Len & I & P0 & Fi & La & SF).
    destruct (ideal_object A re n e rs L s HA Hre Hn He Len I P0 SF) as (V & E & _).
    eexists. split; [exact E|].
    destruct (C d mk rs L s ltac:(lra) Hd) with (o := mkpet (ideal_data e rs L) s (NaN :: map Fin V) None) as (b & Eb & Hb & Rb); auto.
    { repeat (split; auto). lra. }
    destruct Se as (Es1 & Es2 & Es3 & k & Ek & NO & Hnum).
    destruct (C1 mk k rs b Len I P0 ltac:(eapply fine_le; [|exact Fi]; lra) NO ltac:(lra) Rb) as (g & z & Eg & Ez & Hz).
    assert (At : obj_flux_at mk (mkpet (ideal_data e rs L) s (NaN :: map Fin V) None) (Fin b) = Ok (Fin z)).
    { unfold obj_flux_at. cbn [p_data p_set ideal_data d_r d_flux].
      pose proof (inc_min rs ltac:(lia) I) as Hlo. pose proof (inc_max rs ltac:(lia) I) as Hhi.
      rewrite (pymin_is_min _ _ Hlo), (pymax_is_max _ _ Hhi). cbn [bind nleb XRnum xleb].
      rewrite !Rleb_true by lra. cbn [andb]. rewrite Ek.
      rewrite (fluxes_map A re n e rs L Hre Hn P0 I SF), (interp1d_fin _ _ _ _ _ _ _ Eg Hlo Hhi). cbn [bind nltb XRnum xltb].
      rewrite !Rltb_false by lra. cbn [orb]. now rewrite Ez. }
    intros a [[-> ->]|[-> Et]]; exists z; split; auto; cbn [read]; unfold num.
    - unfold obj_half_flux, half. rewrite half_lit, Eb. cbn [bind fst]. now rewrite At.
    - unfold obj_total_flux. cbn [p_set]. rewrite Et, Eb. cbn [bind fst]. now rewrite At.
  Qed.

  Lemma log_cont r1 r2 eps : 0 < r1 -> 0 < r2 -> 0 < eps -> exists t, 0 < t /\ forall a b,
    Rabs (a - r1) < t -> Rabs (b - r2) < t -> 0 < a /\ 0 < b /\
    Rabs (5 * Rlog10 (b / a) - 5 * Rlog10 (r2 / r1)) < eps.
  Proof.
    intros H1 H2 Heps. assert (H10 : 0 < ln 10) by (rewrite <- ln_1; apply ln_increasing; lra).
    set (q := eps * ln 10 / 10). assert (Hq : 0 < q) by (apply Rdiv_lt_0_compat; [apply Rmult_lt_0_compat|]; lra).
    destruct (cont_of ln r1 (/ r1) (derivable_pt_lim_ln r1 H1) q Hq) as (t1 & Ht1 & C1).
    destruct (cont_of ln r2 (/ r2) (derivable_pt_lim_ln r2 H2) q Hq) as (t2 & Ht2 & C2).
    set (t := Rmin (Rmin t1 t2) (Rmin r1 r2)).
    assert (Ht : 0 < t) by (unfold t; repeat apply Rmin_glb_lt; auto).
    assert (t <= t1) by (unfold t; eapply Rle_trans; apply Rmin_l).
    assert (t <= t2) by (unfold t; eapply Rle_trans; [apply Rmin_l|apply Rmin_r]).
    assert (t <= r1) by (unfold t; eapply Rle_trans; [apply Rmin_r|apply Rmin_l]).
    assert (t <= r2) by (unfold t; eapply Rle_trans; [apply Rmin_r|apply Rmin_r]).
    exists t. split; auto. intros a b Ha Hb.
    pose proof (C1 a ltac:(lra)) as X1. pose proof (C2 b ltac:(lra)) as X2.
    apply Rabs_def2 in Ha. apply Rabs_def2 in Hb.
    assert (0 < a) by lra. assert (0 < b) by lra. split; auto. split; auto.
    unfold Rlog10. unfold Rdiv at 2 4. rewrite !ln_mult, !ln_Rinv by auto using Rinv_0_lt_compat.
    replace (5 * ((ln b + - ln a) / ln 10) - 5 * ((ln r2 + - ln r1) / ln 10))
      with ((5 / ln 10) * ((ln b - ln r2) - (ln a - ln r1))) by (field; lra).
    assert (K5 : 0 < 5 / ln 10) by (apply Rdiv_lt_0_compat; lra).
    rewrite Rabs_mult, (Rabs_pos_eq (5 / ln 10)) by lra.
    apply Rmult_lt_reg_l with (ln 10 / 5); [apply Rdiv_lt_0_compat; lra|].
    rewrite <- Rmult_assoc. replace (ln 10 / 5 * (5 / ln 10)) with 1 by (field; lra). rewrite Rmult_1_l.
    apply Rabs_def2 in X1. apply Rabs_def2 in X2.
    assert (2 * q = ln 10 / 5 * eps) by (unfold q; field). apply Rabs_def1; lra.
  Qed.

  (** C99: concentration *)
  Theorem concentration_converges f1 f2 r1 r2 eps : 0 < f1 / ef -> 0 < f2 / ef ->
    true_radius A re n e rt epsilon ef f1 r1 -> true_radius A re n e rt epsilon ef f2 r2 -> 0 < eps ->
    exists d, 0 < d /\ forall mk rs L s,
      sampled A re n e d (Rmax rt (Rmax (Rmax r1 r2) (epsilon * rt)) + eps) rs L -> settings mk eta epsilon ef d rs s ->
      exists o, Petrosian_new (ideal_data e rs L) s = Ok o /\
        (exists a b c, read mk o (A_concentration (Fin f1) (Fin f2)) = Ok (VTriple (Fin a) (Fin b) (Fin c)) /\
           Rabs (a - r1) < eps /\ Rabs (b - r2) < eps /\ Rabs (c - 5 * (ln (r2 / r1) / ln 10)) < eps) /\
        forall a, concentration_of f1 f2 a -> exists c, read mk o a = Ok (VNum (Fin c)) /\
           Rabs (c - 5 * (ln (r2 / r1) / ln 10)) < eps.
  Proof.
    intros Hf1 Hf2 Tr1 Tr2 Heps.
    destruct (true_radius_eq f1 r1 Tr1) as [Hr1 _]. destruct (true_radius_eq f2 r2 Tr2) as [Hr2 _].
    destruct (log_cont r1 r2 eps Hr1 Hr2 Heps) as (t & Ht & CL).
    set (eps' := Rmin eps t). assert (Heps' : 0 < eps') by now apply Rmin_glb_lt.
    assert (eps' <= eps) by apply Rmin_l. assert (eps' <= t) by apply Rmin_r.
    destruct (fraction_core f1 r1 eps' Hf1 Tr1 Heps') as (d1 & Hd1 & C1).
    destruct (fraction_core f2 r2 eps' Hf2 Tr2 Heps') as (d2 & Hd2 & C2).
    set (d := Rmin d1 d2). assert (Hd : 0 < d) by now apply Rmin_glb_lt.
    assert (d <= d1) by apply Rmin_l. assert (d <= d2) by apply Rmin_r.
    exists d. split; auto. intros mk rs L s (Len & I & P0 & Fi & La & SF) Se.
    assert (Mx : forall a b, Rmax a b <= Rmax (Rmax a b) b) by (intros; apply Rmax_l).
    assert (M1 : Rmax rt (Rmax r1 (epsilon * rt)) + eps' <= last_of rs).
    { eapply Rle_trans; [|exact La]. apply Rplus_le_compat; auto. apply Rle_max_compat_l, Rle_max_compat_r, Rmax_l. }
    assert (M2 : Rmax rt (Rmax r2 (epsilon * rt)) + eps' <= last_of rs).
    { eapply Rle_trans; [|exact La]. apply Rplus_le_compat; auto. apply Rle_max_compat_l, Rle_max_compat_r, Rmax_r. }
    destruct (ideal_object A re n e rs L s HA Hre Hn He Len I P0 SF) as (V & E & _).
    eexists. split; [exact E|].
    destruct (C1 d mk rs L s ltac:(lra) Hd ltac:(repeat (split; auto)) Se _ E) as (a & Ea & Ha & _).
    destruct (C2 d mk rs L s ltac:(lra) Hd ltac:(repeat (split; auto)) Se _ E) as (b & Eb & Hb & _).
    destruct (CL a b ltac:(lra) ltac:(lra)) as (Pa & Pb & Hc).
    set (o := mkpet (ideal_data e rs L) s (NaN :: map Fin V) None) in *.
    assert (Co : obj_concentration mk o (Fin f1) (Fin f2) = Ok (Fin a, Fin b, Fin (5 * Rlog10 (b / a)))).
    { unfold obj_concentration. unfold obj_fraction in Ea, Eb.
      destruct (obj_r_petrosian mk o) as [rp|]; [|discriminate]. cbn [bind] in *.
      destruct (obj_r_petrosian_err mk o) as [rpe|]; [|discriminate]. cbn [bind] in *.
      destruct (conc_spec mk _ _ _ _ _ _ _ _ _ _ _ _ _ _ _ Ea Eb) as [_ X]. now apply X. }
    split.
    - exists a, b, (5 * Rlog10 (b / a)). split; [cbn [read]; rewrite Co; reflexivity|].
      split; [lra|]. split; [lra|exact Hc].
    - intros x Hx. exists (5 * Rlog10 (b / a)). split; [|exact Hc].
      assert (L5 : (nlit 1 5 : xr) = Fin (1 / 5)) by (unfold nlit; cbn [ndiv XRnum nofZ]; rewrite xdiv_fin by lra; reflexivity).
      assert (L45 : (nlit 4 5 : xr) = Fin (4 / 5)) by (unfold nlit; cbn [ndiv XRnum nofZ]; rewrite xdiv_fin by lra; reflexivity).
      assert (L9 : (nlit 9 10 : xr) = Fin (9 / 10)) by (unfold nlit; cbn [ndiv XRnum nofZ]; rewrite xdiv_fin by lra; reflexivity).
      destruct Hx as [(-> & -> & ->)|(-> & -> & ->)]; cbn [read]; unfold num.
      + rewrite L5, L45, Co. reflexivity.
      + unfold half. rewrite half_lit, L9, Co. reflexivity.
  Qed.
End Objects.
