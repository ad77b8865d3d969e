(** Half-light radii, fluxes and concentrations of a rendered galaxy with interpolation that overshoots a little. *)
From Coq Require Import String.
From Verif Require Import Base Num Numpy M_Utils M_Photometry S_Photometry M_Petrosian M_Interp M_Sersic Gamma S_Sersic S_Utils S_Petrosian S_PetroR S_Conv S_Robust S_Noise S_Spline
  M_PSF S_PSF M_Fitting S_Fitting M_Integrate S_Integrate M_Exact S_Exact S_Galaxy S_Render S_Image
  L_Numpy L_Utils L_Utils3 L_Sersic L_Petrosian L_PetroR L_FracR L_Robust2 L_Conv L_Conv2 L_Conv3 L_Noise L_Galaxy3 L_Galaxy4 L_Spline L_Spline2 L_Spline3.
Local Open Scope list_scope.
Local Open Scope R_scope.

Section Sersic.
  Variables A re n e : R.
  Hypothesis HA : 0 < A.
  Hypothesis Hre : 0 < re.
  Hypothesis Hn : 0 < n.
  Hypothesis He : e < 1.
  Notation F := (enclR A re n e).

  Section Data.
    Variables (mk : kind -> list xr -> list xr -> result (xr -> xr)) (k : kind) (rs L : list R) (d sg w : R).
    Hypothesis Len : (2 < length rs)%nat.
    Hypothesis Irs : increasing rs.
    Hypothesis P0 : 0 < at_ rs 0.
    Hypothesis Fi : fine d (0 :: rs).
    Hypothesis Hd : 0 < d.
    Hypothesis LL : length L = length rs.
    Hypothesis HL : forall i, (i < length rs)%nat -> Rabs (at_ L i - F (at_ rs i)) <= sg.
    Hypothesis NO : overshoots_within w (mk k) rs L.
    Lemma nearly_near t z : nearly w rs L t z -> F (Rmax 0 (t - d)) - (sg + w) <= z <= F (t + d) + (sg + w).
    Proof.
      intros (z' & (i & i' & Hi & Hi' & Hx & B) & Cz). pose proof (near_le _ _ _ Cz).
      pose proof (HL i ltac:(lia)) as B1. pose proof (HL i' ltac:(lia)) as B2. apply abs_bounds in B1. apply abs_bounds in B2.
      assert (at_ rs i' - at_ rs i < d).
      { assert (i' = i \/ i' = S i) as [->| ->] by lia; [lra|]. apply (fine_rs rs d Len Fi i). lia. }
      pose proof (at_pos rs i P0 Irs ltac:(lia)). pose proof (at_pos rs i' P0 Irs ltac:(lia)).
      assert (M : forall x, x = at_ rs i \/ x = at_ rs i' -> F (Rmax 0 (t - d)) <= F x <= F (t + d)).
      { intros x Hxx. assert (0 <= x /\ t - d <= x <= t + d) by (destruct Hxx as [->| ->]; lra).
        split; apply F_mono; auto; [split; [apply Rmax_l|apply Rmax_lub; lra]|lra]. }
      pose proof (M _ (or_introl eq_refl)). pose proof (M _ (or_intror eq_refl)). destruct B; lra.
    Qed.
    Lemma oracle_nearly : exists f, mk k (map Fin rs) (map Fin L) = Ok f /\
      forall t, at_ rs 0 <= t <= last_of rs -> exists z, f (Fin t) = Fin z /\ nearly w rs L t z.
    Proof.
      destruct NO as (f & Ef & Hf). exists f. split; auto.
      intros t Ht. destruct (find_step rs t ltac:(lia) Ht) as (i & Hi & Hx).
      destruct (Hf i t Hi Hx) as (z & z' & Ez & B & Cz). exists z. split; auto. exists z'. split; auto. exists i, (S i). repeat split; auto; try lia; apply Hx.
    Qed.
  End Data.

  Lemma frac_near2 rt epsilon ef frac r eps h d t tau sig sg w mk k num rs L a pe : 0 <= w -> sg + w = sig ->
    0 < rt -> 0 < epsilon -> 0 < frac / ef -> 0 < r -> F r = F (epsilon * rt) * (frac / ef) ->
    fits A re n e rt epsilon (frac / ef) r eps h d t tau sig ->
    (2 < length rs)%nat -> increasing rs -> 0 < at_ rs 0 -> fine d (0 :: rs) ->
    length L = length rs -> (forall i, (i < length rs)%nat -> Rabs (at_ L i - F (at_ rs i)) <= sg) ->
    r + eps <= last_of rs -> epsilon * rt + eps <= last_of rs ->
    overshoots_within w (mk k) rs L -> last_of rs < d * INR (num - 1) -> Rabs (a - rt) < t ->
    exists b, fraction_to_r mk (Fin frac) (map Fin rs) (map Fin L) (Fin a) None pe (Fin epsilon) (Fin ef) (Some k) num
        = Ok (Fin b, NaN) /\ Rabs (b - r) < eps /\ at_ rs 0 <= b <= last_of rs.
  Proof.
    intros Hw Hsum Hrt Hep Hq Hr Eq (Hh & Hd & Hdh & Hde & Ht & Ht2 & Ht3 & Hsig & T1 & T2 & M1 & M2) Len I P0 Fi LL HL La1 La2 NO Hnum Ha.
    set (q0 := frac / ef) in *.
    assert (E0 : ef <> 0).
    { intros ->. unfold q0, Rdiv in Hq. rewrite Rinv_0, Rmult_0_r in Hq. lra. }
    pose proof (first_small rs d Len Fi) as Fs.
    assert (Her : 0 < epsilon * rt) by now apply Rmult_lt_0_compat.
    assert (Hae : epsilon * rt - epsilon * t < a * epsilon < epsilon * rt + epsilon * t).
    { apply Rabs_def2 in Ha. split.
      - replace (a * epsilon) with (epsilon * a) by ring. rewrite <- Rmult_minus_distr_l. apply Rmult_lt_compat_l; lra.
      - replace (a * epsilon) with (epsilon * a) by ring. rewrite <- Rmult_plus_distr_l. apply Rmult_lt_compat_l; lra. }
    assert (Hin : at_ rs 0 <= a * epsilon <= last_of rs) by lra.
    destruct (oracle_nearly mk k rs L w Len LL NO) as (f & Ef & Hf).
    destruct (frac_total mk frac rs L a pe epsilon ef k num f) as (v & Ev); auto; [lia|].
    destruct (frac_spec mk frac rs (map Fin L) a pe epsilon ef (Some k) num v NaN) as (f' & g & q & Ef' & Rs & _ & Fr & Rg & _); auto.
    { lia. }
    { intros lo hi Hlo Hhi. rewrite (min_unique rs lo (at_ rs 0)), (max_unique rs hi (last_of rs)); auto.
      - apply inc_max; auto; lia. - apply inc_min; auto; lia. }
    cbn [kind_or_cubic] in Ef'. assert (f' = f) as -> by congruence.
    destruct (Hf (a * epsilon) Hin) as (z0 & Ez0 & Fz0). specialize (Fr z0 Ez0).
    pose proof (nearly_near rs L d sg w Len I P0 Fi Hd LL HL _ _ Fz0) as Bz0. rewrite Rmax_right in Bz0 by lra.
    fold q0 in Fr. set (tgt := z0 * q0) in *.
    assert (Htgt : F r - tau <= tgt <= F r + tau).
    { assert (F (epsilon * rt - epsilon * t - d) <= F (a * epsilon - d)) by (apply F_mono; auto; lra).
      assert (F (a * epsilon + d) <= F (epsilon * rt + epsilon * t + d)) by (apply F_mono; auto; lra).
      unfold tgt. rewrite Eq. split.
      - assert ((F (epsilon * rt) - z0) * q0 <= tau); [|lra]. eapply Rle_trans; [|exact T2]. apply Rmult_le_compat_r; lra.
      - assert ((z0 - F (epsilon * rt)) * q0 <= tau); [|lra]. eapply Rle_trans; [|exact T1]. apply Rmult_le_compat_r; lra. }
    destruct (resample_nearly mk (Some k) num rs L d w ltac:(lia) I ltac:(auto) Hw) with (g := g) (q := q)
      as (z & -> & Lg & Ng & Fz & Hit); auto.
    { intros k' E'. injection E' as <-. split; auto. lra. }
    { now apply fine_rs. }
    assert (Gp : forall j, (j < length g)%nat -> 0 < at_ g j).
    { intros j Hj. destruct (Fz j Hj) as (z' & (i & i' & Hi & Hi' & Hx & _) & _). pose proof (at_pos rs i P0 I ltac:(lia)). lra. }
    set (s0 := Rmax 0 (r - eps / 2)) in *.
    destruct (search_bounds true tgt g z v (r - eps) (r + h) (F r - tau - F s0 - sig) Ng Lg) as (b & -> & Hb); auto.
    - intros j Hj Hg. unfold gap. pose proof (nearly_near rs L d sg w Len I P0 Fi Hd LL HL _ _ (Fz j Hj)) as B. pose proof (Gp j Hj).
      assert (s0 = r - eps / 2) by (unfold s0; apply Rmax_right; lra).
      assert (F (at_ g j + d) <= F s0) by (apply F_mono; auto; lra). lra.
    - intros j Hj Hg. unfold gap. pose proof (nearly_near rs L d sg w Len I P0 Fi Hd LL HL _ _ (Fz j Hj)) as B. pose proof (Gp j Hj).
      assert (F (at_ g j + d) <= F (r + 2 * h)) by (apply F_mono; auto; lra). lra.
    - destruct (Hit (r + h / 2) ltac:(lra) ltac:(lra)) as (j & Hj & Hg). exists j. split; auto. split; [lra|]. unfold gap.
      pose proof (nearly_near rs L d sg w Len I P0 Fi Hd LL HL _ _ (Fz j Hj)) as B. rewrite Rmax_right in B by lra.
      assert (F (r + h / 4) <= F (at_ g j - d)) by (apply F_mono; auto; lra). lra.
    - exists b. split; auto. split; [apply Rabs_def1; lra|]. apply Rg; auto; [apply inc_min|apply inc_max]; auto; lia.
  Qed.

  Lemma flux_near2 r eps d sig sg w (mk : kind -> list xr -> list xr -> result (xr -> xr)) k rs L b : sg + w = sig -> 0 < r -> tight A re n e r eps d sig ->
    (2 < length rs)%nat -> increasing rs -> 0 < at_ rs 0 -> fine d (0 :: rs) -> overshoots_within w (mk k) rs L ->
    length L = length rs -> (forall i, (i < length rs)%nat -> Rabs (at_ L i - F (at_ rs i)) <= sg) ->
    Rabs (b - r) < d -> at_ rs 0 <= b <= last_of rs ->
    exists f z, mk k (map Fin rs) (map Fin L) = Ok f /\ f (Fin b) = Fin z /\ Rabs (z - F r) < eps.
  Proof.
    intros Hsum Hr (Hd & Hdr & Hsig & T1 & T2) Len I P0 Fi NO LL HL Hb Hin. apply Rabs_def2 in Hb.
    destruct (oracle_nearly mk k rs L w Len LL NO) as (f & Ef & Hf). destruct (Hf b Hin) as (z & Ez & Fz).
    exists f, z. split; auto. split; auto. pose proof (nearly_near rs L d sg w Len I P0 Fi Hd LL HL _ _ Fz) as B. rewrite Rmax_right in B by lra.
    assert (F (b + d) <= F (r + 2 * d)) by (apply F_mono; auto; lra).
    assert (F (r - 2 * d) <= F (b - d)) by (apply F_mono; auto; lra). apply Rabs_def1; lra.
  Qed.
End Sersic.

Section Objects.
  Variables A re n e rt eta epsilon ef : R.
  Hypothesis HA : 0 < A.
  Hypothesis Hre : 0 < re.
  Hypothesis Hn : 0 < n.
  Hypothesis He : 0 <= e < 1.
  Hypothesis Hrt : 0 < rt.
  Hypothesis Heta : petrosian_profile (Fin rt) (Fin re) (Fin n) = Fin eta.
  Hypothesis Hep : 0 < epsilon.

  Notation obj K rs Ar Fl s V := (mkpet (plain (map (Rmult K) rs) Ar Fl) s (NaN :: map Fin V) None).

  Lemma fraction_near2 f r eps : 0 < f / ef -> true_radius A re n e rt epsilon ef f r -> 0 < eps ->
    exists d tau sig, 0 < d /\ 0 < tau /\ 0 < sig /\ forall d' K mk k rs Fl Ar V s, 0 < d' <= d -> 0 < K ->
      (2 < length rs)%nat -> increasing rs -> 0 < at_ rs 0 -> fine d' (0 :: rs) ->
      Rmax rt (Rmax r (epsilon * rt)) + eps <= last_of rs -> set_to eta epsilon ef d' rs k s ->
      close_object A re n e K tau sig rs Fl Ar V -> overshoots_within (K * K * sig) (mk k) (map (Rmult K) rs) Fl ->
      overshoots_within tau (mk k) (0 :: tl (map (Rmult K) rs)) (1 :: V) ->
      exists b, obj_fraction mk (obj K rs Ar Fl s V) (Fin f) = Ok (Fin b, NaN) /\ Rabs (b - K * r) < K * eps /\ K * at_ rs 0 <= b <= K * last_of rs.
  Proof.
    intros Hf Tr Heps. destruct (true_radius_eq A re n e rt epsilon ef Hre Hn Hrt Hep f r Tr) as [Hr Eq].
    destruct (fitting A re n e HA Hre Hn (proj2 He) rt epsilon (f / ef) r eps Hrt Hep Hf Hr Heps) as (h & d1 & t & tau1 & sig & Ft).
    assert (Hd1 : 0 < d1) by apply Ft. assert (Ht : 0 < t) by apply Ft. assert (Hsig : 0 < sig) by apply Ft.
    set (t' := Rmin t (Rmin eps rt)).
    assert (Ht' : 0 < t') by (unfold t'; repeat apply Rmin_glb_lt; auto).
    assert (t' <= t) by apply Rmin_l.
    assert (t' <= eps) by (unfold t'; eapply Rle_trans; [apply Rmin_r|apply Rmin_l]).
    assert (t' <= rt) by (unfold t'; eapply Rle_trans; [apply Rmin_r|apply Rmin_r]).
    destruct (suitable A re n HA Hre Hn rt t' Hrt ltac:(lra)) as (h2 & d2 & tau & Su).
    assert (Hd2 : 0 < d2) by apply Su. assert (Htau : 0 < tau) by apply Su.
    exists (Rmin d1 d2), (tau / 2), (sig / 2). split; [now apply Rmin_glb_lt|]. split; [lra|]. split; [lra|].
    intros d K mk k rs Fl Ar V s Hd HK Len I P0 Fi La (Es1 & Es2 & Es3 & Ek & Hnum) (LF & LV & HV & HF) NO1 NO2.
    assert (KK : 0 < K * K) by now apply Rmult_lt_0_compat.
    assert (Hksig : 0 < K * K * (sig / 2)) by (apply Rmult_lt_0_compat; lra).
    assert (d <= d1) by (eapply Rle_trans; [apply Hd|apply Rmin_l]).
    assert (d <= d2) by (eapply Rle_trans; [apply Hd|apply Rmin_r]).
    pose proof (Rmax_l rt (Rmax r (epsilon * rt))). pose proof (Rmax_r rt (Rmax r (epsilon * rt))).
    pose proof (Rmax_l r (epsilon * rt)). pose proof (Rmax_r r (epsilon * rt)).
    pose proof (pos_INR (s_num s - 1)).
    assert (Le : forall a b, a <= b -> K * a <= K * b) by (intros; apply Rmult_le_compat_l; lra).
    assert (Lt : forall a b, a < b -> K * a < K * b) by (intros; apply Rmult_lt_compat_l; lra).
    assert (N1 : last_of rs < d1 * INR (s_num s - 1)) by nra.
    assert (N2 : last_of rs < d2 * INR (s_num s - 1)) by nra.
    assert (HKre : 0 < K * re) by now apply Rmult_lt_0_compat.
    destruct (petro_near2 A (K * re) n e HA HKre Hn (proj2 He) (K * rt) (K * t') (K * h2) (K * d2) tau (tau / 2) (tau / 2) mk (s_kind s) (s_num s) (map (Rmult K) rs) V)
      as (a & Ea & Ha); auto using scaled_inc; try lra.
    { apply Rmult_lt_0_compat; lra. } { apply suits_scale; auto. } { now rewrite map_length. } { rewrite at_scale. now apply Rmult_lt_0_compat. }
    { apply scaled_fine; auto. eapply fine_le; [|exact Fi]. lra. }
    { rewrite scaled_last, <- Rmult_plus_distr_l. apply Le. lra. } { now rewrite map_length. }
    { intros i Hi. rewrite map_length in Hi. rewrite !at_scale. now apply HV. }
    { intros k' Ek'. assert (k' = k) as -> by congruence. split; auto. rewrite scaled_last, Rmult_assoc. now apply Lt. }
    rewrite prof_scale in Ea by auto.
    destruct (frac_near2 A (K * re) n e HA HKre Hn (proj2 He) (K * rt) epsilon ef f (K * r) (K * eps) (K * h) (K * d1) (K * t) (K * K * tau1) (K * K * sig)
       (K * K * (sig / 2)) (K * K * (sig / 2))
       mk k (s_num s) (map (Rmult K) rs) Fl a (Some NaN)) as (b & Eb & Hb & Rb); auto using scaled_inc; try lra.
    { apply Rmult_lt_0_compat; lra. } { apply Rmult_lt_0_compat; lra. }
    { replace (epsilon * (K * rt)) with (K * (epsilon * rt)) by ring. rewrite !encl_scale by auto. rewrite Eq. ring. }
    { apply fits_scale; auto. } { now rewrite map_length. } { rewrite at_scale. now apply Rmult_lt_0_compat. }
    { apply scaled_fine; auto. eapply fine_le; [|exact Fi]. lra. } { now rewrite map_length. }
    { intros i Hi. rewrite map_length in Hi. rewrite at_scale. now apply HF. }
    { rewrite scaled_last, <- Rmult_plus_distr_l. apply Le. lra. }
    { rewrite scaled_last. replace (epsilon * (K * rt) + K * eps) with (K * (epsilon * rt + eps)) by ring. apply Le. lra. }
    { rewrite scaled_last, Rmult_assoc. now apply Lt. }
    { eapply Rlt_le_trans; [exact Ha|]. now apply Le. }
    exists b. rewrite at_scale, scaled_last in Rb. split; [|auto].
    unfold obj_fraction, obj_r_petrosian, obj_r_petrosian_err, obj_petro_r. cbn [p_data p_set p_list p_err plain d_r d_flux d_flux_err].
    assert (Eeta : eta = profR re n rt) by (rewrite petro_fin in Heta by auto; unfold profR; congruence).
    rewrite Es1, Eeta, Ea. cbn [bind fst snd]. rewrite Es2, Es3, Ek. exact Eb.
  Qed.

  (** ** what is read off the object *)
  Theorem image_fraction2 f r eps : 0 < f / ef -> true_radius A re n e rt epsilon ef f r -> 0 < eps ->
    exists d w, 0 < d /\ 0 < w /\ forall rs, (2 < length rs)%nat -> increasing rs -> 0 < at_ rs 0 -> fine d (0 :: rs) ->
      Rmax rt (Rmax r (epsilon * rt)) + eps <= last_of rs ->
    exists K0, forall K X Y t x0 y0 m k q mk s, K0 <= K -> shows_sersic A (K * re) n e X Y t (K * last_of rs) x0 y0 m ->
      set_to eta epsilon ef d rs q s ->
    exists Fl Ar, radial_photometry exact_overlap k m (Fin (X - x0), Fin (Y - y0)) (map Fin (map (Rmult K) rs)) None None (Fin (/ (1 - e))) (Fin t)
        = Ok (map Fin Fl, map Fin Ar, map (fun _ => NaN) (map (Rmult K) rs)) /\
      (calm w (K * K * w) (mk q) (map (Rmult K) rs) Ar Fl ->
       exists o, Petrosian_new (plain (map (Rmult K) rs) Ar Fl) s = Ok o /\
      forall a, radius_of s f a -> exists b, read mk o a = Ok (VNum (Fin b)) /\ Rabs (b / K - r) < eps).
  Proof.
    intros Hf Tr Heps. destruct (fraction_near2 f r eps Hf Tr Heps) as (d & tau & sig & Hd & Htau & Hsig & C).
    set (w := Rmin tau sig). assert (Hw : 0 < w) by now apply Rmin_glb_lt.
    assert (W1 : w <= tau) by apply Rmin_l. assert (W2 : w <= sig) by apply Rmin_r.
    exists d, w. split; auto. split; auto. intros rs Len I P0 Fi La.
    destruct (image_data_full A re n e tau sig rs) as (K0 & HK0 & ID); auto.
    exists K0. intros K X Y t x0 y0 m k q mk s HK Sh Se.
    destruct (ID K X Y t x0 y0 m k s HK Sh) as (Fl & Ar & V & E & LF & EN & LV & HV & HF & LAr & VV).
    exists Fl, Ar. split; [exact E|]. intros [Cm1 Cm2]. eexists. split; [exact EN|].
    specialize (Cm2 (1 :: V) (samples_at rs Ar Fl V Len LF LV VV)).
    assert (Le2 : forall a b, a <= b -> K * K * a <= K * K * b) by (intros; apply Rmult_le_compat_l; nra).
    destruct (C d K mk q rs Fl Ar V s ltac:(lra) ltac:(lra) Len I P0 Fi La Se) as (b & Eb & Hb & _).
    { repeat (split; auto). } { apply (within_le (K * K * w)); auto. } { apply (within_le w); auto. }
    intros a [->|[[-> ->]|[-> Et]]]; exists b; (split; [|apply scaled_near; auto; lra]); cbn [read]; unfold num.
    - rewrite Eb. reflexivity.
    - unfold M_Petrosian.half. rewrite half_lit. rewrite Eb. reflexivity.
    - cbn [p_set]. rewrite Et, Eb. reflexivity.
  Qed.

  Theorem image_flux2 f r Ft eps : 0 < f / ef -> true_radius A re n e rt epsilon ef f r ->
    sersic_enclosed (Fin r) (Fin A) (Fin re) (Fin n) (Fin e) = Fin Ft -> 0 < eps ->
    exists d w, 0 < d /\ 0 < w /\ forall rs, (2 < length rs)%nat -> increasing rs -> 0 < at_ rs 0 -> fine d (0 :: rs) ->
      Rmax rt (Rmax r (epsilon * rt)) + eps <= last_of rs ->
    exists K0, forall K X Y t x0 y0 m k q mk s, K0 <= K -> shows_sersic A (K * re) n e X Y t (K * last_of rs) x0 y0 m ->
      set_to eta epsilon ef d rs q s ->
    exists Fl Ar, radial_photometry exact_overlap k m (Fin (X - x0), Fin (Y - y0)) (map Fin (map (Rmult K) rs)) None None (Fin (/ (1 - e))) (Fin t)
        = Ok (map Fin Fl, map Fin Ar, map (fun _ => NaN) (map (Rmult K) rs)) /\
      (calm w (K * K * w) (mk q) (map (Rmult K) rs) Ar Fl ->
       exists o, Petrosian_new (plain (map (Rmult K) rs) Ar Fl) s = Ok o /\
      forall a, flux_of s f a -> exists v, read mk o a = Ok (VNum (Fin v)) /\ Rabs (v / (K * K) - Ft) < eps).
  Proof.
    intros Hf Tr EF Heps. destruct (true_radius_eq A re n e rt epsilon ef Hre Hn Hrt Hep f r Tr) as [Hr _].
    rewrite enclosed_fin in EF by (auto; lra). injection EF as <-.
    destruct (tightly A re n e Hre Hn r eps Hr Heps) as (d1 & sig1 & Ti).
    assert (Hd1 : 0 < d1) by apply Ti. assert (Hsig1 : 0 < sig1) by apply Ti.
    set (eps' := Rmin eps d1). assert (Heps' : 0 < eps') by now apply Rmin_glb_lt.
    assert (eps' <= eps) by apply Rmin_l. assert (eps' <= d1) by apply Rmin_r.
    destruct (fraction_near2 f r eps' Hf Tr Heps') as (d2 & tau & sig2 & Hd2 & Htau & Hsig2 & C).
    set (d := Rmin d1 d2). assert (Hd : 0 < d) by now apply Rmin_glb_lt.
    assert (d <= d1) by apply Rmin_l. assert (d <= d2) by apply Rmin_r.
    set (sig := Rmin (sig1 / 2) sig2). assert (Hsig : 0 < sig) by (apply Rmin_glb_lt; lra).
    assert (S1 : sig <= sig1 / 2) by apply Rmin_l. assert (S2 : sig <= sig2) by apply Rmin_r.
    set (w := Rmin tau sig). assert (Hw : 0 < w) by now apply Rmin_glb_lt.
    assert (W1 : w <= tau) by apply Rmin_l. assert (W2 : w <= sig) by apply Rmin_r.
    exists d, w. split; auto. split; auto. intros rs Len I P0 Fi La.
    destruct (image_data_full A re n e tau sig rs) as (K0 & HK0 & ID); auto.
    exists K0. intros K X Y t x0 y0 m k q mk s HK Sh Se.
    destruct (ID K X Y t x0 y0 m k s HK Sh) as (Fl & Ar & V & E & LF & EN & LV & HV & HF & LAr & VV).
    exists Fl, Ar. split; [exact E|]. intros [Cm1 Cm2]. eexists. split; [exact EN|].
    specialize (Cm2 (1 :: V) (samples_at rs Ar Fl V Len LF LV VV)).
    assert (HKp : 0 < K) by lra. assert (KK : 0 < K * K) by now apply Rmult_lt_0_compat.
    assert (Le2 : forall a b, a <= b -> K * K * a <= K * K * b) by (intros; apply Rmult_le_compat_l; lra).
    destruct (C d K mk q rs Fl Ar V s ltac:(lra) HKp Len I P0 Fi ltac:(lra) Se) as (b & Eb & Hb & Rb).
    { repeat (split; auto). intros i Hi. eapply Rle_trans; [now apply HF|]. now apply Le2. }
    { apply (within_le (K * K * w)); auto. apply Le2. lra. } { apply (within_le w); auto. }
    destruct Se as (Es1 & Es2 & Es3 & Ek & Hnum).
    assert (HKre : 0 < K * re) by now apply Rmult_lt_0_compat.
    destruct (flux_near2 A (K * re) n e HA HKre Hn (proj2 He) (K * r) (K * K * eps) (K * d1) (K * K * sig1) (K * K * (sig1 / 2)) (K * K * (sig1 / 2)) mk q (map (Rmult K) rs) Fl b)
      as (g & z & Eg & Ez & Hz); auto using scaled_inc; try lra.
    { now apply Rmult_lt_0_compat. } { now apply tight_scale. } { now rewrite map_length. } { rewrite at_scale. now apply Rmult_lt_0_compat. }
    { apply scaled_fine; auto. eapply fine_le; [|exact Fi]. lra. } { apply (within_le (K * K * w)); auto. apply Le2. lra. } { now rewrite map_length. }
    { intros i Hi. rewrite map_length in Hi. rewrite at_scale. eapply Rle_trans; [now apply HF|]. now apply Le2. }
    { eapply Rlt_le_trans; [exact Hb|]. apply Rmult_le_compat_l; lra. } { rewrite at_scale, scaled_last. exact Rb. }
    rewrite encl_scale in Hz by auto.
    assert (Hz' : Rabs (z / (K * K) - enclR A re n e r) < eps) by now apply scaled_near.
    set (o := mkpet (plain (map (Rmult K) rs) Ar Fl) s (NaN :: map Fin V) None) in *.
    assert (At : obj_flux_at mk o (Fin b) = Ok (Fin z)).
    { unfold obj_flux_at, o. cbn [p_data p_set plain d_r d_flux].
      pose proof (inc_min (map (Rmult K) rs) ltac:(rewrite map_length; lia) (scaled_inc K rs HKp I)) as Hlo.
      pose proof (inc_max (map (Rmult K) rs) ltac:(rewrite map_length; lia) (scaled_inc K rs HKp I)) as Hhi.
      rewrite (pymin_is_min _ _ Hlo), (pymax_is_max _ _ Hhi). cbn [bind nleb XRnum xleb].
      assert (R1 : at_ (map (Rmult K) rs) 0 <= b <= last_of (map (Rmult K) rs)) by (rewrite at_scale, scaled_last; exact Rb).
      rewrite !Rleb_true by lra. cbn [andb]. rewrite Ek.
      rewrite (interp1d_fin _ _ _ _ _ _ _ Eg Hlo Hhi). cbn [bind nltb XRnum xltb].
      rewrite !Rltb_false by lra. cbn [orb]. now rewrite Ez. }
    intros a [[-> ->]|[-> Et]]; exists z; (split; [|exact Hz']); cbn [read]; unfold num.
    - unfold obj_half_flux, M_Petrosian.half. rewrite half_lit, Eb. cbn [bind fst]. now rewrite At.
    - unfold obj_total_flux. change (p_set o) with s. rewrite Et, Eb. cbn [bind fst]. now rewrite At.
  Qed.

  Theorem image_concentration2 f1 f2 r1 r2 eps : 0 < f1 / ef -> 0 < f2 / ef ->
    true_radius A re n e rt epsilon ef f1 r1 -> true_radius A re n e rt epsilon ef f2 r2 -> 0 < eps ->
    exists d w, 0 < d /\ 0 < w /\ forall rs, (2 < length rs)%nat -> increasing rs -> 0 < at_ rs 0 -> fine d (0 :: rs) ->
      Rmax rt (Rmax (Rmax r1 r2) (epsilon * rt)) + eps <= last_of rs ->
    exists K0, forall K X Y t x0 y0 m k q mk s, K0 <= K -> shows_sersic A (K * re) n e X Y t (K * last_of rs) x0 y0 m ->
      set_to eta epsilon ef d rs q s ->
    exists Fl Ar, radial_photometry exact_overlap k m (Fin (X - x0), Fin (Y - y0)) (map Fin (map (Rmult K) rs)) None None (Fin (/ (1 - e))) (Fin t)
        = Ok (map Fin Fl, map Fin Ar, map (fun _ => NaN) (map (Rmult K) rs)) /\
      (calm w (K * K * w) (mk q) (map (Rmult K) rs) Ar Fl ->
       exists o, Petrosian_new (plain (map (Rmult K) rs) Ar Fl) s = Ok o /\
      (exists a b c, read mk o (A_concentration (Fin f1) (Fin f2)) = Ok (VTriple (Fin a) (Fin b) (Fin c)) /\
         Rabs (a / K - r1) < eps /\ Rabs (b / K - r2) < eps /\ Rabs (c - 5 * (ln (r2 / r1) / ln 10)) < eps) /\
      forall a, concentration_of f1 f2 a -> exists c, read mk o a = Ok (VNum (Fin c)) /\
         Rabs (c - 5 * (ln (r2 / r1) / ln 10)) < eps).
  Proof.
    intros Hf1 Hf2 Tr1 Tr2 Heps.
    destruct (true_radius_eq A re n e rt epsilon ef Hre Hn Hrt Hep f1 r1 Tr1) as [Hr1 _].
    destruct (true_radius_eq A re n e rt epsilon ef Hre Hn Hrt Hep f2 r2 Tr2) as [Hr2 _].
    destruct (log_cont r1 r2 eps Hr1 Hr2 Heps) as (u & Hu & CL).
    set (eps' := Rmin eps u). assert (Heps' : 0 < eps') by now apply Rmin_glb_lt.
    assert (eps' <= eps) by apply Rmin_l. assert (eps' <= u) by apply Rmin_r.
    destruct (fraction_near2 f1 r1 eps' Hf1 Tr1 Heps') as (d1 & tau1 & sig1 & Hd1 & Htau1 & Hsig1 & C1).
    destruct (fraction_near2 f2 r2 eps' Hf2 Tr2 Heps') as (d2 & tau2 & sig2 & Hd2 & Htau2 & Hsig2 & C2).
    set (d := Rmin d1 d2). assert (Hd : 0 < d) by now apply Rmin_glb_lt.
    assert (d <= d1) by apply Rmin_l. assert (d <= d2) by apply Rmin_r.
    set (sig := Rmin sig1 sig2). assert (Hsig : 0 < sig) by now apply Rmin_glb_lt.
    assert (S1 : sig <= sig1) by apply Rmin_l. assert (S2 : sig <= sig2) by apply Rmin_r.
    set (tau := Rmin tau1 tau2). assert (Htau : 0 < tau) by now apply Rmin_glb_lt.
    assert (T1 : tau <= tau1) by apply Rmin_l. assert (T2 : tau <= tau2) by apply Rmin_r.
    set (w := Rmin tau sig). assert (Hw : 0 < w) by now apply Rmin_glb_lt.
    assert (W1 : w <= tau) by apply Rmin_l. assert (W2 : w <= sig) by apply Rmin_r.
    exists d, w. split; auto. split; auto. intros rs Len I P0 Fi La.
    assert (M1 : Rmax rt (Rmax r1 (epsilon * rt)) + eps' <= last_of rs).
    { eapply Rle_trans; [|exact La]. apply Rplus_le_compat; auto. apply Rle_max_compat_l, Rle_max_compat_r, Rmax_l. }
    assert (M2 : Rmax rt (Rmax r2 (epsilon * rt)) + eps' <= last_of rs).
    { eapply Rle_trans; [|exact La]. apply Rplus_le_compat; auto. apply Rle_max_compat_l, Rle_max_compat_r, Rmax_r. }
    destruct (image_data_full A re n e tau sig rs) as (K0 & HK0 & ID); auto.
    exists K0. intros K X Y t x0 y0 m k q mk s HK Sh Se.
    destruct (ID K X Y t x0 y0 m k s HK Sh) as (Fl & Ar & V & E & LF & EN & LV & HV & HF & LAr & VV).
    exists Fl, Ar. split; [exact E|]. intros [Cm1 Cm2]. eexists. split; [exact EN|].
    specialize (Cm2 (1 :: V) (samples_at rs Ar Fl V Len LF LV VV)).
    assert (HKp : 0 < K) by lra. assert (KK : 0 < K * K) by now apply Rmult_lt_0_compat.
    assert (Le2 : forall a b, a <= b -> K * K * a <= K * K * b) by (intros; apply Rmult_le_compat_l; lra).
    assert (Cl : forall tau' sig', tau <= tau' -> sig <= sig' -> close_object A re n e K tau' sig' rs Fl Ar V).
    { intros tau' sig' Q1 Q2. repeat (split; auto).
      - intros i Hi. eapply Rle_trans; [now apply HV|auto].
      - intros i Hi. eapply Rle_trans; [now apply HF|]. now apply Le2. }
    destruct (C1 d K mk q rs Fl Ar V s ltac:(lra) HKp Len I P0 Fi M1 Se (Cl _ _ T1 S1)
      ltac:(apply (within_le (K * K * w)); [apply Le2; lra|exact Cm1]) ltac:(apply (within_le w); [lra|exact Cm2])) as (a & Ea & Ha & _).
    destruct (C2 d K mk q rs Fl Ar V s ltac:(lra) HKp Len I P0 Fi M2 Se (Cl _ _ T2 S2)
      ltac:(apply (within_le (K * K * w)); [apply Le2; lra|exact Cm1]) ltac:(apply (within_le w); [lra|exact Cm2])) as (b & Eb & Hb & _).
    apply scaled_near in Ha; auto. apply scaled_near in Hb; auto.
    destruct (CL (a / K) (b / K) ltac:(lra) ltac:(lra)) as (Pa & Pb & Hc).
    assert (Pa' : 0 < a) by (apply Rmult_lt_reg_r with (/ K); [now apply Rinv_0_lt_compat|rewrite Rmult_0_l; exact Pa]).
    assert (Pb' : 0 < b) by (apply Rmult_lt_reg_r with (/ K); [now apply Rinv_0_lt_compat|rewrite Rmult_0_l; exact Pb]).
    replace (b / K / (a / K)) with (b / a) in Hc by (field; lra).
    set (o := mkpet (plain (map (Rmult K) rs) Ar Fl) s (NaN :: map Fin V) None) in *.
    assert (Co : obj_concentration mk o (Fin f1) (Fin f2) = Ok (Fin a, Fin b, Fin (5 * Rlog10 (b / a)))).
    { unfold obj_concentration. unfold obj_fraction in Ea, Eb.
      destruct (obj_r_petrosian mk o) as [rp|]; [|discriminate]. cbn [bind] in *.
      destruct (obj_r_petrosian_err mk o) as [rpe|]; [|discriminate]. cbn [bind] in *.
      destruct (conc_spec mk _ _ _ _ _ _ _ _ _ _ _ _ _ _ _ Ea Eb) as [_ Z]. now apply Z. }
    split.
    - exists a, b, (5 * Rlog10 (b / a)). split; [cbn [read]; rewrite Co; reflexivity|].
      split; [lra|]. split; [lra|exact Hc].
    - intros v Hv. exists (5 * Rlog10 (b / a)). split; [|exact Hc].
      assert (L5 : (nlit 1 5 : xr) = Fin (1 / 5)) by (unfold nlit; cbn [ndiv XRnum nofZ]; rewrite xdiv_fin by lra; reflexivity).
      assert (L45 : (nlit 4 5 : xr) = Fin (4 / 5)) by (unfold nlit; cbn [ndiv XRnum nofZ]; rewrite xdiv_fin by lra; reflexivity).
      assert (L9 : (nlit 9 10 : xr) = Fin (9 / 10)) by (unfold nlit; cbn [ndiv XRnum nofZ]; rewrite xdiv_fin by lra; reflexivity).
      destruct Hv as [(-> & -> & ->)|(-> & -> & ->)]; cbn [read]; unfold num.
      + rewrite L5, L45, Co. reflexivity.
      + unfold M_Petrosian.half. rewrite half_lit, L9, Co. reflexivity.
  Qed.
End Objects.
