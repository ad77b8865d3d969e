(** Half-light radii, fluxes and concentrations of a rendered Sersic galaxy. *)
From Coq Require Import String.
From Verif Require Import Base Num Numpy M_Utils M_Photometry S_Photometry M_Petrosian M_Interp M_Sersic Gamma S_Sersic S_Utils S_Petrosian S_PetroR S_Conv S_Robust S_Noise
  M_PSF S_PSF M_Fitting S_Fitting M_Integrate S_Integrate M_Exact S_Exact S_Galaxy S_Render S_Image
  L_Numpy L_Utils L_Utils3 L_Sersic L_Petrosian L_PetroR L_FracR L_Robust2 L_Conv L_Conv2 L_Conv3 L_Noise L_Galaxy3.
Local Open Scope list_scope.
Local Open Scope R_scope.

Section Sersic.
  Variables A re n e : R.
  Hypothesis HA : 0 < A.
  Hypothesis Hre : 0 < re.
  Hypothesis Hn : 0 < n.
  Hypothesis He : e < 1.
  Notation F := (enclR A re n e).

  (** room for errors of the fluxes up to sig *)
  Definition fits (rt epsilon q r eps h d t tau sig : R) : Prop :=
    0 < h <= eps /\ 0 < d /\ 8 * d <= h /\ 8 * d <= epsilon * rt /\ 0 < t /\ epsilon * t <= epsilon * rt / 2 /\ epsilon * t <= eps / 2 /\
    0 < sig /\
    (F (epsilon * rt + epsilon * t + d) + sig - F (epsilon * rt)) * q <= tau /\
    (F (epsilon * rt) - F (epsilon * rt - epsilon * t - d) + sig) * q <= tau /\
    F (r + 2 * h) + 2 * sig + 2 * tau < 2 * F r - F (Rmax 0 (r - eps / 2)) /\
    F r + tau <= F (r + h / 4) - sig.

  Lemma fitting rt epsilon q r eps : 0 < rt -> 0 < epsilon -> 0 < q -> 0 < r -> 0 < eps ->
    exists h d t tau sig, fits rt epsilon q r eps h d t tau sig.
  Proof.
    intros Hrt Hep Hq Hr Heps.
    set (s0 := Rmax 0 (r - eps / 2)).
    assert (Hs0 : 0 <= s0 < r) by (split; [apply Rmax_l|apply Rmax_lub_lt; lra]).
    pose proof (encl_inc A re n e s0 r HA Hre Hn He Hs0) as Hm.
    set (m := F r - F s0). assert (0 < m) by (unfold m; lra).
    destruct (F_cont A re n e Hre Hn r Hr (m / 4) ltac:(lra)) as (d1 & Hd1 & C1).
    set (h := Rmin eps (d1 / 3)).
    assert (Hh : 0 < h) by (unfold h; apply Rmin_glb_lt; lra).
    assert (h <= eps) by apply Rmin_l. assert (h <= d1 / 3) by apply Rmin_r.
    pose proof (encl_inc A re n e r (r + h / 4) HA Hre Hn He ltac:(lra)) as H4.
    set (tau := Rmin (m / 8) ((F (r + h / 4) - F r) / 2)).
    assert (Ht : 0 < tau) by (unfold tau; apply Rmin_glb_lt; lra).
    assert (T1 : tau <= m / 8) by apply Rmin_l. assert (T2 : tau <= (F (r + h / 4) - F r) / 2) by apply Rmin_r.
    assert (Her : 0 < epsilon * rt) by now apply Rmult_lt_0_compat.
    assert (Htq : 0 < tau / q) by now apply Rdiv_lt_0_compat.
    destruct (F_cont A re n e Hre Hn (epsilon * rt) Her (tau / q / 2) ltac:(lra)) as (d2 & Hd2 & C2).
    set (d := Rmin (Rmin (h / 8) (d2 / 4)) (epsilon * rt / 8)).
    assert (Hd : 0 < d) by (unfold d; repeat apply Rmin_glb_lt; lra).
    assert (d <= h / 8) by (unfold d; eapply Rle_trans; apply Rmin_l).
    assert (d <= d2 / 4) by (unfold d; eapply Rle_trans; [apply Rmin_l|apply Rmin_r]).
    assert (d <= epsilon * rt / 8) by apply Rmin_r.
    set (t := Rmin (Rmin (d2 / 4) (epsilon * rt / 2)) (eps / 2) / epsilon).
    assert (Hte : epsilon * t = Rmin (Rmin (d2 / 4) (epsilon * rt / 2)) (eps / 2)) by (unfold t; field; lra).
    assert (Htp : 0 < t) by (unfold t; apply Rdiv_lt_0_compat; auto; repeat apply Rmin_glb_lt; lra).
    assert (Ht1 : epsilon * t <= d2 / 4) by (rewrite Hte; eapply Rle_trans; apply Rmin_l).
    assert (Ht2 : epsilon * t <= epsilon * rt / 2) by (rewrite Hte; eapply Rle_trans; [apply Rmin_l|apply Rmin_r]).
    assert (Ht3 : epsilon * t <= eps / 2) by (rewrite Hte; apply Rmin_r).
    assert (Ht0 : 0 < epsilon * t) by now apply Rmult_lt_0_compat.
    set (sig := Rmin (tau / q / 2) tau).
    assert (Hsig : 0 < sig) by (unfold sig; apply Rmin_glb_lt; lra).
    assert (S1 : sig <= tau / q / 2) by apply Rmin_l. assert (S2 : sig <= tau) by apply Rmin_r.
    exists h, d, t, tau, sig. unfold fits. fold s0. repeat (split; [try split; try lra|]).
    - pose proof (C2 (epsilon * rt + epsilon * t + d)) as X. rewrite Rabs_pos_eq in X by lra. specialize (X ltac:(lra)). apply Rabs_def2 in X.
      apply Rle_trans with (tau / q * q); [apply Rmult_le_compat_r; lra|right; field; lra].
    - pose proof (C2 (epsilon * rt - epsilon * t - d)) as X. rewrite Rabs_left1 in X by lra. specialize (X ltac:(lra)). apply Rabs_def2 in X.
      apply Rle_trans with (tau / q * q); [apply Rmult_le_compat_r; lra|right; field; lra].
    - pose proof (C1 (r + 2 * h)) as X1. rewrite Rabs_pos_eq in X1 by lra. specialize (X1 ltac:(lra)). apply Rabs_def2 in X1. unfold m in *. lra.
    - lra.
  Qed.

  (** a curve of growth sampled with errors *)
  Section Data.
    Variables (mk : kind -> list xr -> list xr -> result (xr -> xr)) (k : kind) (rs L : list R) (d sig : R).
    Hypothesis Len : (2 < length rs)%nat.
    Hypothesis Irs : increasing rs.
    Hypothesis P0 : 0 < at_ rs 0.
    Hypothesis Fi : fine d (0 :: rs).
    Hypothesis Hd : 0 < d.
    Hypothesis LL : length L = length rs.
    Hypothesis HL : forall i, (i < length rs)%nat -> Rabs (at_ L i - F (at_ rs i)) <= sig.
    Hypothesis NO : no_overshoot (mk k).
    Lemma framed_near t z : framed rs L t z -> F (Rmax 0 (t - d)) - sig <= z <= F (t + d) + sig.
    Proof.
      intros (i & i' & Hi & Hi' & Hx & B).
      pose proof (HL i ltac:(lia)) as B1. pose proof (HL i' ltac:(lia)) as B2. apply abs_bounds in B1. apply abs_bounds in B2.
      assert (at_ rs i' - at_ rs i < d).
      { assert (i' = i \/ i' = S i) as [->| ->] by lia; [lra|]. apply (fine_rs rs d Len Fi i). lia. }
      pose proof (at_pos rs i P0 Irs ltac:(lia)). pose proof (at_pos rs i' P0 Irs ltac:(lia)).
      assert (M : forall x, x = at_ rs i \/ x = at_ rs i' -> F (Rmax 0 (t - d)) <= F x <= F (t + d)).
      { intros x Hxx. assert (0 <= x /\ t - d <= x <= t + d) by (destruct Hxx as [->| ->]; lra).
        split; apply F_mono; auto; [split; [apply Rmax_l|apply Rmax_lub; lra]|lra]. }
      pose proof (M _ (or_introl eq_refl)). pose proof (M _ (or_intror eq_refl)). destruct B; lra.
    Qed.
    Lemma oracle_near : exists f, mk k (map Fin rs) (map Fin L) = Ok f /\
      forall t, at_ rs 0 <= t <= last_of rs -> exists z, f (Fin t) = Fin z /\ framed rs L t z.
    Proof.
      destruct (NO rs L Irs ltac:(auto) ltac:(lia)) as (f & Ef & Hf). exists f. split; auto.
      intros t Ht. destruct (find_step rs t ltac:(lia) Ht) as (i & Hi & Hx).
      destruct (Hf i t Hi Hx) as (z & Ez & B). exists z. split; auto. exists i, (S i). repeat split; auto; try lia; apply Hx.
    Qed.
  End Data.

  Lemma frac_near rt epsilon ef frac r eps h d t tau sig mk k num rs L a pe :
    0 < rt -> 0 < epsilon -> 0 < frac / ef -> 0 < r -> F r = F (epsilon * rt) * (frac / ef) ->
    fits rt epsilon (frac / ef) r eps h d t tau sig ->
    (2 < length rs)%nat -> increasing rs -> 0 < at_ rs 0 -> fine d (0 :: rs) ->
    length L = length rs -> (forall i, (i < length rs)%nat -> Rabs (at_ L i - F (at_ rs i)) <= sig) ->
    r + eps <= last_of rs -> epsilon * rt + eps <= last_of rs ->
    no_overshoot (mk k) -> last_of rs < d * INR (num - 1) -> Rabs (a - rt) < t ->
    exists b, fraction_to_r mk (Fin frac) (map Fin rs) (map Fin L) (Fin a) None pe (Fin epsilon) (Fin ef) (Some k) num
        = Ok (Fin b, NaN) /\ Rabs (b - r) < eps /\ at_ rs 0 <= b <= last_of rs.
  Proof.
    intros Hrt Hep Hq Hr Eq (Hh & Hd & Hdh & Hde & Ht & Ht2 & Ht3 & Hsig & T1 & T2 & M1 & M2) Len I P0 Fi LL HL La1 La2 NO Hnum Ha.
    set (q0 := frac / ef) in *.
    assert (E0 : ef <> 0).
    { intros ->. unfold q0, Rdiv in Hq. rewrite Rinv_0, Rmult_0_r in Hq. lra. }
    pose proof (first_small rs d Len Fi) as Fs.
    assert (Her : 0 < epsilon * rt) by now apply Rmult_lt_0_compat.
    assert (Hae : epsilon * rt - epsilon * t < a * epsilon < epsilon * rt + epsilon * t).
    { apply Rabs_def2 in Ha. split.
      - replace (a * epsilon) with (epsilon * a) by ring. rewrite <- Rmult_minus_distr_l. apply Rmult_lt_compat_l; lra.
      - replace (a * epsilon) with (epsilon * a) by ring. rewrite <- Rmult_plus_distr_l. apply Rmult_lt_compat_l; lra. }
    assert (Hin : at_ rs 0 <= a * epsilon <= last_of rs) by lra.
    destruct (oracle_near mk k rs L Len I LL NO) as (f & Ef & Hf).
    destruct (frac_total mk frac rs L a pe epsilon ef k num f) as (v & Ev); auto; [lia|].
    destruct (frac_spec mk frac rs (map Fin L) a pe epsilon ef (Some k) num v NaN) as (f' & g & q & Ef' & Rs & _ & Fr & Rg & _); auto.
    { lia. }
    { intros lo hi Hlo Hhi. rewrite (min_unique rs lo (at_ rs 0)), (max_unique rs hi (last_of rs)); auto.
      - apply inc_max; auto; lia. - apply inc_min; auto; lia. }
    cbn [kind_or_cubic] in Ef'. assert (f' = f) as -> by congruence.
    destruct (Hf (a * epsilon) Hin) as (z0 & Ez0 & Fz0). specialize (Fr z0 Ez0).
    pose proof (framed_near rs L d sig Len I P0 Fi Hd LL HL _ _ Fz0) as Bz0. rewrite Rmax_right in Bz0 by lra.
    fold q0 in Fr. set (tgt := z0 * q0) in *.
    assert (Htgt : F r - tau <= tgt <= F r + tau).
    { assert (F (epsilon * rt - epsilon * t - d) <= F (a * epsilon - d)) by (apply F_mono; auto; lra).
      assert (F (a * epsilon + d) <= F (epsilon * rt + epsilon * t + d)) by (apply F_mono; auto; lra).
      unfold tgt. rewrite Eq. split.
      - assert ((F (epsilon * rt) - z0) * q0 <= tau); [|lra]. eapply Rle_trans; [|exact T2]. apply Rmult_le_compat_r; lra.
      - assert ((z0 - F (epsilon * rt)) * q0 <= tau); [|lra]. eapply Rle_trans; [|exact T1]. apply Rmult_le_compat_r; lra. }
    destruct (resample_framed mk (Some k) num rs L d ltac:(lia) I ltac:(auto)) with (g := g) (q := q)
      as (z & -> & Lg & Ng & Fz & Hit); auto.
    { intros k' E'. injection E' as <-. split; auto. lra. }
    { now apply fine_rs. }
    assert (Gp : forall j, (j < length g)%nat -> 0 < at_ g j).
    { intros j Hj. destruct (Fz j Hj) as (i & i' & Hi & Hi' & Hx & _). pose proof (at_pos rs i P0 I ltac:(lia)). lra. }
    set (s0 := Rmax 0 (r - eps / 2)) in *.
    destruct (search_bounds true tgt g z v (r - eps) (r + h) (F r - tau - F s0 - sig) Ng Lg) as (b & -> & Hb); auto.
    - intros j Hj Hg. unfold gap. pose proof (framed_near rs L d sig Len I P0 Fi Hd LL HL _ _ (Fz j Hj)) as B. pose proof (Gp j Hj).
      assert (s0 = r - eps / 2) by (unfold s0; apply Rmax_right; lra).
      assert (F (at_ g j + d) <= F s0) by (apply F_mono; auto; lra). lra.
    - intros j Hj Hg. unfold gap. pose proof (framed_near rs L d sig Len I P0 Fi Hd LL HL _ _ (Fz j Hj)) as B. pose proof (Gp j Hj).
      assert (F (at_ g j + d) <= F (r + 2 * h)) by (apply F_mono; auto; lra). lra.
    - destruct (Hit (r + h / 2) ltac:(lra) ltac:(lra)) as (j & Hj & Hg). exists j. split; auto. split; [lra|]. unfold gap.
      pose proof (framed_near rs L d sig Len I P0 Fi Hd LL HL _ _ (Fz j Hj)) as B. rewrite Rmax_right in B by lra.
      assert (F (r + h / 4) <= F (at_ g j - d)) by (apply F_mono; auto; lra). lra.
    - exists b. split; auto. split; [apply Rabs_def1; lra|]. apply Rg; auto; [apply inc_min|apply inc_max]; auto; lia.
  Qed.

  (** the flux read off at a radius close to r *)
  Definition tight (r eps d sig : R) : Prop :=
    0 < d /\ 2 * d <= r /\ 0 < sig /\ F (r + 2 * d) + sig < F r + eps /\ F r - eps < F (r - 2 * d) - sig.
  Lemma tightly r eps : 0 < r -> 0 < eps -> exists d sig, tight r eps d sig.
  Proof.
    intros Hr Heps. destruct (F_cont A re n e Hre Hn r Hr (eps / 2) ltac:(lra)) as (d2 & Hd2 & C2).
    set (d := Rmin (d2 / 3) (r / 3)). assert (Hd : 0 < d) by (unfold d; apply Rmin_glb_lt; lra).
    assert (d <= d2 / 3) by apply Rmin_l. assert (d <= r / 3) by apply Rmin_r.
    exists d, (eps / 4). unfold tight. split; auto. split; [lra|]. split; [lra|]. split.
    - pose proof (C2 (r + 2 * d)) as X. rewrite Rabs_pos_eq in X by lra. specialize (X ltac:(lra)). apply Rabs_def2 in X. lra.
    - pose proof (C2 (r - 2 * d)) as X. rewrite Rabs_left1 in X by lra. specialize (X ltac:(lra)). apply Rabs_def2 in X. lra.
  Qed.
  Lemma flux_near r eps d sig (mk : kind -> list xr -> list xr -> result (xr -> xr)) k rs L b : 0 < r -> tight r eps d sig ->
    (2 < length rs)%nat -> increasing rs -> 0 < at_ rs 0 -> fine d (0 :: rs) -> no_overshoot (mk k) ->
    length L = length rs -> (forall i, (i < length rs)%nat -> Rabs (at_ L i - F (at_ rs i)) <= sig) ->
    Rabs (b - r) < d -> at_ rs 0 <= b <= last_of rs ->
    exists f z, mk k (map Fin rs) (map Fin L) = Ok f /\ f (Fin b) = Fin z /\ Rabs (z - F r) < eps.
  Proof.
    intros Hr (Hd & Hdr & Hsig & T1 & T2) Len I P0 Fi NO LL HL Hb Hin. apply Rabs_def2 in Hb.
    destruct (oracle_near mk k rs L Len I LL NO) as (f & Ef & Hf). destruct (Hf b Hin) as (z & Ez & Fz).
    exists f, z. split; auto. split; auto. pose proof (framed_near rs L d sig Len I P0 Fi Hd LL HL _ _ Fz) as B. rewrite Rmax_right in B by lra.
    assert (F (b + d) <= F (r + 2 * d)) by (apply F_mono; auto; lra).
    assert (F (r - 2 * d) <= F (b - d)) by (apply F_mono; auto; lra). apply Rabs_def1; lra.
  Qed.
End Sersic.

(** the same on finer pixels *)
Lemma fits_scale K A re n e rt epsilon q r eps h d t tau sig : 0 < K -> 0 < re -> fits A re n e rt epsilon q r eps h d t tau sig ->
  fits A (K * re) n e (K * rt) epsilon q (K * r) (K * eps) (K * h) (K * d) (K * t) (K * K * tau) (K * K * sig).
Proof.
  intros HK Hre (H1 & H2 & H3 & H4 & H5 & H6 & H7 & H8 & H9 & H10 & H11 & H12). unfold fits.
  assert (KK : 0 < K * K) by now apply Rmult_lt_0_compat.
  assert (Le : forall a b, a <= b -> K * a <= K * b) by (intros; apply Rmult_le_compat_l; lra).
  assert (Le2 : forall a b, a <= b -> K * K * a <= K * K * b) by (intros; apply Rmult_le_compat_l; lra).
  replace (epsilon * (K * rt) + epsilon * (K * t) + K * d) with (K * (epsilon * rt + epsilon * t + d)) by ring.
  replace (epsilon * (K * rt) - epsilon * (K * t) - K * d) with (K * (epsilon * rt - epsilon * t - d)) by ring.
  replace (epsilon * (K * rt)) with (K * (epsilon * rt)) by ring. replace (epsilon * (K * t)) with (K * (epsilon * t)) by ring.
  replace (K * r + 2 * (K * h)) with (K * (r + 2 * h)) by ring. replace (K * r + K * h / 4) with (K * (r + h / 4)) by field.
  replace (Rmax 0 (K * r - K * eps / 2)) with (K * Rmax 0 (r - eps / 2)).
  2: { rewrite <- RmaxRmult by lra. rewrite Rmult_0_r. f_equal. field. }
  rewrite !encl_scale by auto.
  split; [split; [apply Rmult_lt_0_compat; lra|apply Le; lra]|]. split; [apply Rmult_lt_0_compat; lra|].
  apply Le in H3. apply Le in H4. apply Le in H6. apply Le in H7. apply Le2 in H9. apply Le2 in H10. apply Le2 in H12.
  apply (Rmult_lt_compat_l (K * K)) in H11; auto.
  split; [lra|]. split; [lra|]. split; [apply Rmult_lt_0_compat; lra|]. split; [lra|]. split; [lra|]. split; [apply Rmult_lt_0_compat; lra|].
  split; [lra|]. split; [lra|]. split; lra.
Qed.
Lemma tight_scale K A re n e r eps d sig : 0 < K -> 0 < re -> tight A re n e r eps d sig ->
  tight A (K * re) n e (K * r) (K * K * eps) (K * d) (K * K * sig).
Proof.
  intros HK Hre (H1 & H2 & H3 & H4 & H5). unfold tight.
  assert (KK : 0 < K * K) by now apply Rmult_lt_0_compat.
  replace (K * r + 2 * (K * d)) with (K * (r + 2 * d)) by ring. replace (K * r - 2 * (K * d)) with (K * (r - 2 * d)) by ring.
  rewrite !encl_scale by auto. apply (Rmult_le_compat_l K) in H2; [|lra].
  apply (Rmult_lt_compat_l (K * K)) in H4; auto. apply (Rmult_lt_compat_l (K * K)) in H5; auto.
  split; [apply Rmult_lt_0_compat; lra|]. split; [lra|]. split; [apply Rmult_lt_0_compat; lra|]. split; lra.
Qed.

(** ** objects *)
Lemma scaled_inc K rs : 0 < K -> increasing rs -> increasing (map (Rmult K) rs).
Proof. intros HK I i Hi. rewrite map_length in Hi. rewrite !at_scale. apply Rmult_lt_compat_l; [lra|]. now apply I. Qed.
Lemma scaled_fine K d rs : 0 < K -> fine d (0 :: rs) -> fine (K * d) (0 :: map (Rmult K) rs).
Proof.
  intros HK Fi i Hi. cbn [length] in Hi. rewrite map_length in Hi. pose proof (Fi i ltac:(cbn [length]; lia)) as Fi'.
  replace (0 :: map (Rmult K) rs) with (map (Rmult K) (0 :: rs)) by (cbn [map]; now rewrite Rmult_0_r). rewrite !at_scale.
  rewrite <- Rmult_minus_distr_l. apply Rmult_lt_compat_l; lra.
Qed.
Lemma scaled_last K rs : last_of (map (Rmult K) rs) = K * last_of rs.
Proof. unfold last_of. now rewrite map_length, at_scale. Qed.
Lemma scaled_near K a r eps : 0 < K -> Rabs (a - K * r) < K * eps -> Rabs (a / K - r) < eps.
Proof.
  intros HK H. replace (a / K - r) with ((a - K * r) / K) by (field; lra). unfold Rdiv.
  rewrite Rabs_mult, (Rabs_pos_eq (/ K)) by (left; now apply Rinv_0_lt_compat).
  apply Rlt_le_trans with (K * eps * / K); [apply Rmult_lt_compat_r; auto; now apply Rinv_0_lt_compat|].
  right. field. lra.
Qed.

Section Objects.
  Variables A re n e rt eta epsilon ef : R.
  Hypothesis HA : 0 < A.
  Hypothesis Hre : 0 < re.
  Hypothesis Hn : 0 < n.
  Hypothesis He : 0 <= e < 1.
  Hypothesis Hrt : 0 < rt.
  Hypothesis Heta : petrosian_profile (Fin rt) (Fin re) (Fin n) = Fin eta.
  Hypothesis Hep : 0 < epsilon.

  (** what the image gives: an object whose profile and fluxes are close to the true ones *)
  Definition close_object (K tau sig : R) (rs Fl Ar V : list R) : Prop :=
    length Fl = length rs /\ length V = (length rs - 1)%nat /\
    (forall i, (S i < length rs)%nat -> Rabs (at_ V i - measured A (K * re) n e (K * at_ rs i) (K * at_ rs (S i))) <= tau) /\
    forall i, (i < length rs)%nat -> Rabs (at_ Fl i - enclR A (K * re) n e (K * at_ rs i)) <= K * K * sig.
  Notation obj K rs Ar Fl s V := (mkpet (plain (map (Rmult K) rs) Ar Fl) s (NaN :: map Fin V) None).

  Lemma fraction_near f r eps : 0 < f / ef -> true_radius A re n e rt epsilon ef f r -> 0 < eps ->
    exists d tau sig, 0 < d /\ 0 < tau /\ 0 < sig /\ forall d' K mk rs Fl Ar V s, 0 < d' <= d -> 0 < K ->
      (2 < length rs)%nat -> increasing rs -> 0 < at_ rs 0 -> fine d' (0 :: rs) ->
      Rmax rt (Rmax r (epsilon * rt)) + eps <= last_of rs -> settings mk eta epsilon ef d' rs s ->
      close_object K tau sig rs Fl Ar V ->
      exists b, obj_fraction mk (obj K rs Ar Fl s V) (Fin f) = Ok (Fin b, NaN) /\ Rabs (b - K * r) < K * eps /\ K * at_ rs 0 <= b <= K * last_of rs.
  Proof.
    intros Hf Tr Heps. destruct (true_radius_eq A re n e rt epsilon ef Hre Hn Hrt Hep f r Tr) as [Hr Eq].
    destruct (fitting A re n e HA Hre Hn (proj2 He) rt epsilon (f / ef) r eps Hrt Hep Hf Hr Heps) as (h & d1 & t & tau1 & sig & Ft).
    assert (Hd1 : 0 < d1) by apply Ft. assert (Ht : 0 < t) by apply Ft. assert (Hsig : 0 < sig) by apply Ft.
    set (t' := Rmin t (Rmin eps rt)).
    assert (Ht' : 0 < t') by (unfold t'; repeat apply Rmin_glb_lt; auto).
    assert (t' <= t) by apply Rmin_l.
    assert (t' <= eps) by (unfold t'; eapply Rle_trans; [apply Rmin_r|apply Rmin_l]).
    assert (t' <= rt) by (unfold t'; eapply Rle_trans; [apply Rmin_r|apply Rmin_r]).
    destruct (suitable A re n HA Hre Hn rt t' Hrt ltac:(lra)) as (h2 & d2 & tau & Su).
    assert (Hd2 : 0 < d2) by apply Su. assert (Htau : 0 < tau) by apply Su.
    exists (Rmin d1 d2), tau, sig. split; [now apply Rmin_glb_lt|]. split; auto. split; auto.
    intros d K mk rs Fl Ar V s Hd HK Len I P0 Fi La (Es1 & Es2 & Es3 & k & Ek & NO & Hnum) (LF & LV & HV & HF).
    assert (d <= d1) by (eapply Rle_trans; [apply Hd|apply Rmin_l]).
    assert (d <= d2) by (eapply Rle_trans; [apply Hd|apply Rmin_r]).
    pose proof (Rmax_l rt (Rmax r (epsilon * rt))). pose proof (Rmax_r rt (Rmax r (epsilon * rt))).
    pose proof (Rmax_l r (epsilon * rt)). pose proof (Rmax_r r (epsilon * rt)).
    pose proof (pos_INR (s_num s - 1)).
    assert (Le : forall a b, a <= b -> K * a <= K * b) by (intros; apply Rmult_le_compat_l; lra).
    assert (Lt : forall a b, a < b -> K * a < K * b) by (intros; apply Rmult_lt_compat_l; lra).
    assert (N1 : last_of rs < d1 * INR (s_num s - 1)) by nra.
    assert (N2 : last_of rs < d2 * INR (s_num s - 1)) by nra.
    assert (HKre : 0 < K * re) by now apply Rmult_lt_0_compat.
    destruct (petro_near A (K * re) n e HA HKre Hn (proj2 He) (K * rt) (K * t') (K * h2) (K * d2) tau mk (s_kind s) (s_num s) (map (Rmult K) rs) V)
      as (a & Ea & Ha); auto using scaled_inc.
    { apply Rmult_lt_0_compat; lra. } { apply suits_scale; auto. } { now rewrite map_length. } { rewrite at_scale. now apply Rmult_lt_0_compat. }
    { apply scaled_fine; auto. eapply fine_le; [|exact Fi]. lra. }
    { rewrite scaled_last, <- Rmult_plus_distr_l. apply Le. lra. } { now rewrite map_length. }
    { intros i Hi. rewrite map_length in Hi. rewrite !at_scale. now apply HV. }
    { intros k' Ek'. assert (k' = k) as -> by congruence. split; auto. rewrite scaled_last, Rmult_assoc. now apply Lt. }
    rewrite prof_scale in Ea by auto.
    destruct (frac_near A (K * re) n e HA HKre Hn (proj2 He) (K * rt) epsilon ef f (K * r) (K * eps) (K * h) (K * d1) (K * t) (K * K * tau1) (K * K * sig)
       mk k (s_num s) (map (Rmult K) rs) Fl a (Some NaN)) as (b & Eb & Hb & Rb); auto using scaled_inc.
    { apply Rmult_lt_0_compat; lra. } { apply Rmult_lt_0_compat; lra. }
    { replace (epsilon * (K * rt)) with (K * (epsilon * rt)) by ring. rewrite !encl_scale by auto. rewrite Eq. ring. }
    { apply fits_scale; auto. } { now rewrite map_length. } { rewrite at_scale. now apply Rmult_lt_0_compat. }
    { apply scaled_fine; auto. eapply fine_le; [|exact Fi]. lra. } { now rewrite map_length. }
    { intros i Hi. rewrite map_length in Hi. rewrite at_scale. now apply HF. }
    { rewrite scaled_last, <- Rmult_plus_distr_l. apply Le. lra. }
    { rewrite scaled_last. replace (epsilon * (K * rt) + K * eps) with (K * (epsilon * rt + eps)) by ring. apply Le. lra. }
    { rewrite scaled_last, Rmult_assoc. now apply Lt. }
    { eapply Rlt_le_trans; [exact Ha|]. now apply Le. }
    exists b. rewrite at_scale, scaled_last in Rb. split; [|auto].
    unfold obj_fraction, obj_r_petrosian, obj_r_petrosian_err, obj_petro_r. cbn [p_data p_set p_list p_err plain d_r d_flux d_flux_err].
    assert (Eeta : eta = profR re n rt) by (rewrite petro_fin in Heta by auto; unfold profR; congruence).
    rewrite Es1, Eeta, Ea. cbn [bind fst snd]. rewrite Es2, Es3, Ek. exact Eb.
  Qed.

  (** ** what is read off the object *)
  Theorem image_fraction f r eps : 0 < f / ef -> true_radius A re n e rt epsilon ef f r -> 0 < eps ->
    exists d, 0 < d /\ forall rs, (2 < length rs)%nat -> increasing rs -> 0 < at_ rs 0 -> fine d (0 :: rs) ->
      Rmax rt (Rmax r (epsilon * rt)) + eps <= last_of rs ->
    exists K0, forall K X Y t x0 y0 m k mk s, K0 <= K -> shows_sersic A (K * re) n e X Y t (K * last_of rs) x0 y0 m ->
      settings mk eta epsilon ef d rs s ->
    exists Fl Ar o, radial_photometry exact_overlap k m (Fin (X - x0), Fin (Y - y0)) (map Fin (map (Rmult K) rs)) None None (Fin (/ (1 - e))) (Fin t)
        = Ok (map Fin Fl, map Fin Ar, map (fun _ => NaN) (map (Rmult K) rs)) /\
      Petrosian_new (plain (map (Rmult K) rs) Ar Fl) s = Ok o /\
      forall a, radius_of s f a -> exists b, read mk o a = Ok (VNum (Fin b)) /\ Rabs (b / K - r) < eps.
  Proof.
    intros Hf Tr Heps. destruct (fraction_near f r eps Hf Tr Heps) as (d & tau & sig & Hd & Htau & Hsig & C).
    exists d. split; auto. intros rs Len I P0 Fi La.
    destruct (image_data A re n e tau sig rs) as (K0 & HK0 & ID); auto.
    exists K0. intros K X Y t x0 y0 m k mk s HK Sh Se.
    destruct (ID K X Y t x0 y0 m k s HK Sh) as (Fl & Ar & V & E & LF & EN & LV & HV & HF).
    exists Fl, Ar. eexists. split; [exact E|]. split; [exact EN|].
    destruct (C d K mk rs Fl Ar V s ltac:(lra) ltac:(lra) Len I P0 Fi La Se) as (b & Eb & Hb & _); [repeat (split; auto)|].
    intros a [->|[[-> ->]|[-> Et]]]; exists b; (split; [|apply scaled_near; auto; lra]); cbn [read]; unfold num.
    - rewrite Eb. reflexivity.
    - unfold M_Petrosian.half. rewrite half_lit. rewrite Eb. reflexivity.
    - cbn [p_set]. rewrite Et, Eb. reflexivity.
  Qed.

  Theorem image_flux f r Ft eps : 0 < f / ef -> true_radius A re n e rt epsilon ef f r ->
    sersic_enclosed (Fin r) (Fin A) (Fin re) (Fin n) (Fin e) = Fin Ft -> 0 < eps ->
    exists d, 0 < d /\ forall rs, (2 < length rs)%nat -> increasing rs -> 0 < at_ rs 0 -> fine d (0 :: rs) ->
      Rmax rt (Rmax r (epsilon * rt)) + eps <= last_of rs ->
    exists K0, forall K X Y t x0 y0 m k mk s, K0 <= K -> shows_sersic A (K * re) n e X Y t (K * last_of rs) x0 y0 m ->
      settings mk eta epsilon ef d rs s ->
    exists Fl Ar o, radial_photometry exact_overlap k m (Fin (X - x0), Fin (Y - y0)) (map Fin (map (Rmult K) rs)) None None (Fin (/ (1 - e))) (Fin t)
        = Ok (map Fin Fl, map Fin Ar, map (fun _ => NaN) (map (Rmult K) rs)) /\
      Petrosian_new (plain (map (Rmult K) rs) Ar Fl) s = Ok o /\
      forall a, flux_of s f a -> exists v, read mk o a = Ok (VNum (Fin v)) /\ Rabs (v / (K * K) - Ft) < eps.
  Proof.
    intros Hf Tr EF Heps. destruct (true_radius_eq A re n e rt epsilon ef Hre Hn Hrt Hep f r Tr) as [Hr _].
    rewrite enclosed_fin in EF by (auto; lra). injection EF as <-.
    destruct (tightly A re n e Hre Hn r eps Hr Heps) as (d1 & sig1 & Ti).
    assert (Hd1 : 0 < d1) by apply Ti. assert (Hsig1 : 0 < sig1) by apply Ti.
    set (eps' := Rmin eps d1). assert (Heps' : 0 < eps') by now apply Rmin_glb_lt.
    assert (eps' <= eps) by apply Rmin_l. assert (eps' <= d1) by apply Rmin_r.
    destruct (fraction_near f r eps' Hf Tr Heps') as (d2 & tau & sig2 & Hd2 & Htau & Hsig2 & C).
    set (d := Rmin d1 d2). assert (Hd : 0 < d) by now apply Rmin_glb_lt.
    assert (d <= d1) by apply Rmin_l. assert (d <= d2) by apply Rmin_r.
    set (sig := Rmin sig1 sig2). assert (Hsig : 0 < sig) by now apply Rmin_glb_lt.
    assert (S1 : sig <= sig1) by apply Rmin_l. assert (S2 : sig <= sig2) by apply Rmin_r.
    exists d. split; auto. intros rs Len I P0 Fi La.
    destruct (image_data A re n e tau sig rs) as (K0 & HK0 & ID); auto.
    exists K0. intros K X Y t x0 y0 m k mk s HK Sh Se.
    destruct (ID K X Y t x0 y0 m k s HK Sh) as (Fl & Ar & V & E & LF & EN & LV & HV & HF).
    exists Fl, Ar. eexists. split; [exact E|]. split; [exact EN|].
    assert (HKp : 0 < K) by lra. assert (KK : 0 < K * K) by now apply Rmult_lt_0_compat.
    assert (Le2 : forall a b, a <= b -> K * K * a <= K * K * b) by (intros; apply Rmult_le_compat_l; lra).
    destruct (C d K mk rs Fl Ar V s ltac:(lra) HKp Len I P0 Fi ltac:(lra) Se) as (b & Eb & Hb & Rb).
    { repeat (split; auto). intros i Hi. eapply Rle_trans; [now apply HF|]. now apply Le2. }
    destruct Se as (Es1 & Es2 & Es3 & kk & Ek & NO & Hnum).
    assert (HKre : 0 < K * re) by now apply Rmult_lt_0_compat.
    destruct (flux_near A (K * re) n e HA HKre Hn (proj2 He) (K * r) (K * K * eps) (K * d1) (K * K * sig1) mk kk (map (Rmult K) rs) Fl b)
      as (g & z & Eg & Ez & Hz); auto using scaled_inc.
    { now apply Rmult_lt_0_compat. } { now apply tight_scale. } { now rewrite map_length. } { rewrite at_scale. now apply Rmult_lt_0_compat. }
    { apply scaled_fine; auto. eapply fine_le; [|exact Fi]. lra. } { now rewrite map_length. }
    { intros i Hi. rewrite map_length in Hi. rewrite at_scale. eapply Rle_trans; [now apply HF|]. now apply Le2. }
    { eapply Rlt_le_trans; [exact Hb|]. apply Rmult_le_compat_l; lra. } { rewrite at_scale, scaled_last. exact Rb. }
    rewrite encl_scale in Hz by auto.
    assert (Hz' : Rabs (z / (K * K) - enclR A re n e r) < eps) by now apply scaled_near.
    set (o := mkpet (plain (map (Rmult K) rs) Ar Fl) s (NaN :: map Fin V) None) in *.
    assert (At : obj_flux_at mk o (Fin b) = Ok (Fin z)).
    { unfold obj_flux_at, o. cbn [p_data p_set plain d_r d_flux].
      pose proof (inc_min (map (Rmult K) rs) ltac:(rewrite map_length; lia) (scaled_inc K rs HKp I)) as Hlo.
      pose proof (inc_max (map (Rmult K) rs) ltac:(rewrite map_length; lia) (scaled_inc K rs HKp I)) as Hhi.
      rewrite (pymin_is_min _ _ Hlo), (pymax_is_max _ _ Hhi). cbn [bind nleb XRnum xleb].
      assert (R1 : at_ (map (Rmult K) rs) 0 <= b <= last_of (map (Rmult K) rs)) by (rewrite at_scale, scaled_last; exact Rb).
      rewrite !Rleb_true by lra. cbn [andb]. rewrite Ek.
      rewrite (interp1d_fin _ _ _ _ _ _ _ Eg Hlo Hhi). cbn [bind nltb XRnum xltb].
      rewrite !Rltb_false by lra. cbn [orb]. now rewrite Ez. }
    intros a [[-> ->]|[-> Et]]; exists z; (split; [|exact Hz']); cbn [read]; unfold num.
    - unfold obj_half_flux, M_Petrosian.half. rewrite half_lit, Eb. cbn [bind fst]. now rewrite At.
    - unfold obj_total_flux. change (p_set o) with s. rewrite Et, Eb. cbn [bind fst]. now rewrite At.
  Qed.

  Theorem image_concentration f1 f2 r1 r2 eps : 0 < f1 / ef -> 0 < f2 / ef ->
    true_radius A re n e rt epsilon ef f1 r1 -> true_radius A re n e rt epsilon ef f2 r2 -> 0 < eps ->
    exists d, 0 < d /\ forall rs, (2 < length rs)%nat -> increasing rs -> 0 < at_ rs 0 -> fine d (0 :: rs) ->
      Rmax rt (Rmax (Rmax r1 r2) (epsilon * rt)) + eps <= last_of rs ->
    exists K0, forall K X Y t x0 y0 m k mk s, K0 <= K -> shows_sersic A (K * re) n e X Y t (K * last_of rs) x0 y0 m ->
      settings mk eta epsilon ef d rs s ->
    exists Fl Ar o, radial_photometry exact_overlap k m (Fin (X - x0), Fin (Y - y0)) (map Fin (map (Rmult K) rs)) None None (Fin (/ (1 - e))) (Fin t)
        = Ok (map Fin Fl, map Fin Ar, map (fun _ => NaN) (map (Rmult K) rs)) /\
      Petrosian_new (plain (map (Rmult K) rs) Ar Fl) s = Ok o /\
      (exists a b c, read mk o (A_concentration (Fin f1) (Fin f2)) = Ok (VTriple (Fin a) (Fin b) (Fin c)) /\
         Rabs (a / K - r1) < eps /\ Rabs (b / K - r2) < eps /\ Rabs (c - 5 * (ln (r2 / r1) / ln 10)) < eps) /\
      forall a, concentration_of f1 f2 a -> exists c, read mk o a = Ok (VNum (Fin c)) /\
         Rabs (c - 5 * (ln (r2 / r1) / ln 10)) < eps.
  Proof.
    intros Hf1 Hf2 Tr1 Tr2 Heps.
    destruct (true_radius_eq A re n e rt epsilon ef Hre Hn Hrt Hep f1 r1 Tr1) as [Hr1 _].
    destruct (true_radius_eq A re n e rt epsilon ef Hre Hn Hrt Hep f2 r2 Tr2) as [Hr2 _].
    destruct (log_cont r1 r2 eps Hr1 Hr2 Heps) as (u & Hu & CL).
    set (eps' := Rmin eps u). assert (Heps' : 0 < eps') by now apply Rmin_glb_lt.
    assert (eps' <= eps) by apply Rmin_l. assert (eps' <= u) by apply Rmin_r.
    destruct (fraction_near f1 r1 eps' Hf1 Tr1 Heps') as (d1 & tau1 & sig1 & Hd1 & Htau1 & Hsig1 & C1).
    destruct (fraction_near f2 r2 eps' Hf2 Tr2 Heps') as (d2 & tau2 & sig2 & Hd2 & Htau2 & Hsig2 & C2).
    set (d := Rmin d1 d2). assert (Hd : 0 < d) by now apply Rmin_glb_lt.
    assert (d <= d1) by apply Rmin_l. assert (d <= d2) by apply Rmin_r.
    set (sig := Rmin sig1 sig2). assert (Hsig : 0 < sig) by now apply Rmin_glb_lt.
    assert (S1 : sig <= sig1) by apply Rmin_l. assert (S2 : sig <= sig2) by apply Rmin_r.
    set (tau := Rmin tau1 tau2). assert (Htau : 0 < tau) by now apply Rmin_glb_lt.
    assert (T1 : tau <= tau1) by apply Rmin_l. assert (T2 : tau <= tau2) by apply Rmin_r.
    exists d. split; auto. intros rs Len I P0 Fi La.
    assert (M1 : Rmax rt (Rmax r1 (epsilon * rt)) + eps' <= last_of rs).
    { eapply Rle_trans; [|exact La]. apply Rplus_le_compat; auto. apply Rle_max_compat_l, Rle_max_compat_r, Rmax_l. }
    assert (M2 : Rmax rt (Rmax r2 (epsilon * rt)) + eps' <= last_of rs).
    { eapply Rle_trans; [|exact La]. apply Rplus_le_compat; auto. apply Rle_max_compat_l, Rle_max_compat_r, Rmax_r. }
    destruct (image_data A re n e tau sig rs) as (K0 & HK0 & ID); auto.
    exists K0. intros K X Y t x0 y0 m k mk s HK Sh Se.
    destruct (ID K X Y t x0 y0 m k s HK Sh) as (Fl & Ar & V & E & LF & EN & LV & HV & HF).
    exists Fl, Ar. eexists. split; [exact E|]. split; [exact EN|].
    assert (HKp : 0 < K) by lra. assert (KK : 0 < K * K) by now apply Rmult_lt_0_compat.
    assert (Le2 : forall a b, a <= b -> K * K * a <= K * K * b) by (intros; apply Rmult_le_compat_l; lra).
    assert (Cl : forall tau' sig', tau <= tau' -> sig <= sig' -> close_object K tau' sig' rs Fl Ar V).
    { intros tau' sig' Q1 Q2. repeat (split; auto).
      - intros i Hi. eapply Rle_trans; [now apply HV|auto].
      - intros i Hi. eapply Rle_trans; [now apply HF|]. now apply Le2. }
    destruct (C1 d K mk rs Fl Ar V s ltac:(lra) HKp Len I P0 Fi M1 Se (Cl _ _ T1 S1)) as (a & Ea & Ha & _).
    destruct (C2 d K mk rs Fl Ar V s ltac:(lra) HKp Len I P0 Fi M2 Se (Cl _ _ T2 S2)) as (b & Eb & Hb & _).
    apply scaled_near in Ha; auto. apply scaled_near in Hb; auto.
    destruct (CL (a / K) (b / K) ltac:(lra) ltac:(lra)) as (Pa & Pb & Hc).
    assert (Pa' : 0 < a) by (apply Rmult_lt_reg_r with (/ K); [now apply Rinv_0_lt_compat|rewrite Rmult_0_l; exact Pa]).
    assert (Pb' : 0 < b) by (apply Rmult_lt_reg_r with (/ K); [now apply Rinv_0_lt_compat|rewrite Rmult_0_l; exact Pb]).
    replace (b / K / (a / K)) with (b / a) in Hc by (field; lra).
    set (o := mkpet (plain (map (Rmult K) rs) Ar Fl) s (NaN :: map Fin V) None) in *.
    assert (Co : obj_concentration mk o (Fin f1) (Fin f2) = Ok (Fin a, Fin b, Fin (5 * Rlog10 (b / a)))).
    { unfold obj_concentration. unfold obj_fraction in Ea, Eb.
      destruct (obj_r_petrosian mk o) as [rp|]; [|discriminate]. cbn [bind] in *.
      destruct (obj_r_petrosian_err mk o) as [rpe|]; [|discriminate]. cbn [bind] in *.
      destruct (conc_spec mk _ _ _ _ _ _ _ _ _ _ _ _ _ _ _ Ea Eb) as [_ Z]. now apply Z. }
    split.
    - exists a, b, (5 * Rlog10 (b / a)). split; [cbn [read]; rewrite Co; reflexivity|].
      split; [lra|]. split; [lra|exact Hc].
    - intros w Hw. exists (5 * Rlog10 (b / a)). split; [|exact Hc].
      assert (L5 : (nlit 1 5 : xr) = Fin (1 / 5)) by (unfold nlit; cbn [ndiv XRnum nofZ]; rewrite xdiv_fin by lra; reflexivity).
      assert (L45 : (nlit 4 5 : xr) = Fin (4 / 5)) by (unfold nlit; cbn [ndiv XRnum nofZ]; rewrite xdiv_fin by lra; reflexivity).
      assert (L9 : (nlit 9 10 : xr) = Fin (9 / 10)) by (unfold nlit; cbn [ndiv XRnum nofZ]; rewrite xdiv_fin by lra; reflexivity).
      destruct Hw as [(-> & -> & ->)|(-> & -> & ->)]; cbn [read]; unfold num.
      + rewrite L5, L45, Co. reflexivity.
      + unfold M_Petrosian.half. rewrite half_lit, L9, Co. reflexivity.
  Qed.
End Objects.
