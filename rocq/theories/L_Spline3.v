(** The Petrosian radius of a rendered galaxy with interpolation that overshoots a little. *)
From Coq Require Import String.
From Verif Require Import Base Num Numpy M_Utils M_Photometry S_Photometry M_Petrosian M_Sersic Gamma S_Sersic S_Utils S_Petrosian S_PetroR S_Conv S_Robust S_Noise S_Spline
  M_PSF S_PSF M_Fitting S_Fitting M_Integrate S_Integrate M_Exact S_Exact S_Galaxy S_Render S_Image
  L_Numpy L_Sersic L_Petrosian L_PetroR L_Robust2 L_Conv L_Conv2 L_Noise L_Galaxy3 L_Spline.
Local Open Scope list_scope.
Local Open Scope R_scope.

(** ** the search on a profile with errors and overshoots that add up to tau *)
Section Search.
  Variables A re n e : R.
  Hypothesis HA : 0 < A.
  Hypothesis Hre : 0 < re.
  Hypothesis Hn : 0 < n.
  Hypothesis He : e < 1.
  Notation law := (sersic_law A re n (bnR n)).
  Notation p := (profR re n).

  Lemma petro_near2 rt eps h d tau sg w mk ik num rs V : 0 <= w -> 0 <= sg -> sg + w <= tau -> 0 < rt -> eps <= rt -> suits A re n rt eps h d tau ->
      (2 < length rs)%nat -> increasing rs -> 0 < at_ rs 0 -> fine d (0 :: rs) -> rt + eps <= last_of rs ->
      length V = (length rs - 1)%nat ->
      (forall i, (S i < length rs)%nat -> Rabs (at_ V i - measured A re n e (at_ rs i) (at_ rs (S i))) <= sg) ->
      (forall k, ik = Some k -> overshoots_within w (mk k) (0 :: tl rs) (1 :: V) /\ last_of rs < d * INR (num - 1)) ->
      exists a, calculate_petrosian_r mk (map Fin rs) (NaN :: map Fin V) None (Fin (p rt)) ik num = Ok (Fin a, NaN) /\
        Rabs (a - rt) < eps.
  Proof.
    intros Hw Hsg Hsum Hrt Heps' (Hh & Hd & Hde & Hdh & Htau & Hb & Hc) Len I P0 Fi La LV HV HK. assert (Heps : 0 < eps <= rt) by lra.
    assert (Full : forall i, (i < length rs)%nat -> 0 < at_ rs i) by (intros; apply at_pos; auto).
    assert (Step : forall i, (S i < length rs)%nat -> at_ rs (S i) - at_ rs i < d) by (intros i Hi; apply (Fi (S i)); cbn; lia).
    destruct rs as [|r0 rs]; [cbn in Len; lia|].
    assert (P0' : 0 < r0) by exact P0. cbn [tl] in HK.
    set (X := 0 :: rs) in *. set (Y := 1 :: V) in *.
    assert (LX : length X = length (r0 :: rs)) by reflexivity.
    assert (L2 : (2 <= length X)%nat) by (rewrite LX; lia).
    assert (L1 : (1 <= length rs)%nat) by (cbn in Len; lia).
    assert (LXY : length X = length Y) by (cbn in *; lia).
    assert (IX : increasing X) by (eapply inc_tl; eauto).
    assert (FX : fine (2 * d) X) by (eapply fine_tl; eauto).
    assert (AX : forall i, (1 <= i)%nat -> at_ X i = at_ (r0 :: rs) i) by (intros [|i] Hi; [lia|reflexivity]).
    assert (LaX : last_of X = last_of (r0 :: rs)).
    { unfold last_of. rewrite LX. apply AX. cbn in *; lia. }
    assert (low : forall i r, (i < length X)%nat -> at_ X i <= r -> 0 < r -> p r - sg <= at_ Y i).
    { intros i r Hi Hr Hr0. destruct i as [|i].
      - cbn [at_ nth Y]. pose proof (prof_range re n Hre Hn r Hr0). unfold at_, Y. cbn [nth]. lra.
      - change (at_ Y (S i)) with (at_ V i). pose proof (HV i ltac:(lia)) as HVi. apply abs_bounds in HVi. rewrite AX in Hr by lia.
        pose proof (Full i ltac:(lia)). pose proof (I i ltac:(lia)).
        destruct (measured_bracket A re n e HA Hre Hn He (at_ (r0 :: rs) i) (at_ (r0 :: rs) (S i)) ltac:(lra)) as [[B _] _].
        apply Rle_trans with (p (at_ (r0 :: rs) (S i)) - sg); [|lra].
        assert (p r <= p (at_ (r0 :: rs) (S i))); [|lra]. apply prof_dec_le; auto; try lra. }
    assert (high : forall i, (i < length X)%nat -> rt + h / 2 - 2 * d <= at_ X i <= rt + h / 2 + 4 * d -> at_ Y i <= p rt - w).
    { intros i Hi Hx. destruct i as [|i]; [unfold at_, X in Hx; cbn [nth] in Hx; lra|].
      change (at_ Y (S i)) with (at_ V i). pose proof (HV i ltac:(lia)) as HVi. apply abs_bounds in HVi. rewrite AX in Hx by lia.
      pose proof (Full i ltac:(lia)). pose proof (I i ltac:(lia)). pose proof (Step i ltac:(lia)).
      destruct (measured_bracket A re n e HA Hre Hn He (at_ (r0 :: rs) i) (at_ (r0 :: rs) (S i)) ltac:(lra)) as [_ B].
      set (a := at_ (r0 :: rs) i) in *. set (b := at_ (r0 :: rs) (S i)) in *.
      assert (p b * (law a / law b) <= p rt - tau); [|lra].
      pose proof (prof_dec_le re n Hre Hn (rt + h / 4) b ltac:(lra)).
      assert (law a <= law (rt + h / 2 - 4 * d)).
      { destruct (Req_dec a (rt + h / 2 - 4 * d)) as [->|]; [lra|]. left. apply law_dec; auto. lra. }
      assert (law (rt + h / 2 + 4 * d) <= law b).
      { destruct (Req_dec b (rt + h / 2 + 4 * d)) as [->|]; [lra|]. left. apply law_dec; auto. lra. }
      pose proof (law_pos A re n HA a). pose proof (law_pos A re n HA b).
      pose proof (prof_range re n Hre Hn b ltac:(lra)). pose proof (prof_range re n Hre Hn (rt + h / 4) ltac:(lra)).
      pose proof (law_pos A re n HA (rt + h / 2 - 4 * d)). pose proof (law_pos A re n HA (rt + h / 2 + 4 * d)).
      assert (0 < p rt - tau).
      { assert (0 < (p rt - tau) * law (rt + h / 2 + 4 * d)) by (eapply Rlt_le_trans; [|exact Hc]; apply Rmult_lt_0_compat; lra).
        destruct (Rlt_le_dec 0 (p rt - tau)); auto. nra. }
      apply Rmult_le_reg_r with (law b); auto.
      replace (p b * (law a / law b) * law b) with (p b * law a) by (field; lra).
      apply Rle_trans with (p (rt + h / 4) * law (rt + h / 2 - 4 * d)).
      - apply Rmult_le_compat; lra.
      - apply Rle_trans with (1 := Hc). apply Rmult_le_compat_l; lra. }
    assert (HK' : forall k, ik = Some k -> overshoots_within w (mk k) X Y /\ last_of X - at_ X 0 < 2 * d * INR (num - 1)).
    { intros k Ek. destruct (HK k Ek) as [N1 N2]. split; auto. rewrite LaX. unfold X at 1, at_. cbn [nth].
      pose proof (pos_INR (num - 1)). nra. }
    destruct (petro_r_total mk (Fin r0) rs NaN (map Fin V) (Fin (p rt)) ik num) as (v & Ev).
    { exact L1. } { rewrite map_length. cbn in *. lia. }
    { intros k Ek. destruct (HK k Ek) as [(f & Ef & _) _]. exists f. exact Ef. }
    destruct (petro_r_spec mk _ _ _ _ _ _ _ _ _ L1 Ev) as (g & q & Rs & Fr & _).
    destruct (resample_nearly mk ik num X Y (2 * d) w L2 IX LXY Hw HK' FX ltac:(lra) g q Rs)
      as (z & -> & Lg & Ng & Fz & Hit).
    assert (lowz : forall k r, (k < length g)%nat -> at_ g k + 2 * d <= r -> 0 < r -> p r - tau <= at_ z k).
    { intros k r Hk Hr Hr0. destruct (Fz k Hk) as (z' & (i & i' & Hi & Hi' & Hx & B) & Cz). pose proof (near_le _ _ _ Cz).
      assert (at_ X i' <= r).
      { assert (i' = i \/ i' = S i) as [->| ->] by lia; [lra|]. pose proof (FX i ltac:(lia)). lra. }
      pose proof (low i' r ltac:(lia) ltac:(lra) Hr0). pose proof (low i r ltac:(lia) ltac:(lra) Hr0).
      destruct B; lra. }
    destruct (search_bounds false (p rt) g z v (rt - eps) (rt + h) (p (rt - eps / 2) - p rt - tau) Ng Lg) as (a & -> & Ha); auto.
    - intros k Hk Hg. unfold gap. pose proof (lowz k (rt - eps / 2) Hk ltac:(lra) ltac:(lra)). lra.
    - intros k Hk Hg. unfold gap. pose proof (lowz k (rt + 2 * h) Hk ltac:(lra) ltac:(lra)). lra.
    - destruct (Hit (rt + h / 2)) as (j & Hj & Hgj).
      { unfold X, at_. cbn [nth]. lra. } { rewrite LaX. lra. }
      exists j. split; auto. split; [lra|]. unfold gap.
      destruct (Fz j Hj) as (z' & (i & i' & Hi & Hi' & Hx & B) & Cz). pose proof (near_le _ _ _ Cz).
      assert (at_ X i' - at_ X i < 2 * d).
      { assert (i' = i \/ i' = S i) as [->| ->] by lia; [lra|]. apply (FX i). lia. }
      pose proof (high i ltac:(lia) ltac:(lra)). pose proof (high i' ltac:(lia) ltac:(lra)). destruct B; lra.
    - exists a. split; [exact Ev|]. apply Rabs_def1; lra.
  Qed.
End Search.

Lemma samples_at (rs Ar F V : list R) : (2 < length rs)%nat -> length F = length rs -> length V = (length rs - 1)%nat ->
  (forall i, (S i < length rs)%nat -> at_ V i = petro_ratio Ar F (S i)) -> profile_samples Ar F (1 :: V).
Proof.
  intros Len LF LV VV. split; [cbn; lia|]. split; [reflexivity|]. intros [|i] Hi; [lia|].
  change (at_ (1 :: V) (S i)) with (at_ V i). apply VV. lia.
Qed.

(** C132 *)
Theorem petrosian_of_image2 A re n e rt eta eps : 0 < A -> 0 < re -> 0 < n -> 0 <= e < 1 -> 0 < rt ->
  petrosian_profile (Fin rt) (Fin re) (Fin n) = Fin eta -> 0 < eps ->
  exists d w, 0 < d /\ 0 < w /\ forall rs, (2 < length rs)%nat -> increasing rs -> 0 < at_ rs 0 -> fine d (0 :: rs) -> rt + eps <= last_of rs ->
  exists K0, forall K X Y t x0 y0 m k mk s, K0 <= K -> shows_sersic A (K * re) n e X Y t (K * last_of rs) x0 y0 m ->
    s_eta s = Fin eta -> (forall q, s_kind s = Some q -> last_of rs < d * INR (s_num s - 1)) ->
    exists F Ar,
      radial_photometry exact_overlap k m (Fin (X - x0), Fin (Y - y0)) (map Fin (map (Rmult K) rs)) None None (Fin (/ (1 - e))) (Fin t)
        = Ok (map Fin F, map Fin Ar, map (fun _ => NaN) (map (Rmult K) rs)) /\
      ((forall q, s_kind s = Some q -> calm w (K * K * w) (mk q) (map (Rmult K) rs) Ar F) ->
       exists o a, Petrosian_new (plain (map (Rmult K) rs) Ar F) s = Ok o /\
         read mk o A_r_petrosian = Ok (VNum (Fin a)) /\ Rabs (a / K - rt) < eps).
Proof.
  intros HA Hre Hn He Hrt Ht Heps. rewrite petro_fin in Ht by auto. injection Ht as <-.
  set (eps' := Rmin eps rt). assert (0 < eps') by (unfold eps'; apply Rmin_glb_lt; auto).
  assert (eps' <= eps) by apply Rmin_l. assert (eps' <= rt) by apply Rmin_r.
  destruct (suitable A re n HA Hre Hn rt eps' Hrt ltac:(lra)) as (h & d & tau & Su).
  assert (Hd : 0 < d) by apply Su. assert (Htau : 0 < tau) by apply Su.
  exists d, (tau / 2). split; auto. split; [lra|]. intros rs Len I P0 Fi La.
  destruct (image_data_full A re n e (tau / 2) 1 rs) as (K0 & HK0 & ID); auto; try lra.
  exists K0. intros K X Y t x0 y0 m k mk s HK Sh Es HS.
  assert (HKp : 0 < K) by lra.
  destruct (ID K X Y t x0 y0 m k s HK Sh) as (F & Ar & V & E & LF & EN & LV & HV & _ & LAr & VV).
  exists F, Ar. split; [exact E|]. intros Cm.
  assert (HKre : 0 < K * re) by (apply Rmult_lt_0_compat; lra).
  assert (Llast : last_of (map (Rmult K) rs) = K * last_of rs) by (unfold last_of; now rewrite map_length, at_scale).
  destruct (petro_near2 A (K * re) n e HA HKre Hn (proj2 He) (K * rt) (K * eps') (K * h) (K * d) tau (tau / 2) (tau / 2) mk (s_kind s) (s_num s) (map (Rmult K) rs) V)
    as (a & Ea & Ha).
  - lra.
  - lra.
  - lra.
  - apply Rmult_lt_0_compat; lra.
  - apply Rmult_le_compat_l; lra.
  - apply suits_scale; auto; lra.
  - now rewrite map_length.
  - intros i Hi. rewrite map_length in Hi. rewrite !at_scale. apply Rmult_lt_compat_l; [lra|]. now apply I.
  - rewrite at_scale. apply Rmult_lt_0_compat; lra.
  - intros i Hi. cbn [length] in Hi. rewrite map_length in Hi. pose proof (Fi i ltac:(cbn [length]; lia)) as Fi'.
    replace (0 :: map (Rmult K) rs) with (map (Rmult K) (0 :: rs)) by (cbn [map]; now rewrite Rmult_0_r). rewrite !at_scale.
    rewrite <- Rmult_minus_distr_l. apply Rmult_lt_compat_l; lra.
  - rewrite Llast, <- Rmult_plus_distr_l. apply Rmult_le_compat_l; lra.
  - now rewrite map_length.
  - intros i Hi. rewrite map_length in Hi. rewrite !at_scale. now apply HV.
  - intros q Eq. split; [apply (Cm q Eq); now apply (samples_at rs)|]. pose proof (HS q Eq) as Q2. rewrite Llast. rewrite Rmult_assoc. apply Rmult_lt_compat_l; lra.
  - rewrite prof_scale in Ea by lra.
    eexists. exists a. split; [exact EN|]. split.
    + cbn [read]. unfold num, obj_r_petrosian, obj_petro_r. cbn [p_data p_set p_list p_err d_r plain].
      unfold profR in Ea. rewrite Es, Ea. reflexivity.
    + replace (a / K - rt) with ((a - K * rt) / K) by (field; lra). unfold Rdiv. rewrite Rabs_mult, (Rabs_pos_eq (/ K)) by (left; apply Rinv_0_lt_compat; lra).
      apply Rlt_le_trans with (K * eps' * / K); [apply Rmult_lt_compat_r; auto; apply Rinv_0_lt_compat; lra|].
      replace (K * eps' * / K) with eps' by (field; lra). lra.
Qed.
