(** Small errors in the fluxes: measured radii. *)
From Verif Require Import Base Num Numpy M_Utils M_Petrosian S_Utils S_Petrosian S_PetroR S_Conv S_Robust S_Noise
  L_Numpy L_Petrosian L_PetroR L_FracR L_Conv L_Conv2 L_Conv3 L_Sersic L_Robust L_Robust2 L_Noise.
Local Open Scope R_scope.

(** resampled curves of close samples are close *)
Lemma fins_eq (a b : list R) : map Fin a = map Fin b -> a = b.
Proof. revert b. induction a as [|u a IH]; intros [|w b] E; cbn in E; try discriminate; auto. injection E as -> E. f_equal; auto. Qed.
Lemma resampled_close (mk : kind -> list xr -> list xr -> result (xr -> xr)) ik num x y g z : (forall k, ik = Some k -> steady (mk k) x) -> (2 <= length x)%nat -> increasing x ->
  length y = length x -> resampled mk ik num x (map Fin y) g (map Fin z) -> length z = length g /\
  exists K, 0 <= K /\ forall y' d q', near d y y' -> resampled mk ik num x (map Fin y') g q' -> exists z', q' = map Fin z' /\ near (K * d) z z'.
Proof.
  intros Hk L2 I Ly R. destruct ik as [k|].
  - destruct (Hk k eq_refl) as (K & HK & St).
    cbn [resampled] in *. destruct R as (f & lo & hi & Ef & Hlo & Hhi & Eg & Eq).
    assert (lo = at_ x 0) as -> by (apply (min_unique x); auto; apply inc_min; auto; lia).
    assert (hi = last_of x) as -> by (apply (max_unique x); auto; apply inc_max; auto; lia).
    assert (Lz : length z = length g) by (apply (f_equal (@length xr)) in Eq; now rewrite !map_length in Eq).
    split; auto.
    exists K. split; auto. intros y' d q' N (f' & lo' & hi' & Ef' & _ & _ & _ & ->).
    destruct (St y y' d Ly N) as (f0 & f0' & E0 & E0' & V).
    assert (f0 = f) as -> by congruence. assert (f0' = f') as -> by congruence.
    assert (Rg : forall j, (j < length g)%nat -> at_ x 0 <= at_ g j <= last_of x).
    { intros j Hj. destruct Eg as [Lg Eg]. rewrite Eg by lia. pose proof (x_ends x L2 I) as E.
      assert (Hn : (2 <= Nat.max num (length x))%nat) by lia. set (n := Nat.max num (length x)) in *.
      assert (P : 0 < INR (n - 1)) by (apply lt_0_INR; lia).
      assert (Q : INR j <= INR (n - 1)) by (apply le_INR; lia). pose proof (pos_INR j).
      assert (T : 0 <= INR j * / INR (n - 1) <= 1).
      { split; [apply Rmult_le_pos; [lra|left; now apply Rinv_0_lt_compat]|].
        apply Rmult_le_reg_r with (INR (n - 1)); auto. rewrite Rmult_assoc, Rinv_l by lra. lra. }
      replace (INR j * ((last_of x - at_ x 0) / INR (n - 1))) with (INR j * / INR (n - 1) * (last_of x - at_ x 0)) by (unfold Rdiv; ring). nra. }
    set (val := fun u => match f' (Fin u) with Fin w => w | _ => 0 end).
    exists (map val g). split.
    + rewrite !map_map. apply map_ext_in. intros u Hu. apply In_nth with (d := 0) in Hu. destruct Hu as (j & Hj & <-).
      destruct (V (nth j g 0)) as (v & v' & _ & Ev' & _); [apply (Rg j Hj)|]. unfold val. now rewrite Ev'.
    + split; [now rewrite map_length|]. intros j Hj.
      destruct (V (at_ g j)) as (v & v' & Ev & Ev' & Hv); [apply (Rg j); lia|].
      assert (at_ z j = v) as ->.
      { assert (E : nth_error (map Fin z) j = nth_error (map f (map Fin g)) j) by now rewrite Eq.
        rewrite nth_fin in E by lia. rewrite nth_error_map, nth_fin in E by lia. cbn [option_map] in E. congruence. }
      assert (at_ (map val g) j = v') as ->; [|exact Hv].
      unfold at_ at 1. rewrite nth_indep with (d' := val 0) by (rewrite map_length; lia). rewrite map_nth.
      unfold val. change (nth j g 0) with (at_ g j). now rewrite Ev'.
  - destruct R as [-> E]. assert (z = y) as -> by (now apply fins_eq). split; auto.
    exists 1. split; [lra|]. intros y' d q' N [_ ->]. exists y'. split; auto. eapply near_le; [exact N|lra].
Qed.

Section Noise.
  Variables (mk : kind -> list xr -> list xr -> result (xr -> xr)) (rs A L : list R) (eta : R) (s : psettings xr).
  Hypothesis L2 : (2 < length rs)%nat.
  Hypothesis LA : length A = length rs.
  Hypothesis LL : length L = length rs.
  Hypothesis IR : increasing rs.
  Hypothesis R0 : 0 < at_ rs 0.
  Hypothesis IA : increasing A.
  Hypothesis A0 : 0 < at_ A 0.
  Hypothesis NL : nonzero_tail L.
  Hypothesis Es : s_eta s = Fin eta.
  Hypothesis Hk : forall k, s_kind s = Some k -> steady (mk k) (0 :: tl rs).

  Lemma petro_search' (M : list R) : length M = length rs -> nonzero_tail M ->
    exists o v g q, Petrosian_new (plain rs A M) s = Ok o /\ obj_petro_r mk o = Ok (v, NaN) /\
      o = mkpet (plain rs A M) s (NaN :: map Fin (ratios A M)) None /\
      resampled mk (s_kind s) (s_num s) (0 :: tl rs) (map Fin (eta_profile A M)) g q /\ found_radius false eta g q v.
  Proof.
    intros LM NM.
    pose proof (plain_object rs A M s L2 LA LM IA (inc_nz A IA A0) NM) as E.
    destruct rs as [|r0 rs']; [cbn in L2; lia|]. cbn [tl].
    assert (L1 : (1 <= length rs')%nat) by (cbn in L2; lia).
    assert (IX : increasing (0 :: rs')) by (apply (inc_tl r0 rs' R0 IR)).
    destruct (petro_r_total mk (Fin r0) rs' NaN (map Fin (ratios A M)) (Fin eta) (s_kind s) (s_num s) L1) as (v & Ev).
    { rewrite map_length, ratios_len. cbn in *. lia. }
    { intros k Ek. destruct (Hk k Ek) as (K & _ & St).
      destruct (St (1 :: ratios A M) (1 :: ratios A M) 0) as (f & _ & Ef & _).
      - cbn [length]. rewrite ratios_len. cbn in *; lia.
      - apply near_refl. lra.
      - exists f. exact Ef. }
    destruct (petro_r_spec mk _ _ _ _ _ _ _ _ _ L1 Ev) as (g & q & R & Fr & _).
    eexists. exists v, g, q. split; [exact E|]. split; [|split; [reflexivity|split; [exact R|exact Fr]]].
    unfold obj_petro_r. cbn [p_data p_set p_list p_err plain d_r]. rewrite Es. exact Ev.
  Qed.
  Lemma x_grid : (2 <= length (0%R :: tl rs))%nat /\ increasing (0 :: tl rs) /\ length (0%R :: tl rs) = length rs.
  Proof.
    destruct rs as [|r0 rs']; [cbn in L2; lia|]. cbn [tl]. split; [cbn in *; lia|]. split; [apply (inc_tl r0 rs' R0 IR)|reflexivity].
  Qed.

  Lemma radius_core g y i : resampled mk (s_kind s) (s_num s) (0 :: tl rs) (map Fin (eta_profile A L)) g (map Fin y) ->
    clear_cut false eta y i ->
    exists d, 0 < d /\ forall L', near d L L' -> nonzero_tail L' /\ exists o,
      Petrosian_new (plain rs A L') s = Ok o /\ o = mkpet (plain rs A L') s (NaN :: map Fin (ratios A L')) None /\
      obj_petro_r mk o = Ok (Fin (at_ g i), NaN).
  Proof.
    intros R C. destruct x_grid as (X2 & IX & LX).
    assert (LP : forall M, length (eta_profile A M) = length (0%R :: tl rs)) by (intros; rewrite profile_len; lia).
    destruct (resampled_close mk (s_kind s) (s_num s) (0 :: tl rs) (eta_profile A L) g y Hk X2 IX (LP L) R) as (Ly & K & HK & Cl).
    destruct (search_stable false eta g y i ltac:(lia) C) as (e & He & St).
    destruct (profile_near A L (e / (K + 1)) IA A0 ltac:(lia) NL) as (d & Hd & Pr).
    { apply Rdiv_lt_0_compat; lra. }
    exists d. split; auto. intros L' N. destruct (Pr L' N) as [NL' NP]. split; auto. pose proof N as [LL' _].
    destruct (petro_search' L' ltac:(lia) NL') as (o & v & g' & q & E & Ev & Eo & R' & F).
    assert (g' = g) as -> by (eapply resampled_grid; [exact X2|exact R'|exact R]).
    destruct (Cl _ _ _ NP R') as (z' & -> & Nz).
    exists o. split; auto. split; auto. rewrite Ev. do 2 f_equal.
    apply (St eta z' v); auto.
    - rewrite Rminus_eq_0, Rabs_R0. lra.
    - eapply near_le; [exact Nz|]. apply Rmult_le_reg_r with ((K + 1)); [lra|].
      replace (K * (e / (K + 1)) * (K + 1)) with (K * e) by (field; lra). nra.
  Qed.

  (** C103: r_petrosian *)
  Theorem noise_radius g y i : resampled mk (s_kind s) (s_num s) (0 :: tl rs) (map Fin (eta_profile A L)) g (map Fin y) ->
    clear_cut false eta y i ->
    exists d, 0 < d /\ forall L', near d L L' -> exists o,
      Petrosian_new (plain rs A L') s = Ok o /\ read mk o A_r_petrosian = Ok (VNum (Fin (at_ g i))).
  Proof.
    intros R C. destruct (radius_core g y i R C) as (d & Hd & H). exists d. split; auto. intros L' N.
    destruct (H L' N) as (_ & o & E & _ & Ev). exists o. split; auto. eapply read_petro; eauto.
  Qed.

  (** C103: radii of the curve of growth *)
  Theorem noise_fraction ep ef fr k g y i g2 z j f F : s_epsilon s = Fin ep -> s_epsilon_fraction s = Fin ef -> ef <> 0 -> s_kind s = Some k -> steady (mk k) rs ->
    resampled mk (s_kind s) (s_num s) (0 :: tl rs) (map Fin (eta_profile A L)) g (map Fin y) -> clear_cut false eta y i ->
    at_ rs 0 <= at_ g i * ep <= last_of rs -> mk k (map Fin rs) (map Fin L) = Ok f -> f (Fin (at_ g i * ep)) = Fin F ->
    resampled mk (s_kind s) (s_num s) rs (map Fin L) g2 (map Fin z) -> clear_cut true (F * (fr / ef)) z j ->
    exists d, 0 < d /\ forall L', near d L L' -> exists o,
      Petrosian_new (plain rs A L') s = Ok o /\
      forall x, radius_of s fr x -> read mk o x = Ok (VNum (Fin (at_ g2 j))).
  Proof.
    intros Ep Ef Nf Ek Hk2 R C Ha Mf EF R2 C2.
    destruct (radius_core g y i R C) as (d1 & Hd1 & H1). set (a := at_ g i) in *.
    destruct (resampled_close mk (s_kind s) (s_num s) rs L g2 z ltac:(congruence) ltac:(lia) IR LL R2) as (Lz & K & HK & Cl).
    destruct (search_stable true (F * (fr / ef)) g2 z j ltac:(lia) C2) as (e & He & St).
    destruct Hk2 as (K2 & HK2 & St2).
    set (c := Rabs (fr / ef)). assert (Hc : 0 <= c) by apply Rabs_pos.
    set (d2 := e / (K + 1)). set (d3 := e / (K2 * c + 1)).
    assert (Hd2 : 0 < d2) by (apply Rdiv_lt_0_compat; lra).
    assert (Hkc : 0 <= K2 * c) by now apply Rmult_le_pos.
    assert (Hd3 : 0 < d3) by (apply Rdiv_lt_0_compat; lra).
    exists (Rmin d1 (Rmin d2 d3)). split; [repeat apply Rmin_glb_lt; auto|].
    pose proof (Rmin_l d1 (Rmin d2 d3)) as M1. pose proof (Rmin_r d1 (Rmin d2 d3)) as M2.
    pose proof (Rmin_l d2 d3) as M3. pose proof (Rmin_r d2 d3) as M4. set (d := Rmin d1 _) in *.
    intros L' N. destruct (H1 L' ltac:(eapply near_le; [exact N|exact M1])) as (NL' & o & E & Eo & Ev). exists o. split; auto.
    pose proof N as [LL' Hn]. assert (D0 : 0 <= d) by (pose proof (Hn 0%nat ltac:(lia)) as X; pose proof (Rabs_pos (at_ L' 0 - at_ L 0)); lra).
    destruct (St2 L L' d LL N) as (f0 & f' & Ef0 & Ef' & V). assert (f0 = f) as -> by congruence.
    destruct (V (a * ep)) as (v & F' & Ev0 & EF' & HF). { exact Ha. }
    assert (v = F) as -> by congruence.
    destruct (frac_total mk fr rs L' a (Some NaN) ep ef k (s_num s) f' ltac:(lia) ltac:(lia) IR Ha Nf Ef') as (w & Ew).
    assert (In1 : forall lo hi, is_min rs lo -> is_max rs hi -> lo <= a * ep <= hi).
    { intros lo hi X Y. rewrite (min_unique _ _ _ X (inc_min rs ltac:(lia) IR)), (max_unique _ _ _ Y (inc_max rs ltac:(lia) IR)). lra. }
    destruct (frac_spec mk fr rs (map Fin L') a (Some NaN) ep ef (Some k) (s_num s) w NaN ltac:(lia) In1 Ew) as (f1 & g' & q & Mf1 & R' & _ & Fr & _).
    cbn [kind_or_cubic] in Mf1. assert (f1 = f') as -> by congruence. specialize (Fr F' EF').
    rewrite Ek in R2. assert (g' = g2) as -> by (eapply resampled_grid; [|exact R'|exact R2]; lia). rewrite Ek in Cl.
    destruct (Cl _ _ _ N R') as (z' & -> & Nz).
    assert (w = Fin (at_ g2 j)) as ->.
    { apply (St (F' * (fr / ef)) z' w); auto.
      - replace (F' * (fr / ef) - F * (fr / ef)) with ((F' - F) * (fr / ef)) by ring. rewrite Rabs_mult. fold c.
        apply Rle_trans with (K2 * d * c); [apply Rmult_le_compat_r; auto|].
        apply Rle_trans with (K2 * c * d3); [replace (K2 * d * c) with (K2 * c * d) by ring; apply Rmult_le_compat_l; lra|]. unfold d3. apply Rmult_le_reg_r with (K2 * c + 1); [lra|].
        replace (K2 * c * (e / (K2 * c + 1)) * (K2 * c + 1)) with (K2 * c * e) by (field; lra). nra.
      - eapply near_le; [exact Nz|]. apply Rle_trans with (K * d2); [apply Rmult_le_compat_l; lra|]. unfold d2. apply Rmult_le_reg_r with (K + 1); [lra|].
        replace (K * (e / (K + 1)) * (K + 1)) with (K * e) by (field; lra). nra. }
    assert (Oo : obj_fraction mk o (Fin fr) = Ok (Fin (at_ g2 j), NaN)).
    { unfold obj_fraction, obj_r_petrosian, obj_r_petrosian_err. rewrite Ev. cbn [bind fst snd]. rewrite Eo.
      cbn [p_data p_set plain d_r d_flux d_flux_err]. rewrite Ep, Ef, Ek. exact Ew. }
    assert (So : p_set o = s) by (rewrite Eo; reflexivity).
    intros x [->|[[-> ->]|[-> Et]]]; cbn [read].
    - rewrite Oo. reflexivity.
    - unfold half. rewrite half_lit, Oo. reflexivity.
    - rewrite So, Et, Oo. reflexivity.
  Qed.
End Noise.
