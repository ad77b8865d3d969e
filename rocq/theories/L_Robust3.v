(** Petrosian measurements with a residual background: radii from the curve of growth. *)
From Verif Require Import Base Num Numpy M_Utils M_Petrosian S_Utils S_Petrosian S_PetroR S_Conv S_Robust
  L_Numpy L_Petrosian L_PetroR L_FracR L_Conv L_Conv2 L_Conv3 L_Sersic L_Robust L_Robust2.
Local Open Scope R_scope.

Lemma mean_cross rs A L : declining rs A L -> forall i j, (i <= j < length rs)%nat -> at_ L j * at_ A i <= at_ L i * at_ A j.
Proof.
  intros (L2 & LA & LL & I & R0 & IA & A0 & H).
  assert (P : forall k, (k < length rs)%nat -> 0 < at_ A k) by (intros; apply at_pos; auto; lia).
  assert (St : forall k, (S k < length rs)%nat -> at_ L (S k) * at_ A k <= at_ L k * at_ A (S k)).
  { intros k Hk. destruct (H (S k) ltac:(lia)) as [_ M]. unfold local_sb, mean_sb in M.
    replace (S k - 1)%nat with k in M by lia. pose proof (IA k ltac:(lia)). pose proof (P (S k) Hk).
    apply Rmult_le_compat_r with (r := (at_ A (S k) - at_ A k) * at_ A (S k)) in M; [|nra].
    replace ((at_ L (S k) - at_ L k) / (at_ A (S k) - at_ A k) * ((at_ A (S k) - at_ A k) * at_ A (S k)))
      with ((at_ L (S k) - at_ L k) * at_ A (S k)) in M by (field; lra).
    replace (at_ L (S k) / at_ A (S k) * ((at_ A (S k) - at_ A k) * at_ A (S k)))
      with (at_ L (S k) * (at_ A (S k) - at_ A k)) in M by (field; lra). nra. }
  intros i j [Hij Hj]. induction Hij as [|j Hij IH]; [lra|].
  specialize (IH ltac:(lia)). specialize (St j Hj). pose proof (P i ltac:(lia)). pose proof (P j ltac:(lia)). pose proof (P (S j) Hj).
  apply Rmult_le_reg_r with (at_ A j); auto.
  apply Rmult_le_compat_r with (r := at_ A i) in St; [|lra]. apply Rmult_le_compat_r with (r := at_ A (S j)) in IH; [|lra]. nra.
Qed.
Lemma declining_first rs A L : declining rs A L -> 0 < at_ L 0.
Proof.
  intros D. pose proof (mean_cross rs A L D 0 1) as C. destruct D as (L2 & LA & LL & I & R0 & IA & A0 & H).
  specialize (C ltac:(lia)). destruct (H 1%nat ltac:(lia)) as [M _]. pose proof (at_pos A 1 A0 IA ltac:(lia)) as A1.
  unfold mean_sb in M. assert (0 < at_ L 1).
  { apply Rmult_lt_reg_r with (/ at_ A 1); [now apply Rinv_0_lt_compat|]. rewrite Rmult_0_l. exact M. }
  apply Rmult_lt_reg_r with (at_ A 1); auto. rewrite Rmult_0_l. nra.
Qed.
Lemma mix_sky b A L i t : length A = length L -> (S i < length L)%nat ->
  mix (with_sky b A L) i t = mix L i t + b * mix A i t.
Proof. intros E H. unfold mix. rewrite !sky_at by lia. ring. Qed.

Section Fraction.
  Variables (mk : kind -> list xr -> list xr -> result (xr -> xr)) (rs A L : list R) (b eta ep ef f : R) (s : psettings xr) (k : kind).
  Hypothesis Hb : 0 <= b.
  Hypothesis D : declining rs A L.
  Hypothesis IL : increasing L.
  Hypothesis Es : s_eta s = Fin eta.
  Hypothesis Ep : s_epsilon s = Fin ep.
  Hypothesis Ef : s_epsilon_fraction s = Fin ef.
  Hypothesis Ek : s_kind s = Some k.
  Hypothesis Hk : straight (mk k).
  Hypothesis Hnum : (2 <= s_num s)%nat.
  Hypothesis Hep : 0 < ep.
  Hypothesis Hf : 0 < f <= ef.
  Hypothesis Dec : forall i, (1 <= i)%nat -> (S i < length rs)%nat -> sky_ratio b A L (S i) < sky_ratio b A L i.
  Hypothesis Top : sky_ratio b A L 1 < 1.

  Lemma frac_order a a' w w' e e' pe pe' : a <= a' -> at_ rs 0 <= a * ep -> a' * ep <= last_of rs ->
    fraction_to_r mk (Fin f) (map Fin rs) (map Fin L) (Fin a) None pe (Fin ep) (Fin ef) (Some k) (s_num s) = Ok (w, e) ->
    fraction_to_r mk (Fin f) (map Fin rs) (map Fin (with_sky b A L)) (Fin a') None pe' (Fin ep) (Fin ef) (Some k) (s_num s) = Ok (w', e') ->
    forall z', w' = Fin z' -> exists z, w = Fin z /\ z <= z' + (last_of rs - at_ rs 0) / INR (s_num s - 1).
  Proof.
    intros Ha H0 H1 E E'.
    pose proof D as (L2 & LA & LL & I & R0 & IA & A0 & H).
    assert (L2' : (2 <= length rs)%nat) by lia.
    pose proof (inc_min rs ltac:(lia) I) as Hlo. pose proof (inc_max rs ltac:(lia) I) as Hhi.
    assert (a * ep <= a' * ep) by nra.
    assert (In1 : forall lo hi, is_min rs lo -> is_max rs hi -> lo <= a * ep <= hi).
    { intros lo hi X Y. rewrite (min_unique _ _ _ X Hlo), (max_unique _ _ _ Y Hhi). lra. }
    assert (In2 : forall lo hi, is_min rs lo -> is_max rs hi -> lo <= a' * ep <= hi).
    { intros lo hi X Y. rewrite (min_unique _ _ _ X Hlo), (max_unique _ _ _ Y Hhi). lra. }
    destruct (frac_spec mk _ _ _ _ _ _ _ _ _ _ _ L2' In1 E) as (fo & g & q & Mf & Rs & _ & Fr & _).
    destruct (frac_spec mk _ _ _ _ _ _ _ _ _ _ _ L2' In2 E') as (fo' & g' & q' & Mf' & Rs' & _ & Fr' & _).
    assert (g' = g) as -> by (eapply resampled_grid; [exact L2'|exact Rs'|exact Rs]).
    set (Ls := with_sky b A L) in *.
    assert (LLs : length Ls = length rs) by (unfold Ls; rewrite sky_len; lia).
    assert (Hk' : forall k0, Some k = Some k0 -> straight (mk k0)) by (intros k0 X; injection X as <-; exact Hk).
    destruct (resample_mix mk (Some k) (s_num s) rs L2' I Hk' L g q ltac:(lia) Rs) as (y & -> & Ly & My).
    destruct (resample_mix mk (Some k) (s_num s) rs L2' I Hk' Ls g q' ltac:(lia) Rs') as (z & -> & Lz & Mz).
    pose proof (resampled_grid_of mk (Some k) (s_num s) rs L2' I Hk' _ _ _ Rs) as Gr.
    pose proof (grid_inc mk (Some k) (s_num s) rs L2' I Hk' g Gr) as Ig.
    assert (Rg : forall j, (j < length g)%nat -> exists i t, weigh rs (at_ g j) i t).
    { intros j Hj. apply (weigh_exists mk (Some k) rs L2' I Hk'). apply (grid_range mk (Some k) (s_num s) rs L2' I Hk'); auto. }
    destruct (weigh_at mk (Some k) rs L2' I Hk' (a * ep) ltac:(lra)) as (i & t & W & V).
    destruct (weigh_at mk (Some k) rs L2' I Hk' (a' * ep) ltac:(lra)) as (i' & t' & W' & V').
    specialize (Fr _ (V k L fo eq_refl ltac:(lia) Mf)). specialize (Fr' _ (V' k Ls fo' eq_refl ltac:(lia) Mf')).
    assert (Hq : 0 < f / ef <= 1).
    { split; [apply Rdiv_lt_0_compat; lra|]. apply Rmult_le_reg_r with ef; [lra|]. unfold Rdiv. rewrite Rmult_assoc, Rinv_l by lra. lra. }
    set (c := f / ef) in *.
    assert (IS : increasing Ls).
    { intros j Hj. unfold Ls. rewrite !sky_at by lia. pose proof (IL j ltac:(lia)). pose proof (IA j ltac:(lia)). nra. }
    assert (Pos : forall (y : list R) i t, 0 < at_ y 0 -> increasing y -> (S i < length y)%nat -> 0 <= t <= 1 -> 0 < mix y i t).
    { intros l i0 t0 P0 Il Hi Ht. unfold mix. pose proof (at_pos l i0 P0 Il ltac:(lia)). pose proof (at_pos l (S i0) P0 Il Hi).
      destruct (Req_dec t0 1) as [->|]; [lra|]. assert (0 < (1 - t0) * at_ l i0) by (apply Rmult_lt_0_compat; lra). nra. }
    pose proof (declining_first _ _ _ D) as L0.
    apply (search_step true (mix L i t * c) (mix Ls i' t' * c) g y z w w' _ (inc_nondec _ Ig) Ly Lz); auto.
    - pose proof (x_ends rs L2' I). apply Rmult_le_pos; [lra|]. left. apply Rinv_0_lt_compat, lt_0_INR. lia.
    - apply (grid_step mk (Some k) (s_num s) rs L2' I Hk' g k eq_refl Hnum Gr).
    - intros j Hj Cr. destruct (Rg j Hj) as (p & u & Wg). rewrite (Mz j Hj p u Wg). rewrite (My j Hj p u Wg) in Cr.
      unfold gap in *. unfold Ls. rewrite !mix_sky by (try lia; destruct Wg, W'; lia).
      pose proof (mix_le rs L _ _ i t i' t' I IL ltac:(lia) W W' ltac:(lra)) as LM.
      assert (PW : 0 < mix L i t) by (destruct W as (? & ? & _); apply Pos; auto; lia).
      assert (PW' : 0 < mix A i' t') by (destruct W' as (? & ? & _); apply Pos; auto; lia).
      assert (PA : 0 < mix A p u) by (destruct Wg as (? & ? & _); apply Pos; auto; lia).
      destruct (Rle_lt_dec (at_ g j) (a' * ep)) as [Hg|Hg].
      + pose proof (mix_ratio rs L A _ _ p u i' t' I Wg W' Hg (mean_cross _ _ _ D)) as MR.
        set (Fp := mix L p u) in *. set (Ap := mix A p u) in *. set (F := mix L i t) in *. set (F' := mix L i' t') in *. set (A' := mix A i' t') in *.
        apply Rlt_Rminus. apply Rmult_lt_reg_r with F'; [lra|].
        apply Rle_lt_trans with (Fp * (F' + b * A')).
        * assert (b * (F' * Ap) <= b * (Fp * A')) by (apply Rmult_le_compat_l; auto). lra.
        * assert (0 < F' + b * A') by nra. assert (Fp < F' * c) by nra. nra.
      + exfalso. pose proof (mix_le rs L _ _ i t p u I IL ltac:(lia) W Wg ltac:(lra)). nra.
    - intros j j' Hjj. destruct (Rg j ltac:(lia)) as (p & u & Wg). destruct (Rg j' ltac:(lia)) as (p' & u' & Wg').
      rewrite (Mz j ltac:(lia) p u Wg), (Mz j' ltac:(lia) p' u' Wg').
      pose proof (mix_strict rs Ls _ _ p u p' u' I IS ltac:(lia) Wg Wg' (inc_lt g j j' Ig ltac:(lia) ltac:(lia))). unfold gap. lra.
  Qed.

  (** C101 *)
  Theorem sky_fraction : exists o o',
    Petrosian_new (plain rs A L) s = Ok o /\ Petrosian_new (plain rs A (with_sky b A L)) s = Ok o' /\
    forall a' w' x, read mk o' A_r_petrosian = Ok (VNum (Fin a')) -> radius_of s f x -> read mk o' x = Ok (VNum (Fin w')) ->
    exists a, read mk o A_r_petrosian = Ok (VNum (Fin a)) /\ a <= a' /\
      (at_ rs 0 <= a * ep -> exists w, read mk o x = Ok (VNum (Fin w)) /\
         w <= w' + (last_of rs - at_ rs 0) / INR (s_num s - 1)).
  Proof.
    assert (Hk' : forall k0, s_kind s = Some k0 -> straight (mk k0)) by (intros k0 X; assert (k0 = k) as -> by congruence; exact Hk).
    destruct (sky_radius mk rs A L b eta s Hb D Es Hk' Dec Top) as (o & o' & v & v' & E & E' & Rv & Rv' & Ov & Ov' & Le).
    exists o, o'. split; auto. split; auto. intros a' w' x Ra' Rx Rw'.
    assert (v' = Fin a') as -> by congruence. destruct (Le a' eq_refl) as (a & -> & La). exists a. split; auto. split; auto. intros H0.
    pose proof D as (L2 & LA & LL & I & R0 & IA & A0 & H).
    pose proof (plain_object rs A L s L2 LA LL IA (inc_nz A IA A0) (declining_nz _ _ _ D)) as Eo.
    pose proof (plain_object rs A (with_sky b A L) s L2 LA ltac:(rewrite sky_len; lia) IA (inc_nz A IA A0) (declining_nz _ _ _ (sky_declining b rs A L Hb D))) as Eo'.
    set (fr := fun l (a0 : R) => fraction_to_r mk (Fin f) (map Fin rs) (map Fin l) (Fin a0) None (Some NaN) (Fin ep) (Fin ef) (Some k) (s_num s)).
    assert (Oo : obj_fraction mk o (Fin f) = fr L a).
    { unfold obj_fraction, obj_r_petrosian, obj_r_petrosian_err. rewrite Ov. cbn [bind fst snd].
      assert (X : o = mkpet (plain rs A L) s (NaN :: map Fin (ratios A L)) None) by congruence. rewrite X.
      cbn [p_data p_set plain d_r d_flux d_flux_err]. rewrite Ep, Ef, Ek. reflexivity. }
    assert (Oo' : obj_fraction mk o' (Fin f) = fr (with_sky b A L) a').
    { unfold obj_fraction, obj_r_petrosian, obj_r_petrosian_err. rewrite Ov'. cbn [bind fst snd].
      assert (X : o' = mkpet (plain rs A (with_sky b A L)) s (NaN :: map Fin (ratios A (with_sky b A L))) None) by congruence. rewrite X.
      cbn [p_data p_set plain d_r d_flux d_flux_err]. rewrite Ep, Ef, Ek. reflexivity. }
    assert (So : p_set o = s) by (replace o with (mkpet (plain rs A L) s (NaN :: map Fin (ratios A L)) None) by congruence; reflexivity).
    assert (So' : p_set o' = s) by (replace o' with (mkpet (plain rs A (with_sky b A L)) s (NaN :: map Fin (ratios A (with_sky b A L))) None) by congruence; reflexivity).
    assert (Rd : forall o0, p_set o0 = s -> read mk o0 x = M_Petrosian.num (do r <- obj_fraction mk o0 (Fin f); Ok (fst r))).
    { intros o0 S0. destruct Rx as [->|[[-> E2]|[-> E2]]]; cbn [read].
      - reflexivity.
      - unfold half. rewrite half_lit. rewrite E2. reflexivity.
      - rewrite S0, E2. reflexivity. }
    rewrite (Rd o So), Oo. rewrite (Rd o' So'), Oo' in Rw'.
    pose proof (inc_max rs ltac:(lia) I) as Hhi. pose proof (inc_min rs ltac:(lia) I) as Hlo.
    assert (La' : a' * ep <= last_of rs).
    { destruct (Rle_lt_dec (a' * ep) (last_of rs)) as [|G]; auto. exfalso. unfold fr in Rw'.
      rewrite (frac_beyond mk _ _ _ _ _ _ _ _ _ _ _ Hhi G) in Rw'. cbn in Rw'. discriminate Rw'. }
    destruct (fr (with_sky b A L) a') as [[w1 e1]|] eqn:E1; [|discriminate Rw'].
    assert (w1 = Fin w') as -> by (cbn in Rw'; congruence).
    destruct (Hk rs L I ltac:(lia) ltac:(lia)) as (fo & Mf & _).
    assert (a * ep <= a' * ep) by nra.
    destruct (frac_total mk f rs L a (Some NaN) ep ef k (s_num s) fo ltac:(lia) ltac:(lia) I ltac:(lra) ltac:(lra) Mf) as (v0 & E0).
    destruct (frac_order a a' v0 (Fin w') NaN e1 (Some NaN) (Some NaN) La H0 La' E0 E1 w' eq_refl) as (z & -> & Hz).
    exists z. split; auto. unfold fr. rewrite E0. reflexivity.
  Qed.
End Fraction.

(** a share of the flux not above the normalising one is always found *)
Lemma frac_finite mk rs M a ep ef f k num : (2 <= length rs)%nat -> increasing rs -> length M = length rs ->
  increasing M -> 0 < at_ M 0 -> straight (mk k) -> (1 <= num)%nat -> 0 < f <= ef -> at_ rs 0 <= a * ep <= last_of rs ->
  exists w, fraction_to_r mk (Fin f) (map Fin rs) (map Fin M) (Fin a) None (Some NaN) (Fin ep) (Fin ef) (Some k) num = Ok (Fin w, NaN).
Proof.
  intros L2 I LM IM M0 Hk Hnum Hf Ha.
  destruct (Hk rs M I ltac:(lia) L2) as (fo & Mf & _).
  destruct (frac_total mk f rs M a (Some NaN) ep ef k num fo ltac:(lia) LM I Ha ltac:(lra) Mf) as (v & E).
  pose proof (inc_min rs ltac:(lia) I) as Hlo. pose proof (inc_max rs ltac:(lia) I) as Hhi.
  assert (In1 : forall lo hi, is_min rs lo -> is_max rs hi -> lo <= a * ep <= hi).
  { intros lo hi X Y. rewrite (min_unique _ _ _ X Hlo), (max_unique _ _ _ Y Hhi). lra. }
  destruct (frac_spec mk _ _ _ _ _ _ _ _ _ _ _ L2 In1 E) as (fo' & g & q & Mf' & Rs & _ & Fr & _).
  assert (Hk' : forall k0, Some k = Some k0 -> straight (mk k0)) by (intros k0 X; injection X as <-; exact Hk).
  destruct (resample_mix mk (Some k) num rs L2 I Hk' M g q ltac:(lia) Rs) as (y & -> & Ly & My).
  pose proof (resampled_grid_of mk (Some k) num rs L2 I Hk' _ _ _ Rs) as Gr.
  destruct (weigh_at mk (Some k) rs L2 I Hk' (a * ep) ltac:(lra)) as (i & t & W & V).
  specialize (Fr _ (V k M fo' eq_refl ltac:(lia) Mf')).
  apply search_index in Fr; auto. destruct Fr as [[-> N]|(j & c & -> & _)]; [|eauto]. exfalso.
  cbn [resampled] in Rs. destruct Rs as (_ & lo & hi & _ & X & Y & [Lg Eg] & _).
  rewrite (min_unique _ _ _ X Hlo), (max_unique _ _ _ Y Hhi) in Eg.
  set (m := (length g - 1)%nat). assert (Hm : (m < length g)%nat) by (unfold m; lia).
  assert (Gm : at_ g m = last_of rs).
  { rewrite Eg by lia. unfold m. rewrite Lg. field. apply not_0_INR. lia. }
  destruct (weigh_exists mk (Some k) rs L2 I Hk' (last_of rs)) as (p & u & Wl).
  { pose proof (x_ends rs L2 I). lra. }
  pose proof (My m Hm p u ltac:(now rewrite Gm)) as Em. specialize (N m Hm). rewrite Em in N. unfold gap in N.
  pose proof (mix_le rs M _ _ i t p u I IM ltac:(lia) W Wl ltac:(lra)) as Le.
  assert (0 < mix M i t).
  { destruct W as (? & ? & _). unfold mix. pose proof (at_pos M i M0 IM ltac:(lia)). pose proof (at_pos M (S i) M0 IM ltac:(lia)).
    destruct (Req_dec t 1) as [->|]; [lra|]. assert (0 < (1 - t) * at_ M i) by (apply Rmult_lt_0_compat; lra). nra. }
  assert (f / ef <= 1).
  { apply Rmult_le_reg_r with ef; [lra|]. unfold Rdiv. rewrite Rmult_assoc, Rinv_l by lra. lra. }
  nra.
Qed.

Theorem sky_radius_read mk rs A L b eta s : 0 <= b -> declining rs A L -> s_eta s = Fin eta ->
  (forall k, s_kind s = Some k -> straight (mk k)) ->
  (forall i, (1 <= i)%nat -> (S i < length rs)%nat -> sky_ratio b A L (S i) < sky_ratio b A L i) ->
  sky_ratio b A L 1 < 1 ->
  exists o o' v v', Petrosian_new (plain rs A L) s = Ok o /\ Petrosian_new (plain rs A (with_sky b A L)) s = Ok o' /\
    read mk o A_r_petrosian = Ok (VNum v) /\ read mk o' A_r_petrosian = Ok (VNum v') /\
    forall a', v' = Fin a' -> exists a, v = Fin a /\ a <= a'.
Proof.
  intros Hb D Es Hk Dec Top. destruct (sky_radius mk rs A L b eta s Hb D Es Hk Dec Top) as (o & o' & v & v' & ? & ? & ? & ? & _ & _ & ?).
  exists o, o', v, v'. auto.
Qed.
