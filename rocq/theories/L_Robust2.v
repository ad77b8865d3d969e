(** Petrosian measurements with a residual background: the radii. *)
From Verif Require Import Base Num Numpy M_Utils M_Petrosian S_Utils S_Petrosian S_PetroR S_Conv S_Robust
  L_Numpy L_Petrosian L_PetroR L_FracR L_Conv L_Conv2 L_Conv3 L_Robust.
Local Open Scope R_scope.

Lemma map2_at (f : R -> R -> R) a b i : length a = length b -> (i < length a)%nat -> at_ (map2 f a b) i = f (at_ a i) (at_ b i).
Proof.
  revert b i. induction a as [|x a IH]; intros [|y b] i L H; cbn in L; try lia; [cbn in H; lia|].
  destruct i as [|i]; [reflexivity|]. cbn [map2]. unfold at_. cbn [nth]. apply IH; [lia|cbn in H; lia].
Qed.
Lemma map2_len (f : R -> R -> R) a b : length a = length b -> length (map2 f a b) = length a.
Proof. revert b. induction a as [|x a IH]; intros [|y b] L; cbn in *; auto; try lia. Qed.

Section Sky.
  Variables (b : R) (A L : list R).
  Hypothesis Len : length A = length L.
  Lemma sky_len : length (with_sky b A L) = length L.
  Proof. unfold with_sky. rewrite map2_len; auto. Qed.
  Lemma sky_at i : (i < length L)%nat -> at_ (with_sky b A L) i = at_ L i + b * at_ A i.
  Proof. intros H. unfold with_sky. rewrite map2_at; auto. lia. Qed.
  Lemma sky_local i : (1 <= i < length L)%nat -> at_ A (i - 1) <> at_ A i ->
    local_sb A (with_sky b A L) i = local_sb A L i + b.
  Proof. intros H N. unfold local_sb. rewrite !sky_at by lia. field. lra. Qed.
  Lemma sky_mean i : (i < length L)%nat -> at_ A i <> 0 -> mean_sb A (with_sky b A L) i = mean_sb A L i + b.
  Proof. intros H N. unfold mean_sb. rewrite sky_at by lia. field. auto. Qed.
End Sky.

(** ** The object *)
Definition ratios (A L : list R) : list R := map (petro_ratio A L) (seq 1 (length A - 1)).
Lemma ratios_len A L : length (ratios A L) = (length A - 1)%nat.
Proof. unfold ratios. now rewrite map_length, seq_length. Qed.
Lemma ratios_at A L i : (S i < length A)%nat -> at_ (ratios A L) i = petro_ratio A L (S i).
Proof.
  intros H. unfold at_, ratios. rewrite nth_indep with (d' := petro_ratio A L 0) by (rewrite map_length, seq_length; lia).
  rewrite map_nth, seq_nth by lia. reflexivity.
Qed.
Lemma plain_object rs A L s : (2 < length rs)%nat -> length A = length rs -> length L = length rs ->
  increasing A -> nonzero_tail A -> nonzero_tail L ->
  Petrosian_new (plain rs A L) s = Ok (mkpet (plain rs A L) s (NaN :: map Fin (ratios A L)) None).
Proof.
  intros L2 LA LL I NA NL.
  destruct (petrosian_formula A L ltac:(lia) ltac:(lia) I NA NL) as (P & E & LP & P0 & PS).
  unfold Petrosian_new, validate_input_arrays, plain. cbn [d_r d_flux d_flux_err d_area_err d_area d_dtype].
  rewrite !map_length. rewrite LL, Nat.eqb_refl. replace (Nat.ltb 2 (length rs)) with true by (symmetry; now apply Nat.ltb_lt).
  cbn [assert_ bind]. rewrite E. cbn [bind fst snd]. do 2 f_equal.
  apply nth_error_ext. intros i. destruct (Nat.lt_ge_cases i (length A)) as [H|H].
  - destruct i as [|i]; [exact P0|]. rewrite PS by lia. cbn [nth_error].
    rewrite nth_fin by (rewrite ratios_len; lia). rewrite ratios_at by lia. reflexivity.
  - replace (nth_error P i) with (@None xr) by (symmetry; apply nth_error_None; lia).
    symmetry. apply nth_error_None. cbn [length]. rewrite map_length, ratios_len. lia.
Qed.

Lemma inc_nz A : increasing A -> 0 < at_ A 0 -> nonzero_tail A.
Proof. intros I H i Hi. pose proof (inc_lt A 0 i I ltac:(lia) ltac:(lia)). lra. Qed.
Lemma declining_nz rs A L : declining rs A L -> nonzero_tail L.
Proof.
  intros (L2 & LA & LL & I & R0 & IA & A0 & H) i Hi E. destruct (H i ltac:(lia)) as [M _].
  unfold mean_sb in M. rewrite E in M. unfold Rdiv in M. rewrite Rmult_0_l in M. lra.
Qed.
Lemma sky_declining b rs A L : 0 <= b -> declining rs A L -> declining rs A (with_sky b A L).
Proof.
  intros Hb (L2 & LA & LL & I & R0 & IA & A0 & H).
  split; auto. split; auto. split; [rewrite sky_len; lia|]. do 4 (split; auto).
  intros i Hi. pose proof (inc_lt A (i - 1) i IA ltac:(lia) ltac:(lia)). pose proof (at_pos A i A0 IA ltac:(lia)).
  rewrite sky_local, sky_mean by (try lia; lra). destruct (H i Hi). lra.
Qed.
Lemma sky_petro b rs A L i : 0 <= b -> declining rs A L -> (1 <= i < length rs)%nat ->
  petro_ratio A (with_sky b A L) i = sky_ratio b A L i.
Proof.
  intros Hb (L2 & LA & LL & I & R0 & IA & A0 & H) Hi.
  pose proof (inc_lt A (i - 1) i IA ltac:(lia) ltac:(lia)). pose proof (at_pos A i A0 IA ltac:(lia)).
  unfold petro_ratio, sky_ratio. now rewrite sky_local, sky_mean by (try lia; lra).
Qed.
Lemma ratio_le b x y : 0 <= b -> 0 < y -> x <= y -> x / y <= (x + b) / (y + b).
Proof.
  intros Hb Hy H. apply Rmult_le_reg_r with (y * (y + b)); [nra|].
  replace (x / y * (y * (y + b))) with (x * (y + b)) by (field; lra).
  replace ((x + b) / (y + b) * (y * (y + b))) with ((x + b) * y) by (field; lra). nra.
Qed.

(** C100: the profile *)
Theorem sky_profile b rs A L : 0 <= b -> declining rs A L ->
  exists P P', calculate_petrosian DFloat (map Fin A) (map Fin L) None None = Ok (P, None) /\
    calculate_petrosian DFloat (map Fin A) (map Fin (with_sky b A L)) None None = Ok (P', None) /\
    forall i, (1 <= i < length rs)%nat -> exists p,
      nth_error P i = Some (Fin p) /\ nth_error P' i = Some (Fin (sky_ratio b A L i)) /\ p <= sky_ratio b A L i.
Proof.
  intros Hb D. pose proof (declining_nz _ _ _ D) as N. pose proof (declining_nz _ _ _ (sky_declining b rs A L Hb D)) as N'.
  pose proof D as (L2 & LA & LL & I & R0 & IA & A0 & H).
  destruct (petrosian_formula A L ltac:(lia) ltac:(lia) IA (inc_nz A IA A0) N) as (P & E & LP & P0 & PS).
  destruct (petrosian_formula A (with_sky b A L) ltac:(rewrite sky_len; lia) ltac:(lia) IA (inc_nz A IA A0) N') as (P' & E' & LP' & P0' & PS').
  exists P, P'. split; auto. split; auto. intros i Hi. exists (petro_ratio A L i).
  split; [apply PS; lia|]. split; [rewrite PS' by lia; now rewrite (sky_petro b rs) by auto|].
  destruct (H i Hi). unfold petro_ratio, sky_ratio. now apply ratio_le.
Qed.

Section Radius.
  Variables (mk : kind -> list xr -> list xr -> result (xr -> xr)) (rs A L : list R) (b eta : R) (s : psettings xr).
  Hypothesis Hb : 0 <= b.
  Hypothesis D : declining rs A L.
  Hypothesis Es : s_eta s = Fin eta.
  Hypothesis Hk : forall k, s_kind s = Some k -> straight (mk k).

  (** the search grid of the Petrosian radius *)
  Lemma petro_search (M : list R) : length M = length rs -> nonzero_tail M ->
    exists o v g q, Petrosian_new (plain rs A M) s = Ok o /\ obj_petro_r mk o = Ok (v, NaN) /\
      o = mkpet (plain rs A M) s (NaN :: map Fin (ratios A M)) None /\
      resampled mk (s_kind s) (s_num s) (0 :: tl rs) (map Fin (1 :: ratios A M)) g q /\ found_radius false eta g q v.
  Proof.
    intros LM NM. pose proof D as (L2 & LA & LL & I & R0 & IA & A0 & H).
    pose proof (plain_object rs A M s L2 LA LM IA (inc_nz A IA A0) NM) as E.
    destruct rs as [|r0 rs']; [cbn in L2; lia|]. cbn [tl].
    assert (L1 : (1 <= length rs')%nat) by (cbn in L2; lia).
    assert (IX : increasing (0 :: rs')) by (apply (inc_tl r0 rs' R0 I)).
    destruct (petro_r_total mk (Fin r0) rs' NaN (map Fin (ratios A M)) (Fin eta) (s_kind s) (s_num s) L1) as (v & Ev).
    { rewrite map_length, ratios_len. cbn in *. lia. }
    { intros k Ek. destruct (Hk k Ek (0 :: rs') (1 :: ratios A M) IX) as (f & Ef & _).
      - cbn [length]. rewrite ratios_len. cbn in *; lia.
      - cbn; lia.
      - exists f. exact Ef. }
    destruct (petro_r_spec mk _ _ _ _ _ _ _ _ _ L1 Ev) as (g & q & R & Fr & _).
    eexists. exists v, g, q. split; [exact E|]. split; [|split; [reflexivity|split; [exact R|exact Fr]]].
    unfold obj_petro_r. cbn [p_data p_set p_list p_err plain d_r]. rewrite Es. exact Ev.
  Qed.
  Lemma read_petro o v e : obj_petro_r mk o = Ok (v, e) -> read mk o A_r_petrosian = Ok (VNum v).
  Proof. intros E. cbn [read]. unfold M_Petrosian.num, obj_r_petrosian. rewrite E. reflexivity. Qed.

  Hypothesis Dec : forall i, (1 <= i)%nat -> (S i < length rs)%nat -> sky_ratio b A L (S i) < sky_ratio b A L i.
  Hypothesis Top : sky_ratio b A L 1 < 1.

  (** C100: the radius *)
  Theorem sky_radius : exists o o' v v',
    Petrosian_new (plain rs A L) s = Ok o /\ Petrosian_new (plain rs A (with_sky b A L)) s = Ok o' /\
    read mk o A_r_petrosian = Ok (VNum v) /\ read mk o' A_r_petrosian = Ok (VNum v') /\
    obj_petro_r mk o = Ok (v, NaN) /\ obj_petro_r mk o' = Ok (v', NaN) /\
    forall a', v' = Fin a' -> exists a, v = Fin a /\ a <= a'.
  Proof.
    pose proof D as (L2 & LA & LL & I & R0 & IA & A0 & H).
    assert (LS : length (with_sky b A L) = length rs) by (rewrite sky_len; lia).
    destruct (petro_search L LL (declining_nz _ _ _ D)) as (o & v & g & q & E & Ev & _ & R & F).
    destruct (petro_search (with_sky b A L) LS (declining_nz _ _ _ (sky_declining b rs A L Hb D))) as (o' & v' & g' & q' & E' & Ev' & _ & R' & F').
    exists o, o', v, v'. split; auto. split; auto. split; [eapply read_petro; eauto|]. split; [eapply read_petro; eauto|].
    split; auto. split; auto.
    set (X := 0 :: tl rs) in *.
    assert (LX : length X = length rs) by (unfold X; destruct rs; cbn in *; lia).
    assert (LX2 : (2 <= length X)%nat) by lia.
    assert (IX : increasing X) by (unfold X; destruct rs as [|r0 rs']; [cbn in L2; lia|]; apply (inc_tl r0 rs' R0 I)).
    set (Y := 1 :: ratios A L) in *. set (Z := 1 :: ratios A (with_sky b A L)) in *.
    assert (LY : length X = length Y) by (unfold Y; cbn [length]; rewrite ratios_len; lia).
    assert (LZ : length X = length Z) by (unfold Z; cbn [length]; rewrite ratios_len; lia).
    assert (g' = g) as -> by (eapply resampled_grid; [exact LX2|exact R'|exact R]).
    destruct (resample_mix mk (s_kind s) (s_num s) X LX2 IX Hk Y g q LY R) as (y & -> & Ly & My).
    destruct (resample_mix mk (s_kind s) (s_num s) X LX2 IX Hk Z g q' LZ R') as (z & -> & Lz & Mz).
    pose proof (resampled_grid_of mk (s_kind s) (s_num s) X LX2 IX Hk _ _ _ R) as Gr.
    pose proof (grid_inc mk (s_kind s) (s_num s) X LX2 IX Hk g Gr) as Ig.
    assert (Rg : forall k, (k < length g)%nat -> exists i t, weigh X (at_ g k) i t).
    { intros k Hk'. apply (weigh_exists mk (s_kind s) X LX2 IX Hk). eapply grid_range; eauto. }
    assert (YZ : forall i, (i < length X)%nat -> at_ Y i <= at_ Z i).
    { intros [|i] Hi; [unfold Y, Z, at_; cbn [nth]; lra|].
      change (at_ Y (S i)) with (at_ (ratios A L) i). change (at_ Z (S i)) with (at_ (ratios A (with_sky b A L)) i).
      rewrite !ratios_at by lia. rewrite (sky_petro b rs) by (auto; lia). destruct (H (S i) ltac:(lia)).
      unfold petro_ratio, sky_ratio. now apply ratio_le. }
    assert (ZD : increasing (map Ropp Z)).
    { intros i Hi. rewrite map_length in Hi. rewrite !at_map by lia. apply Ropp_lt_contravar.
      destruct i as [|i].
      - change (at_ Z 0) with 1. change (at_ Z 1) with (at_ (ratios A (with_sky b A L)) 0). rewrite ratios_at by lia.
        now rewrite (sky_petro b rs) by (auto; lia).
      - change (at_ Z (S (S i))) with (at_ (ratios A (with_sky b A L)) (S i)). change (at_ Z (S i)) with (at_ (ratios A (with_sky b A L)) i).
        rewrite !ratios_at by lia. rewrite !(sky_petro b rs) by (auto; lia). apply Dec; lia. }
    apply (search_le false eta g y z v v' (inc_nondec _ Ig) Ly Lz); auto.
    - intros k Hk'. destruct (Rg k Hk') as (i & t & W). rewrite (My k Hk' i t W), (Mz k Hk' i t W).
      destruct W as (Hi & Ht & _). unfold gap, mix.
      pose proof (YZ i ltac:(lia)). pose proof (YZ (S i) ltac:(lia)). nra.
    - intros j k Hjk. destruct (Rg j ltac:(lia)) as (i & t & W). destruct (Rg k ltac:(lia)) as (i' & t' & W').
      rewrite (Mz j ltac:(lia) i t W), (Mz k ltac:(lia) i' t' W').
      pose proof (mix_strict X (map Ropp Z) _ _ i t i' t' IX ZD ltac:(rewrite map_length; lia) W W' (inc_lt g j k Ig ltac:(lia) ltac:(lia))) as S1.
      destruct W as (Hi & _), W' as (Hi' & _). unfold mix in S1. rewrite !at_map in S1 by lia. unfold gap, mix. lra.
  Qed.
End Radius.
