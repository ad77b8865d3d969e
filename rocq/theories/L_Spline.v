(** The measured Petrosian radius converges with interpolation that overshoots a little. *)
From Verif Require Import Base Num Numpy M_Utils M_Petrosian M_Sersic Gamma S_Sersic S_Utils S_Petrosian S_PetroR S_Conv S_Spline
  L_Numpy L_Sersic L_Petrosian L_PetroR L_Conv L_Conv2.
Local Open Scope R_scope.

(** ** Overshoots of a curve of bounded curvature *)
Lemma chord_close f f' a b M x : a < b -> 0 <= M ->
  (forall x, a <= x <= b -> derivable_pt_lim f x (f' x)) ->
  (forall x y, a <= x <= y -> y <= b -> Rabs (f' y - f' x) <= M * (y - x)) ->
  a <= x <= b ->
  Rabs (f x - (f a + (f b - f a) / (b - a) * (x - a))) <= M * (b - a) * (b - a).
Proof.
  intros Hab HM D Lip Hx.
  set (m := (f b - f a) / (b - a)).
  (* somewhere the slope is that of the chord *)
  destruct (MVT_cor2 f f' a b Hab D) as (c & Ec & Hc).
  assert (Em : f' c = m) by (unfold m; rewrite Ec; field; lra).
  assert (Near : forall y, a <= y <= b -> Rabs (f' y - m) <= M * (b - a)).
  { intros y Hy. rewrite <- Em. destruct (Rle_lt_dec c y) as [H|H].
    - eapply Rle_trans; [apply Lip; lra|]. apply Rmult_le_compat_l; lra.
    - rewrite Rabs_minus_sym. eapply Rle_trans; [apply Lip; lra|]. apply Rmult_le_compat_l; lra. }
  destruct Hx as [[Ha|<-] Hb].
  - assert (D' : forall y, a <= y <= x -> derivable_pt_lim f y (f' y)) by (intros; apply D; lra).
    destruct (MVT_cor2 f f' a x Ha D') as (c' & Ec' & Hc').
    replace (f x - (f a + m * (x - a))) with ((f' c' - m) * (x - a)) by lra.
    rewrite Rabs_mult, (Rabs_pos_eq (x - a)) by lra.
    pose proof (Near c' ltac:(lra)). pose proof (Rabs_pos (f' c' - m)).
    apply Rmult_le_compat; lra.
  - replace (f a - (f a + m * (a - a))) with 0 by ring. rewrite Rabs_R0.
    apply Rmult_le_pos; [apply Rmult_le_pos|]; lra.
Qed.

Lemma chord_between x0 x1 y0 y1 q : x0 < x1 -> x0 <= q <= x1 ->
  between y0 y1 (y0 + (y1 - y0) / (x1 - x0) * (q - x0)).
Proof.
  intros H Hq. set (t := (q - x0) / (x1 - x0)).
  assert (Ht : 0 <= t <= 1).
  { unfold t. split.
    - apply Rmult_le_pos; [lra|]. left. apply Rinv_0_lt_compat. lra.
    - apply Rmult_le_reg_r with (x1 - x0); [lra|]. unfold Rdiv. rewrite Rmult_assoc, Rinv_l by lra. lra. }
  replace (y0 + (y1 - y0) / (x1 - x0) * (q - x0)) with (y0 + t * (y1 - y0)) by (unfold t; field; lra).
  destruct (Rle_lt_dec y0 y1); [left|right]; nra.
Qed.

Theorem curvature_bounds (interp : list xr -> list xr -> result (xr -> xr)) F f xs ys M d :
  increasing xs -> 0 <= M -> fine d xs -> bends_within M f xs ys ->
  interp (map Fin xs) (map Fin ys) = Ok F ->
  (forall x, at_ xs 0 <= x <= last_of xs -> F (Fin x) = Fin (f x)) ->
  overshoots_within (M * d ^ 2) interp xs ys.
Proof.
  intros I HM Fi (L & Th & Bd) EF Ff. exists F. split; auto. intros i x Hi Hx.
  assert (R0 : at_ xs 0 <= x <= last_of xs).
  { unfold last_of. pose proof (nondec_le xs 0 i (inc_nondec _ I) ltac:(lia) ltac:(lia)).
    pose proof (nondec_le xs (S i) (length xs - 1) (inc_nondec _ I) ltac:(lia) ltac:(lia)). lra. }
  exists (f x). exists (at_ ys i + (at_ ys (S i) - at_ ys i) / (at_ xs (S i) - at_ xs i) * (x - at_ xs i)).
  split; [now apply Ff|]. pose proof (I i Hi) as Ii. split; [now apply chord_between|].
  destruct (Bd i Hi) as (f' & D & Lip). rewrite <- !Th by lia.
  eapply Rle_trans; [apply (chord_close f f' (at_ xs i) (at_ xs (S i)) M x); auto|].
  pose proof (Fi i Hi) as Fi'. assert (0 < at_ xs (S i) - at_ xs i) by lra.
  rewrite Rmult_assoc. apply Rmult_le_compat_l; auto. nra.
Qed.

Lemma no_overshoot_within w interp xs ys : 0 <= w -> increasing xs -> length xs = length ys -> (2 <= length xs)%nat ->
  no_overshoot interp -> overshoots_within w interp xs ys.
Proof.
  intros Hw I L L2 N. destruct (N xs ys I L L2) as (f & Ef & H). exists f. split; auto.
  intros i x Hi Hx. destruct (H i x Hi Hx) as (y & Ey & B). exists y, y. split; auto. split; auto.
  rewrite Rminus_diag_eq, Rabs_R0 by auto. auto.
Qed.

Lemma near_le a b w : Rabs (a - b) <= w -> b - w <= a <= b + w.
Proof. intros H. unfold Rabs in H. destruct (Rcase_abs _); lra. Qed.

(** ** Resampling *)
Definition nearly (w : R) (x y : list R) (t z : R) : Prop := exists z', framed x y t z' /\ Rabs (z - z') <= w.

Section Resample.
  Variable mk : kind -> list xr -> list xr -> result (xr -> xr).
  Variables (ik : option kind) (num : nat) (x y : list R) (d w : R).
  Hypothesis Lx : (2 <= length x)%nat.
  Hypothesis Ix : increasing x.
  Hypothesis Lxy : length x = length y.
  Hypothesis Hw : 0 <= w.
  Hypothesis Hk : forall k, ik = Some k -> overshoots_within w (mk k) x y /\ last_of x - at_ x 0 < d * INR (num - 1).
  Hypothesis Fx : fine d x.
  Hypothesis Hd : 0 < d.

  Lemma resample_nearly g q : resampled mk ik num x (map Fin y) g q ->
    exists z, q = map Fin z /\ length g = length z /\ nondecreasing g /\
      (forall k, (k < length g)%nat -> nearly w x y (at_ g k) (at_ z k)) /\
      (forall t, at_ x 0 < t + d -> t <= last_of x -> exists j, (j < length g)%nat /\ t <= at_ g j < t + d).
  Proof.
    intros R. assert (N : nondecreasing g) by (eapply resampled_sorted; eauto; intros _; now apply inc_nondec).
    destruct ik as [k|].
    - destruct (Hk k eq_refl) as [NO Hnum]. destruct R as (f & lo & hi & Ef & Hlo & Hhi & [Lg Eg] & ->).
      assert (lo = at_ x 0) as -> by (apply (min_unique x); auto; apply inc_min; auto; lia).
      assert (hi = last_of x) as -> by (apply (max_unique x); auto; apply inc_max; auto; lia).
      destruct NO as (f' & Ef' & Hf). assert (f' = f) as -> by congruence.
      set (N' := Nat.max num (length x)) in *.
      assert (LT : at_ x 0 < last_of x) by (unfold last_of; apply inc_lt; auto; lia).
      assert (IN : 0 < INR (N' - 1)) by (apply lt_0_INR; lia).
      assert (St : 0 < (last_of x - at_ x 0) / INR (N' - 1)) by (apply Rdiv_lt_0_compat; lra).
      assert (Lst : last_of g = last_of x).
      { unfold last_of at 1. rewrite Eg by lia. rewrite Lg. field. lra. }
      assert (G0 : at_ g 0 = at_ x 0) by (rewrite Eg by lia; cbn [INR]; lra).
      assert (GR : forall k, (k < length g)%nat -> at_ x 0 <= at_ g k <= last_of x).
      { intros k0 Hk0. rewrite <- Lst, <- G0. unfold last_of. split; apply nondec_le; auto; lia. }
      assert (Z : exists z, map f (map Fin g) = map Fin z /\ length g = length z /\
                 forall k, (k < length g)%nat -> nearly w x y (at_ g k) (at_ z k)).
      { clear Eg Lst G0 N Lg. induction g as [|a g IH].
        - exists []. split; auto. split; auto. cbn. intros; lia.
        - destruct IH as (z & E & L & Fz). { intros k0 Hk0. apply (GR (S k0)). cbn. lia. }
          destruct (find_step x a Lx) as (i & Hi & Hx); [apply (GR 0%nat); cbn; lia|].
          destruct (Hf i a Hi Hx) as (v & v' & Ev & Bv & Cv).
          exists (v :: z). cbn [map]. rewrite E, Ev. split; auto. split; [cbn; lia|].
          intros [|k0] Hk0; [|apply Fz; cbn in Hk0; lia]. exists v'. split; [|exact Cv].
          exists i, (S i). repeat split; auto; try lia; apply Hx. }
      destruct Z as (z & E & Lz & Fz). exists z. split; auto. split; auto. split; auto. split; auto.
      intros t Ht Htl. apply fine_hit; auto; [lia|lra|lra|].
      intros i Hi. rewrite !Eg by lia. rewrite S_INR.
      assert ((last_of x - at_ x 0) / INR (N' - 1) < d); [|lra].
      apply Rmult_lt_reg_r with (INR (N' - 1)); auto. unfold Rdiv. rewrite Rmult_assoc, Rinv_l, Rmult_1_r by lra.
      apply Rlt_le_trans with (1 := Hnum). apply Rmult_le_compat_l; [lra|]. apply le_INR. lia.
    - destruct R as [-> ->]. exists y. split; auto. split; auto. split; auto. split.
      + intros k Hk'. exists (at_ y k). split; [|rewrite Rminus_diag_eq, Rabs_R0; auto].
        exists k, k. repeat split; auto; try lra. left. lra.
      + intros t Ht Htl. apply fine_hit; auto. lia.
  Qed.
End Resample.

Section Sersic.
  Variables A re n e : R.
  Hypothesis HA : 0 < A.
  Hypothesis Hre : 0 < re.
  Hypothesis Hn : 0 < n.
  Hypothesis He : e < 1.
  Notation law := (sersic_law A re n (bnR n)).
  Notation F := (enclR A re n e).
  Notation p := (profR re n).

  (** the step and the overshoot *)
  Lemma choose2 rt eps : 0 < rt -> 0 < eps <= rt -> exists h d w,
    0 < h <= eps /\ 0 < d /\ 8 * d <= eps /\ 8 * d <= h /\ 0 < w /\ w < p rt /\
    p rt - (p (rt - eps / 2) - p rt) + 2 * w < p (rt + 2 * h) /\
    p (rt + h / 4) * law (rt + h / 2 - 4 * d) <= (p rt - w) * law (rt + h / 2 + 4 * d).
  Proof.
    intros Hrt Heps.
    pose proof (prof_dec re n Hre Hn (rt - eps / 2) rt ltac:(lra)) as Hm.
    destruct (prof_cont A re n e HA Hre Hn He rt Hrt (p (rt - eps / 2) - p rt) ltac:(lra)) as (d1 & Hd1 & C1).
    set (h := Rmin (eps / 2) (d1 / 3)).
    assert (Hh : 0 < h) by (unfold h; apply Rmin_glb_lt; lra).
    assert (h <= eps / 2) by apply Rmin_l. assert (h <= d1 / 3) by apply Rmin_r.
    pose proof (prof_dec re n Hre Hn rt (rt + h / 4) ltac:(lra)) as P4.
    pose proof (prof_range re n Hre Hn (rt + h / 4) ltac:(lra)) as P4r.
    set (c := rt + h / 2). set (p4 := p (rt + h / 4)) in *. set (pt := p rt) in *.
    assert (S1 : pt - (p (rt - eps / 2) - pt) < p (rt + 2 * h)).
    { specialize (C1 (rt + 2 * h)). rewrite Rabs_pos_eq in C1 by lra. specialize (C1 ltac:(lra)).
      apply Rabs_def2 in C1. fold pt in C1. lra. }
    set (w := Rmin ((pt - p4) / 2) ((p (rt + 2 * h) - (pt - (p (rt - eps / 2) - pt))) / 4)).
    assert (Hw : 0 < w) by (unfold w; apply Rmin_glb_lt; lra).
    assert (Hw1 : w <= (pt - p4) / 2) by apply Rmin_l.
    assert (Hw2 : w <= (p (rt + 2 * h) - (pt - (p (rt - eps / 2) - pt))) / 4) by apply Rmin_r.
    pose proof (law_pos A re n HA c) as Lc.
    set (t := law c * (pt - w - p4) / (pt - w + p4)).
    assert (Ht : 0 < t) by (apply Rdiv_lt_0_compat; [apply Rmult_lt_0_compat|]; lra).
    destruct (law_cont A re n Hre c ltac:(unfold c; lra) t Ht) as (d2 & Hd2 & C2).
    set (d := Rmin (h / 8) (d2 / 8)).
    assert (Hd : 0 < d) by (unfold d; apply Rmin_glb_lt; lra).
    assert (d <= h / 8) by apply Rmin_l. assert (d <= d2 / 8) by apply Rmin_r.
    exists h, d, w. repeat split; auto; try lra.
    fold c p4 pt. pose proof (C2 (c - 4 * d)) as C3. rewrite Rabs_left1 in C3 by lra. specialize (C3 ltac:(lra)). apply Rabs_def2 in C3.
    pose proof (C2 (c + 4 * d)) as C4. rewrite Rabs_pos_eq in C4 by lra. specialize (C4 ltac:(lra)). apply Rabs_def2 in C4.
    apply Rle_trans with (p4 * (law c + t)); [apply Rmult_le_compat_l; lra|].
    apply Rle_trans with ((pt - w) * (law c - t)); [|apply Rmult_le_compat_l; lra].
    assert (t * (pt - w + p4) = law c * (pt - w - p4)) by (unfold t; field; lra). lra.
  Qed.

  Lemma petro_conv2 rt eps : 0 < rt -> 0 < eps <= rt -> exists d w, 0 < d /\ 0 < w /\
    forall mk ik num rs V,
      (2 < length rs)%nat -> increasing rs -> 0 < at_ rs 0 -> fine d (0 :: rs) -> rt + eps <= last_of rs ->
      length V = (length rs - 1)%nat ->
      (forall i, (S i < length rs)%nat -> at_ V i = measured A re n e (at_ rs i) (at_ rs (S i))) ->
      (forall k, ik = Some k -> overshoots_within w (mk k) (0 :: tl rs) (1 :: V) /\ last_of rs < d * INR (num - 1)) ->
      exists a, calculate_petrosian_r mk (map Fin rs) (NaN :: map Fin V) None (Fin (p rt)) ik num = Ok (Fin a, NaN) /\
        Rabs (a - rt) < eps.
  Proof.
    intros Hrt Heps. destruct (choose2 rt eps Hrt Heps) as (h & d & w & Hh & Hd & Hde & Hdh & Hw & Hwp & Hb & Hc).
    exists d, w. split; auto. split; auto. intros mk ik num rs V Len I P0 Fi La LV HV HK.
    assert (Full : forall i, (i < length rs)%nat -> 0 < at_ rs i) by (intros; apply at_pos; auto).
    assert (Step : forall i, (S i < length rs)%nat -> at_ rs (S i) - at_ rs i < d) by (intros i Hi; apply (Fi (S i)); cbn; lia).
    destruct rs as [|r0 rs]; [cbn in Len; lia|].
    assert (P0' : 0 < r0) by exact P0. cbn [tl] in HK.
    set (X := 0 :: rs) in *. set (Y := 1 :: V) in *.
    assert (LX : length X = length (r0 :: rs)) by reflexivity.
    assert (L2 : (2 <= length X)%nat) by (rewrite LX; lia).
    assert (L1 : (1 <= length rs)%nat) by (cbn in Len; lia).
    assert (LXY : length X = length Y) by (cbn in *; lia).
    assert (IX : increasing X) by (eapply inc_tl; eauto).
    assert (FX : fine (2 * d) X) by (eapply fine_tl; eauto).
    assert (AX : forall i, (1 <= i)%nat -> at_ X i = at_ (r0 :: rs) i) by (intros [|i] Hi; [lia|reflexivity]).
    assert (LaX : last_of X = last_of (r0 :: rs)).
    { unfold last_of. rewrite LX. apply AX. cbn in *; lia. }
    assert (low : forall i r, (i < length X)%nat -> at_ X i <= r -> 0 < r -> p r <= at_ Y i).
    { intros i r Hi Hr Hr0. destruct i as [|i].
      - cbn [at_ nth Y]. pose proof (prof_range re n Hre Hn r Hr0). unfold at_, Y. cbn [nth]. lra.
      - change (at_ Y (S i)) with (at_ V i). rewrite HV by lia. rewrite AX in Hr by lia.
        pose proof (Full i ltac:(lia)). pose proof (I i ltac:(lia)).
        destruct (measured_bracket A re n e HA Hre Hn He (at_ (r0 :: rs) i) (at_ (r0 :: rs) (S i)) ltac:(lra)) as [[B _] _].
        apply Rle_trans with (p (at_ (r0 :: rs) (S i))); [|lra]. apply prof_dec_le; auto. }
    assert (high : forall i, (i < length X)%nat -> rt + h / 2 - 2 * d <= at_ X i <= rt + h / 2 + 4 * d -> at_ Y i <= p rt - w).
    { intros i Hi Hx. destruct i as [|i]; [unfold at_, X in Hx; cbn [nth] in Hx; lra|].
      change (at_ Y (S i)) with (at_ V i). rewrite HV by lia. rewrite AX in Hx by lia.
      pose proof (Full i ltac:(lia)). pose proof (I i ltac:(lia)). pose proof (Step i ltac:(lia)).
      destruct (measured_bracket A re n e HA Hre Hn He (at_ (r0 :: rs) i) (at_ (r0 :: rs) (S i)) ltac:(lra)) as [_ B].
      set (a := at_ (r0 :: rs) i) in *. set (b := at_ (r0 :: rs) (S i)) in *.
      left. apply Rlt_le_trans with (1 := B).
      pose proof (prof_dec_le re n Hre Hn (rt + h / 4) b ltac:(lra)).
      assert (law a <= law (rt + h / 2 - 4 * d)).
      { destruct (Req_dec a (rt + h / 2 - 4 * d)) as [->|]; [lra|]. left. apply law_dec; auto. lra. }
      assert (law (rt + h / 2 + 4 * d) <= law b).
      { destruct (Req_dec b (rt + h / 2 + 4 * d)) as [->|]; [lra|]. left. apply law_dec; auto. lra. }
      pose proof (law_pos A re n HA a). pose proof (law_pos A re n HA b).
      pose proof (prof_range re n Hre Hn b ltac:(lra)). pose proof (prof_range re n Hre Hn rt ltac:(lra)).
      apply Rmult_le_reg_r with (law b); auto.
      replace (p b * (law a / law b) * law b) with (p b * law a) by (field; lra).
      apply Rle_trans with (p (rt + h / 4) * law (rt + h / 2 - 4 * d)).
      - apply Rmult_le_compat; lra.
      - apply Rle_trans with (1 := Hc). apply Rmult_le_compat_l; lra. }
    assert (HK' : forall k, ik = Some k -> overshoots_within w (mk k) X Y /\ last_of X - at_ X 0 < 2 * d * INR (num - 1)).
    { intros k Ek. destruct (HK k Ek) as [N1 N2]. split; auto. rewrite LaX. unfold X at 1, at_. cbn [nth].
      pose proof (pos_INR (num - 1)). nra. }
    destruct (petro_r_total mk (Fin r0) rs NaN (map Fin V) (Fin (p rt)) ik num) as (v & Ev).
    { exact L1. } { rewrite map_length. cbn in *. lia. }
    { intros k Ek. destruct (HK k Ek) as [(f & Ef & _) _]. exists f. exact Ef. }
    destruct (petro_r_spec mk _ _ _ _ _ _ _ _ _ L1 Ev) as (g & q & R & Fr & _).
    destruct (resample_nearly mk ik num X Y (2 * d) w L2 IX LXY ltac:(lra) HK' FX ltac:(lra) g q R)
      as (z & -> & Lg & Ng & Fz & Hit).
    assert (lowz : forall k r, (k < length g)%nat -> at_ g k + 2 * d <= r -> 0 < r -> p r - w <= at_ z k).
    { intros k r Hk Hr Hr0. destruct (Fz k Hk) as (z' & (i & i' & Hi & Hi' & Hx & B) & Cz).
      assert (at_ X i' <= r).
      { assert (i' = i \/ i' = S i) as [->| ->] by lia; [lra|]. pose proof (FX i ltac:(lia)). lra. }
      pose proof (low i' r ltac:(lia) ltac:(lra) Hr0). pose proof (low i r ltac:(lia) ltac:(lra) Hr0).
      pose proof (near_le _ _ _ Cz). destruct B; lra. }
    destruct (search_bounds false (p rt) g z v (rt - eps) (rt + h) (p (rt - eps / 2) - p rt - w) Ng Lg) as (a & -> & Ha); auto.
    - intros k Hk Hg. unfold gap. pose proof (lowz k (rt - eps / 2) Hk ltac:(lra) ltac:(lra)). lra.
    - intros k Hk Hg. unfold gap. pose proof (lowz k (rt + 2 * h) Hk ltac:(lra) ltac:(lra)). lra.
    - destruct (Hit (rt + h / 2)) as (j & Hj & Hgj).
      { unfold X, at_. cbn [nth]. lra. } { rewrite LaX. lra. }
      exists j. split; auto. split; [lra|]. unfold gap.
      destruct (Fz j Hj) as (z' & (i & i' & Hi & Hi' & Hx & B) & Cz).
      assert (at_ X i' - at_ X i < 2 * d).
      { assert (i' = i \/ i' = S i) as [->| ->] by lia; [lra|]. apply (FX i). lia. }
      pose proof (high i ltac:(lia) ltac:(lra)). pose proof (high i' ltac:(lia) ltac:(lra)).
      pose proof (near_le _ _ _ Cz). destruct B; lra.
    - exists a. split; [exact Ev|]. apply Rabs_def1; lra.
  Qed.
End Sersic.

Lemma samples_of A re n e rs V : 0 < at_ rs 0 -> length V = (length rs - 1)%nat -> (2 < length rs)%nat ->
  (forall i, (S i < length rs)%nat -> at_ V i = measured A re n e (at_ rs i) (at_ rs (S i))) ->
  profile_samples (map (ellipse_area e) rs) (map (enclR A re n e) rs) (1 :: V).
Proof.
  intros P0 LV Len HV. split; [rewrite map_length; cbn; lia|]. split; [reflexivity|]. intros [|i] Hi; [lia|]. rewrite map_length in Hi.
  change (at_ (1 :: V) (S i)) with (at_ V i). rewrite HV by lia.
  unfold petro_ratio, local_sb, mean_sb, measured. replace (S i - 1)%nat with i by lia. now rewrite !at_map by lia.
Qed.

(** C131 *)
Theorem radius_converges A re n e rt eta eps : 0 < A -> 0 < re -> 0 < n -> e < 1 -> 0 < rt ->
  petrosian_profile (Fin rt) (Fin re) (Fin n) = Fin eta -> 0 < eps ->
  exists d w, 0 < d /\ 0 < w /\ forall mk rs L s, sampled A re n e d (rt + eps) rs L -> s_eta s = Fin eta ->
    (forall k, s_kind s = Some k -> calm w w (mk k) rs (map (ellipse_area e) rs) L /\ last_of rs < d * INR (s_num s - 1)) ->
    exists o a,
      Petrosian_new (ideal_data e rs L) s = Ok o /\
      read mk o A_r_petrosian = Ok (VNum (Fin a)) /\ Rabs (a - rt) < eps.
Proof.
  intros HA Hre Hn He Hrt Ht Heps. rewrite petro_fin in Ht by auto. injection Ht as <-.
  set (eps' := Rmin eps rt).
  assert (0 < eps') by (unfold eps'; apply Rmin_glb_lt; auto).
  assert (eps' <= eps) by apply Rmin_l. assert (eps' <= rt) by apply Rmin_r.
  destruct (petro_conv2 A re n e HA Hre Hn He rt eps' Hrt ltac:(lra)) as (d & w & Hd & Hw & C).
  exists d, w. split; auto. split; auto. intros mk rs L s (Len & I & P0 & Fi & La & SF) Es HK.
  destruct (sersic_list A re n e rs L HA Hre Hn He Len I P0 SF) as (V & E & LV & HV).
  pose proof (fluxes_map A re n e rs L Hre Hn P0 I SF) as EL.
  destruct (C mk (s_kind s) (s_num s) rs V Len I P0 Fi ltac:(lra) LV HV) as (a & Ea & Ha).
  { intros k Ek. destruct (HK k Ek) as [[_ Cm] Hnum]. split; auto. apply Cm. rewrite EL. now apply samples_of. }
  assert (LL : length L = length rs) by (rewrite EL; apply map_length).
  eexists. exists a. split; [|split].
  - unfold Petrosian_new, validate_input_arrays, ideal_data. cbn [d_r d_flux d_flux_err d_area_err d_area d_dtype].
    rewrite !map_length. rewrite LL, Nat.eqb_refl.
    replace (Nat.ltb 2 (length rs)) with true by (symmetry; now apply Nat.ltb_lt).
    cbn [assert_ bind]. rewrite E. cbn [bind fst snd]. reflexivity.
  - cbn [read]. unfold num, obj_r_petrosian, obj_petro_r. cbn [p_data p_set p_list p_err d_r].
    unfold profR in Ea. rewrite Es, Ea. reflexivity.
  - lra.
Qed.
