(** Convergence of the measured Petrosian radius. *)
From Verif Require Import Base Num Numpy M_Utils M_Petrosian M_Sersic Gamma S_Sersic S_Utils S_Petrosian S_PetroR S_Conv
  L_Numpy L_Sersic L_Petrosian L_PetroR L_Conv.
Local Open Scope R_scope.

(** ** The search *)
Definition gap (gr : bool) (v y : R) : R := if gr then v - y else y - v.

Lemma crossed_gap gr v y : crossed gr (Fin v) (Fin y) <-> gap gr v y <= 0.
Proof. destruct gr; unfold crossed, gap; rewrite xle_fin; lra. Qed.
Lemma gap_abs gr v y : Rabs (y - v) = Rabs (gap gr v y).
Proof. destruct gr; cbn; auto. apply Rabs_minus_sym. Qed.

Lemma search_bounds gr v g y out lo hi m :
  nondecreasing g -> length g = length y ->
  (forall k, (k < length g)%nat -> at_ g k <= lo -> m <= gap gr v (at_ y k)) ->
  (forall k, (k < length g)%nat -> at_ g k < hi -> - gap gr v (at_ y k) < m) ->
  (exists j, (j < length g)%nat /\ at_ g j < hi /\ gap gr v (at_ y j) <= 0) ->
  found_radius gr v g (map Fin y) out -> exists a, out = Fin a /\ lo < a < hi.
Proof.
  intros Ng Lg Ha Hb (j & Hj & Hj1 & Hj2) [[N _]|[_ (i & a & -> & Ei & C)]].
  - exfalso. apply N. exists (Fin (at_ y j)). split; [|now apply crossed_gap].
    apply in_map, nth_In. lia.
  - exists a. split; auto.
    assert (X : Forall xok (map Fin y)) by (apply Forall_forall; intros z Hz; apply in_map_iff in Hz; destruct Hz as (? & <- & _); discriminate).
    destruct (C X) as (c & x & [(xc & Ec & Cc) Fc] & Hic & Ex & Cl & _).
    assert (Lc : (c < length y)%nat) by (rewrite <- (map_length Fin); apply nth_error_Some; congruence).
    assert (Li : (i < length y)%nat) by lia.
    assert (xc = Fin (at_ y c)) as -> by (rewrite nth_fin in Ec by auto; congruence).
    assert (x = Fin (at_ y i)) as -> by (rewrite nth_fin in Ex by auto; congruence).
    assert (a = at_ g i) as -> by (rewrite at_nth_error in Ei by lia; congruence).
    apply crossed_gap in Cc.
    assert (Hcj : (c <= j)%nat).
    { destruct (Nat.le_gt_cases c j); auto. exfalso.
      apply (Fc j (Fin (at_ y j))); auto; [apply nth_fin; lia|]. now apply crossed_gap. }
    pose proof (nondec_le g c j Ng ltac:(lia) ltac:(lia)). pose proof (nondec_le g i c Ng ltac:(lia) ltac:(lia)).
    split; [|lra].
    destruct (Rlt_le_dec lo (at_ g i)) as [|Hlo]; auto. exfalso.
    specialize (Ha i ltac:(lia) Hlo). specialize (Hb c ltac:(lia) ltac:(lra)).
    specialize (Cl c (Fin (at_ y c)) ltac:(lia) Ec). cbn [dist] in Cl.
    assert (Cl' : Rabs (at_ y i - v) <= Rabs (at_ y c - v)) by now apply xle_fin.
    rewrite !(gap_abs gr) in Cl'. rewrite (Rabs_left1 (gap gr v (at_ y c))) in Cl' by lra.
    pose proof (Rle_abs (gap gr v (at_ y i))). lra.
Qed.

(** ** Resampling without overshoot *)
(** [z] at radius [t] is framed by one or two neighbouring samples *)
Definition framed (x y : list R) (t z : R) : Prop :=
  exists i i', (i <= i' <= S i)%nat /\ (i' < length x)%nat /\ at_ x i <= t <= at_ x i' /\
    between (at_ y i) (at_ y i') z.

Lemma find_step x t : (2 <= length x)%nat -> at_ x 0 <= t <= last_of x ->
  exists i, (S i < length x)%nat /\ at_ x i <= t <= at_ x (S i).
Proof.
  intros L [H0 H1]. unfold last_of in H1.
  assert (G : forall k, (1 <= k < length x)%nat -> t <= at_ x k ->
     exists i, (S i <= k)%nat /\ at_ x i <= t <= at_ x (S i)).
  { induction k as [|k IH]; [lia|]. intros Hk Ht.
    destruct (Rle_lt_dec (at_ x k) t) as [Hl|Hl]; [exists k; split; auto; lia|].
    destruct k as [|k]; [lra|]. destruct IH as (i & Hi & E); [lia|lra|]. exists i. split; auto; lia. }
  destruct (G (length x - 1)%nat ltac:(lia) H1) as (i & Hi & E). exists i. split; auto; lia.
Qed.

Lemma inc_min x : (1 <= length x)%nat -> increasing x -> is_min x (at_ x 0).
Proof.
  intros L I. split; [apply nth_In; lia|]. intros r Hr. destruct (In_nth x r 0 Hr) as (i & Hi & <-).
  fold (at_ x i). destruct i; [lra|]. left. apply inc_lt; auto; lia.
Qed.
Lemma inc_max x : (1 <= length x)%nat -> increasing x -> is_max x (last_of x).
Proof.
  intros L I. split; [apply nth_In; lia|]. intros r Hr. destruct (In_nth x r 0 Hr) as (i & Hi & <-).
  fold (at_ x i). unfold last_of. destruct (Nat.eq_dec i (length x - 1)) as [->|]; [lra|]. left. apply inc_lt; auto; lia.
Qed.
Lemma min_unique x a b : is_min x a -> is_min x b -> a = b.
Proof. intros [] []. apply Rle_antisym; auto. Qed.
Lemma max_unique x a b : is_max x a -> is_max x b -> a = b.
Proof. intros [] []. apply Rle_antisym; auto. Qed.

(** a list that starts at or below t, ends above and has steps below d has an entry in [t, t+d) *)
Lemma fine_hit g t d : (1 <= length g)%nat -> at_ g 0 < t + d -> t <= last_of g -> fine d g ->
  exists j, (j < length g)%nat /\ t <= at_ g j < t + d.
Proof.
  intros L H0 H1 F. unfold last_of in H1.
  assert (G : forall k, (k < length g)%nat -> t <= at_ g k -> exists j, (j <= k)%nat /\ t <= at_ g j < t + d).
  { induction k as [|k IH]; intros Hk Ht; [exists 0%nat; split; auto|].
    destruct (Rle_lt_dec t (at_ g k)) as [Hl|Hl].
    - destruct IH as (j & Hj & E); [lia|auto|]. exists j. split; auto.
    - exists (S k). split; auto. split; auto. specialize (F k Hk). lra. }
  destruct (G (length g - 1)%nat ltac:(lia) H1) as (j & Hj & E). exists j. split; auto; lia.
Qed.

Section Resample.
  Variable mk : kind -> list xr -> list xr -> result (xr -> xr).
  Variables (ik : option kind) (num : nat) (x y : list R) (d : R).
  Hypothesis Lx : (2 <= length x)%nat.
  Hypothesis Ix : increasing x.
  Hypothesis Lxy : length x = length y.
  Hypothesis Hk : forall k, ik = Some k -> no_overshoot (mk k) /\ last_of x - at_ x 0 < d * INR (num - 1).
  Hypothesis Fx : fine d x.
  Hypothesis Hd : 0 < d.

  Lemma resample_framed g q : resampled mk ik num x (map Fin y) g q ->
    exists z, q = map Fin z /\ length g = length z /\ nondecreasing g /\
      (forall k, (k < length g)%nat -> framed x y (at_ g k) (at_ z k)) /\
      (forall t, at_ x 0 < t + d -> t <= last_of x -> exists j, (j < length g)%nat /\ t <= at_ g j < t + d).
  Proof.
    intros R. assert (N : nondecreasing g) by (eapply resampled_sorted; eauto; intros _; now apply inc_nondec).
    destruct ik as [k|].
    - destruct (Hk k eq_refl) as [NO Hnum]. destruct R as (f & lo & hi & Ef & Hlo & Hhi & [Lg Eg] & ->).
      assert (lo = at_ x 0) as -> by (apply (min_unique x); auto; apply inc_min; auto; lia).
      assert (hi = last_of x) as -> by (apply (max_unique x); auto; apply inc_max; auto; lia).
      destruct (NO x y Ix Lxy Lx) as (f' & Ef' & Hf). assert (f' = f) as -> by congruence.
      set (N' := Nat.max num (length x)) in *.
      assert (LT : at_ x 0 < last_of x) by (unfold last_of; apply inc_lt; auto; lia).
      assert (IN : 0 < INR (N' - 1)) by (apply lt_0_INR; lia).
      assert (St : 0 < (last_of x - at_ x 0) / INR (N' - 1)) by (apply Rdiv_lt_0_compat; lra).
      assert (Lst : last_of g = last_of x).
      { unfold last_of at 1. rewrite Eg by lia. rewrite Lg. field. lra. }
      assert (G0 : at_ g 0 = at_ x 0) by (rewrite Eg by lia; cbn [INR]; lra).
      assert (GR : forall k, (k < length g)%nat -> at_ x 0 <= at_ g k <= last_of x).
      { intros k0 Hk0. rewrite <- Lst, <- G0. unfold last_of. split; apply nondec_le; auto; lia. }
      assert (Z : exists z, map f (map Fin g) = map Fin z /\ length g = length z /\
                 forall k, (k < length g)%nat -> framed x y (at_ g k) (at_ z k)).
      { clear Eg Lst G0 N Lg. induction g as [|a g IH].
        - exists []. split; auto. split; auto. cbn. intros; lia.
        - destruct IH as (z & E & L & Fz). { intros k0 Hk0. apply (GR (S k0)). cbn. lia. }
          destruct (find_step x a Lx) as (i & Hi & Hx); [apply (GR 0%nat); cbn; lia|].
          destruct (Hf i a Hi Hx) as (v & Ev & Bv).
          exists (v :: z). cbn [map]. rewrite E, Ev. split; auto. split; [cbn; lia|].
          intros [|k0] Hk0; [|apply Fz; cbn in Hk0; lia]. exists i, (S i). repeat split; auto; try lia; apply Hx. }
      destruct Z as (z & E & Lz & Fz). exists z. split; auto. split; auto. split; auto. split; auto.
      intros t Ht Htl. apply fine_hit; auto; [lia|lra|lra|].
      intros i Hi. rewrite !Eg by lia. rewrite S_INR.
      assert ((last_of x - at_ x 0) / INR (N' - 1) < d); [|lra].
      apply Rmult_lt_reg_r with (INR (N' - 1)); auto. unfold Rdiv. rewrite Rmult_assoc, Rinv_l, Rmult_1_r by lra.
      apply Rlt_le_trans with (1 := Hnum). apply Rmult_le_compat_l; [lra|]. apply le_INR. lia.
    - destruct R as [-> ->]. exists y. split; auto. split; auto. split; auto. split.
      + intros k Hk'. exists k, k. repeat split; auto; try lra. left. lra.
      + intros t Ht Htl. apply fine_hit; auto. lia.
  Qed.
End Resample.

(** ** Continuity *)
Definition cont (f : R -> R) (x : R) : Prop :=
  forall t, 0 < t -> exists d, 0 < d /\ forall y, Rabs (y - x) < d -> Rabs (f y - f x) < t.
Lemma cont_of f x l : derivable_pt_lim f x l -> cont f x.
Proof.
  intros D t Ht.
  assert (C : continuity_pt f x) by (apply derivable_continuous_pt; exists l; exact D).
  destruct (C t Ht) as (d & Hd & H). exists d. split; auto. intros y Hy.
  destruct (Req_dec y x) as [->|Ne]; [rewrite Rminus_diag_eq, Rabs_R0 by auto; auto|].
  apply (H y). split; [split; [exact I|auto]|exact Hy].
Qed.

Section Sersic.
  Variables A re n e : R.
  Hypothesis HA : 0 < A.
  Hypothesis Hre : 0 < re.
  Hypothesis Hn : 0 < n.
  Hypothesis He : e < 1.
  Notation law := (sersic_law A re n (bnR n)).
  Notation F := (enclR A re n e).
  Notation area := (ellipse_area e).
  Notation p := (profR re n).

  Lemma law_derive r : 0 < r -> exists l, derivable_pt_lim law r l.
  Proof.
    intros Hr. eexists.
    apply (dpl_ext (fun y => A * exp (- bnR n * (Rpower (y / re) (1 / n) - 1))) _ _ _ r); [lra| |].
    - intros y Hy. unfold sersic_law. rewrite rpow_pos; auto. apply Rdiv_lt_0_compat; auto.
      unfold Rabs in Hy. destruct (Rcase_abs _); lra.
    - apply derivable_pt_lim_scal. apply (derivable_pt_lim_comp (fun y => - bnR n * (Rpower (y / re) (1 / n) - 1)) exp).
      + apply derivable_pt_lim_scal. apply (derivable_pt_lim_minus (fun y => Rpower (y / re) (1 / n)) (fun _ => 1));
          [|apply derivable_pt_lim_const].
        apply (derivable_pt_lim_comp (fun y => y / re) (fun u => Rpower u (1 / n))).
        * apply (derivable_pt_lim_mult id (fun _ => / re) r 1 0); [apply derivable_pt_lim_id|apply derivable_pt_lim_const].
        * apply derivable_pt_lim_power. now apply Rdiv_lt_0_compat.
      + apply derivable_pt_lim_exp.
  Qed.
  Lemma law_cont r : 0 < r -> cont law r.
  Proof. intros H. destruct (law_derive r H) as [l D]. eapply cont_of; eauto. Qed.
  Lemma F_cont r : 0 < r -> cont F r.
  Proof. intros H. eapply cont_of. now apply encl_derive. Qed.
  Lemma prof_derive r : 0 < r -> exists l, derivable_pt_lim p r l.
  Proof.
    intros Hr. destruct (law_derive r Hr) as [l D]. eexists.
    apply (dpl_ext (fun y => (law y * area y) / F y) _ _ _ r); [lra| |].
    - intros y Hy. assert (0 < y) by (unfold Rabs in Hy; destruct (Rcase_abs _); lra).
      rewrite (prof_ratio A re n e) by auto. pose proof (F_pos A re n e HA Hre Hn He y H).
      pose proof (area_pos e He y H). field. split; lra.
    - apply (derivable_pt_lim_div (fun y => law y * area y) F).
      + apply (derivable_pt_lim_mult law area); [exact D|apply area_derive].
      + now apply encl_derive.
      + apply Rgt_not_eq. now apply F_pos.
  Qed.
  Lemma prof_cont r : 0 < r -> cont p r.
  Proof. intros H. destruct (prof_derive r H) as [l D]. eapply cont_of; eauto. Qed.

  (** ** The choice of the step *)
  Lemma choose rt eps : 0 < rt -> 0 < eps <= rt -> exists h d,
    0 < h <= eps /\ 0 < d /\ 8 * d <= eps /\ 8 * d <= h /\
    p rt - (p (rt - eps / 2) - p rt) < p (rt + 2 * h) /\
    p (rt + h / 4) * law (rt + h / 2 - 4 * d) <= p rt * law (rt + h / 2 + 4 * d).
  Proof.
    intros Hrt Heps.
    pose proof (prof_dec re n Hre Hn (rt - eps / 2) rt ltac:(lra)) as Hm.
    destruct (prof_cont rt Hrt (p (rt - eps / 2) - p rt) ltac:(lra)) as (d1 & Hd1 & C1).
    set (h := Rmin (eps / 2) (d1 / 3)).
    assert (Hh : 0 < h) by (unfold h; apply Rmin_glb_lt; lra).
    assert (h <= eps / 2) by apply Rmin_l. assert (h <= d1 / 3) by apply Rmin_r.
    pose proof (prof_dec re n Hre Hn rt (rt + h / 4) ltac:(lra)) as P4.
    pose proof (prof_range re n Hre Hn (rt + h / 4) ltac:(lra)) as P4r.
    set (c := rt + h / 2). set (p4 := p (rt + h / 4)) in *. set (pt := p rt) in *.
    pose proof (law_pos A re n HA c) as Lc.
    set (t := law c * (pt - p4) / (pt + p4)).
    assert (Ht : 0 < t) by (apply Rdiv_lt_0_compat; [apply Rmult_lt_0_compat|]; lra).
    destruct (law_cont c ltac:(unfold c; lra) t Ht) as (d2 & Hd2 & C2).
    set (d := Rmin (h / 8) (d2 / 8)).
    assert (Hd : 0 < d) by (unfold d; apply Rmin_glb_lt; lra).
    assert (d <= h / 8) by apply Rmin_l. assert (d <= d2 / 8) by apply Rmin_r.
    exists h, d. repeat split; auto; try lra.
    - specialize (C1 (rt + 2 * h)). rewrite Rabs_pos_eq in C1 by lra. specialize (C1 ltac:(lra)).
      apply Rabs_def2 in C1. fold pt in C1. lra.
    - fold c p4 pt. pose proof (C2 (c - 4 * d)) as C3. rewrite Rabs_left1 in C3 by lra. specialize (C3 ltac:(lra)). apply Rabs_def2 in C3.
      pose proof (C2 (c + 4 * d)) as C4. rewrite Rabs_pos_eq in C4 by lra. specialize (C4 ltac:(lra)). apply Rabs_def2 in C4.
      apply Rle_trans with (p4 * (law c + t)); [apply Rmult_le_compat_l; lra|].
      apply Rle_trans with (pt * (law c - t)); [|apply Rmult_le_compat_l; lra].
      assert (t * (pt + p4) = law c * (pt - p4)) by (unfold t; field; lra). lra.
  Qed.

  (** ** The samples *)
  Lemma fine_tl d r0 rs : 0 < d -> 0 < r0 -> fine d (0 :: r0 :: rs) -> fine (2 * d) (0 :: rs).
  Proof.
    intros Hd H0 Fi i Hi. cbn [length] in Hi. pose proof (Fi (S i) ltac:(cbn; lia)) as Fi1. cbn [at_ nth] in *.
    destruct i as [|i].
    - pose proof (Fi 0%nat ltac:(cbn; lia)) as Fi0. unfold at_ in *. cbn [nth] in *. lra.
    - unfold at_ in *. cbn [nth] in *. lra.
  Qed.
  Lemma inc_tl r0 rs : 0 < r0 -> increasing (r0 :: rs) -> increasing (0 :: rs).
  Proof.
    intros H0 I i Hi. cbn [length] in Hi. pose proof (I i ltac:(cbn; lia)) as Ii. unfold at_ in *.
    destruct i as [|i]; cbn [nth] in *; lra.
  Qed.

  Lemma petro_conv rt eps : 0 < rt -> 0 < eps <= rt -> exists d, 0 < d /\
    forall mk ik num rs V,
      (2 < length rs)%nat -> increasing rs -> 0 < at_ rs 0 -> fine d (0 :: rs) -> rt + eps <= last_of rs ->
      length V = (length rs - 1)%nat ->
      (forall i, (S i < length rs)%nat -> at_ V i = measured A re n e (at_ rs i) (at_ rs (S i))) ->
      (forall k, ik = Some k -> no_overshoot (mk k) /\ last_of rs < d * INR (num - 1)) ->
      exists a, calculate_petrosian_r mk (map Fin rs) (NaN :: map Fin V) None (Fin (p rt)) ik num = Ok (Fin a, NaN) /\
        Rabs (a - rt) < eps.
  Proof.
    intros Hrt Heps. destruct (choose rt eps Hrt Heps) as (h & d & Hh & Hd & Hde & Hdh & Hb & Hc).
    exists d. split; auto. intros mk ik num rs V Len I P0 Fi La LV HV HK.
    assert (Full : forall i, (i < length rs)%nat -> 0 < at_ rs i) by (intros; apply at_pos; auto).
    assert (Step : forall i, (S i < length rs)%nat -> at_ rs (S i) - at_ rs i < d) by (intros i Hi; apply (Fi (S i)); cbn; lia).
    destruct rs as [|r0 rs]; [cbn in Len; lia|].
    assert (P0' : 0 < r0) by exact P0.
    set (X := 0 :: rs). set (Y := 1 :: V).
    assert (LX : length X = length (r0 :: rs)) by reflexivity.
    assert (L2 : (2 <= length X)%nat) by (rewrite LX; lia).
    assert (L1 : (1 <= length rs)%nat) by (cbn in Len; lia).
    assert (LXY : length X = length Y) by (cbn in *; lia).
    assert (IX : increasing X) by (eapply inc_tl; eauto).
    assert (FX : fine (2 * d) X) by (eapply fine_tl; eauto).
    assert (AX : forall i, (1 <= i)%nat -> at_ X i = at_ (r0 :: rs) i) by (intros [|i] Hi; [lia|reflexivity]).
    assert (LaX : last_of X = last_of (r0 :: rs)).
    { unfold last_of. rewrite LX. apply AX. cbn in *; lia. }
    assert (low : forall i r, (i < length X)%nat -> at_ X i <= r -> 0 < r -> p r <= at_ Y i).
    { intros i r Hi Hr Hr0. destruct i as [|i].
      - cbn [at_ nth Y]. pose proof (prof_range re n Hre Hn r Hr0). unfold at_, Y. cbn [nth]. lra.
      - change (at_ Y (S i)) with (at_ V i). rewrite HV by lia. rewrite AX in Hr by lia.
        pose proof (Full i ltac:(lia)). pose proof (I i ltac:(lia)).
        destruct (measured_bracket A re n e HA Hre Hn He (at_ (r0 :: rs) i) (at_ (r0 :: rs) (S i)) ltac:(lra)) as [[B _] _].
        apply Rle_trans with (p (at_ (r0 :: rs) (S i))); [|lra]. apply prof_dec_le; auto. }
    assert (high : forall i, (i < length X)%nat -> rt + h / 2 - 2 * d <= at_ X i <= rt + h / 2 + 4 * d -> at_ Y i <= p rt).
    { intros i Hi Hx. destruct i as [|i]; [unfold at_, X in Hx; cbn [nth] in Hx; lra|].
      change (at_ Y (S i)) with (at_ V i). rewrite HV by lia. rewrite AX in Hx by lia.
      pose proof (Full i ltac:(lia)). pose proof (I i ltac:(lia)). pose proof (Step i ltac:(lia)).
      destruct (measured_bracket A re n e HA Hre Hn He (at_ (r0 :: rs) i) (at_ (r0 :: rs) (S i)) ltac:(lra)) as [_ B].
      set (a := at_ (r0 :: rs) i) in *. set (b := at_ (r0 :: rs) (S i)) in *.
      left. apply Rlt_le_trans with (1 := B).
      pose proof (prof_dec_le re n Hre Hn (rt + h / 4) b ltac:(lra)).
      assert (law a <= law (rt + h / 2 - 4 * d)).
      { destruct (Req_dec a (rt + h / 2 - 4 * d)) as [->|]; [lra|]. left. apply law_dec; auto. lra. }
      assert (law (rt + h / 2 + 4 * d) <= law b).
      { destruct (Req_dec b (rt + h / 2 + 4 * d)) as [->|]; [lra|]. left. apply law_dec; auto. lra. }
      pose proof (law_pos A re n HA a). pose proof (law_pos A re n HA b).
      pose proof (prof_range re n Hre Hn b ltac:(lra)). pose proof (prof_range re n Hre Hn rt ltac:(lra)).
      apply Rmult_le_reg_r with (law b); auto.
      replace (p b * (law a / law b) * law b) with (p b * law a) by (field; lra).
      apply Rle_trans with (p (rt + h / 4) * law (rt + h / 2 - 4 * d)).
      - apply Rmult_le_compat; lra.
      - apply Rle_trans with (1 := Hc). apply Rmult_le_compat_l; lra. }
    assert (HK' : forall k, ik = Some k -> no_overshoot (mk k) /\ last_of X - at_ X 0 < 2 * d * INR (num - 1)).
    { intros k Ek. destruct (HK k Ek) as [N1 N2]. split; auto. rewrite LaX. unfold X at 1, at_. cbn [nth].
      pose proof (pos_INR (num - 1)). nra. }
    destruct (petro_r_total mk (Fin r0) rs NaN (map Fin V) (Fin (p rt)) ik num) as (v & Ev).
    { exact L1. } { rewrite map_length. cbn in *. lia. }
    { intros k Ek. destruct (HK k Ek) as [NO _]. destruct (NO X Y IX LXY L2) as (f & Ef & _).
      exists f. exact Ef. }
    destruct (petro_r_spec mk _ _ _ _ _ _ _ _ _ L1 Ev) as (g & q & R & Fr & _).
    destruct (resample_framed mk ik num X Y (2 * d) L2 IX LXY HK' FX ltac:(lra) g q R)
      as (z & -> & Lg & Ng & Fz & Hit).
    assert (lowz : forall k r, (k < length g)%nat -> at_ g k + 2 * d <= r -> 0 < r -> p r <= at_ z k).
    { intros k r Hk Hr Hr0. destruct (Fz k Hk) as (i & i' & Hi & Hi' & Hx & B).
      assert (at_ X i' <= r).
      { assert (i' = i \/ i' = S i) as [->| ->] by lia; [lra|]. pose proof (FX i ltac:(lia)). lra. }
      pose proof (low i' r ltac:(lia) ltac:(lra) Hr0). pose proof (low i r ltac:(lia) ltac:(lra) Hr0).
      destruct B; lra. }
    destruct (search_bounds false (p rt) g z v (rt - eps) (rt + h) (p (rt - eps / 2) - p rt) Ng Lg) as (a & -> & Ha); auto.
    - intros k Hk Hg. unfold gap. pose proof (lowz k (rt - eps / 2) Hk ltac:(lra) ltac:(lra)). lra.
    - intros k Hk Hg. unfold gap. pose proof (lowz k (rt + 2 * h) Hk ltac:(lra) ltac:(lra)). lra.
    - destruct (Hit (rt + h / 2)) as (j & Hj & Hgj).
      { unfold X, at_. cbn [nth]. lra. } { rewrite LaX. lra. }
      exists j. split; auto. split; [lra|]. unfold gap.
      destruct (Fz j Hj) as (i & i' & Hi & Hi' & Hx & B).
      assert (at_ X i' - at_ X i < 2 * d).
      { assert (i' = i \/ i' = S i) as [->| ->] by lia; [lra|]. apply (FX i). lia. }
      pose proof (high i ltac:(lia) ltac:(lra)). pose proof (high i' ltac:(lia) ltac:(lra)). destruct B; lra.
    - exists a. split; [exact Ev|]. apply Rabs_def1; lra.
  Qed.
End Sersic.

(** C97 *)
Theorem radius_converges A re n e rt eta eps : 0 < A -> 0 < re -> 0 < n -> e < 1 -> 0 < rt ->
  petrosian_profile (Fin rt) (Fin re) (Fin n) = Fin eta -> 0 < eps ->
  exists d, 0 < d /\ forall mk rs L s, sampled A re n e d (rt + eps) rs L -> s_eta s = Fin eta ->
    (forall k, s_kind s = Some k -> no_overshoot (mk k) /\ last_of rs < d * INR (s_num s - 1)) ->
    exists o a,
      Petrosian_new (ideal_data e rs L) s = Ok o /\
      read mk o A_r_petrosian = Ok (VNum (Fin a)) /\ Rabs (a - rt) < eps.
Proof.
  intros HA Hre Hn He Hrt Ht Heps. rewrite petro_fin in Ht by auto. injection Ht as <-.
  set (eps' := Rmin eps rt).
  assert (0 < eps') by (unfold eps'; apply Rmin_glb_lt; auto).
  assert (eps' <= eps) by apply Rmin_l. assert (eps' <= rt) by apply Rmin_r.
  destruct (petro_conv A re n e HA Hre Hn He rt eps' Hrt ltac:(lra)) as (d & Hd & C).
  exists d. split; auto. intros mk rs L s (Len & I & P0 & Fi & La & SF) Es HK.
  destruct (sersic_list A re n e rs L HA Hre Hn He Len I P0 SF) as (V & E & LV & HV).
  destruct (C mk (s_kind s) (s_num s) rs V Len I P0 Fi ltac:(lra) LV HV HK) as (a & Ea & Ha).
  assert (LL : length L = length rs) by (rewrite (fluxes_map A re n e rs L); auto; apply map_length).
  eexists. exists a. split; [|split].
  - unfold Petrosian_new, validate_input_arrays, ideal_data. cbn [d_r d_flux d_flux_err d_area_err d_area d_dtype].
    rewrite !map_length. rewrite LL, Nat.eqb_refl.
    replace (Nat.ltb 2 (length rs)) with true by (symmetry; now apply Nat.ltb_lt).
    cbn [assert_ bind]. rewrite E. cbn [bind fst snd]. reflexivity.
  - cbn [read]. unfold num, obj_r_petrosian, obj_petro_r. cbn [p_data p_set p_list p_err d_r].
    unfold profR in Ea. rewrite Es, Ea. reflexivity.
  - lra.
Qed.
