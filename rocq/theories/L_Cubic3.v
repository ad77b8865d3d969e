(** Samples of a Sersic galaxy at close radii differ by little, so cubic splines through them overshoot by little. *)
From Verif Require Import Base Num Numpy M_Petrosian M_Sersic Gamma S_Sersic S_Petrosian S_Conv S_Spline S_Cubic
  L_Sersic L_Petrosian L_Conv L_Conv2 L_Galaxy2 L_Spline L_Cubic.
Local Open Scope R_scope.

(** ** uniform continuity *)
Lemma uniform_upto s X w : cont0 s -> 0 < w -> exists d, 0 < d /\
  forall x y, 0 <= x <= X -> 0 <= y <= X -> Rabs (x - y) < d -> Rabs (s x - s y) < w.
Proof.
  intros C Hw. set (f := fun x => s (Rmax x 0)).
  assert (Cf : forall x, 0 <= x <= X -> continuity_pt f x).
  { intros x Hx e He. destruct (C x e (proj1 Hx) He) as (d & Hd & H). exists d. split; auto.
    intros y [_ Hy]. unfold f. rewrite (Rmax_left x 0) by lra. apply H; [apply Rmax_r|].
    apply Rle_lt_trans with (2 := Hy). unfold R_dist. cbn [dist R_met]. unfold R_dist.
    unfold Rmax. destruct (Rle_dec y 0); [|lra]. rewrite !Rabs_left1 by lra. lra. }
  destruct (Heine_cor2 Cf (mkposreal w Hw)) as ([d Hd] & H). cbn in H. exists d. split; auto.
  intros x y Hx Hy D. pose proof (H x y Hx Hy D) as Q. unfold f in Q. rewrite !Rmax_left in Q by lra. exact Q.
Qed.
Lemma uniform_all s l w : cont0 s -> tends_to_at_infinity s l -> 0 < w -> exists d, 0 < d /\
  forall x y, 0 <= x -> 0 <= y -> Rabs (x - y) < d -> Rabs (s x - s y) < w.
Proof.
  intros C T Hw. destruct (T (w / 2) ltac:(lra)) as (X & HX). destruct (uniform_upto s (X + 1) w C Hw) as (d & Hd & H).
  exists (Rmin d 1). split; [apply Rmin_pos; lra|]. intros x y Hx Hy D.
  assert (D1 : Rabs (x - y) < d) by (eapply Rlt_le_trans; [exact D|apply Rmin_l]).
  assert (D2 : Rabs (x - y) < 1) by (eapply Rlt_le_trans; [exact D|apply Rmin_r]). apply Rabs_def2 in D2.
  destruct (Rle_lt_dec x (X + 1)); [destruct (Rle_lt_dec y (X + 1))|].
  - apply H; lra.
  - pose proof (HX x ltac:(lra)) as A. pose proof (HX y ltac:(lra)) as B. apply Rabs_def2 in A, B. apply Rabs_def1; lra.
  - pose proof (HX x ltac:(lra)) as A. pose proof (HX y ltac:(lra)) as B. apply Rabs_def2 in A, B. apply Rabs_def1; lra.
Qed.

Lemma at_cons_V x (V : list R) i : at_ (x :: V) (S i) = at_ V i.
Proof. reflexivity. Qed.

Section Sersic.
  Variables A re n e : R.
  Hypothesis HA : 0 < A.
  Hypothesis Hre : 0 < re.
  Hypothesis Hn : 0 < n.
  Hypothesis He : e < 1.
  Notation law := (sersic_law A re n (bnR n)).
  Notation F := (enclR A re n e).
  Notation p := (profR re n).
  Notation area := (ellipse_area e).
  Notation meas := (measured A re n e).

  Lemma area_0 : area 0 = 0.
  Proof. unfold ellipse_area. ring. Qed.
  Lemma F_le r : 0 < r -> F r <= law 0 * area r.
  Proof.
    intros Hr. apply Rnot_lt_le. intros H. set (g := F r - law 0 * area r) in *.
    destruct (encl_limit0 A re n e Hre Hn g ltac:(unfold g; lra)) as (d & Hd & Hz).
    set (a := Rmin d r / 2). assert (0 < Rmin d r) by (apply Rmin_pos; auto).
    assert (Rmin d r <= d) by apply Rmin_l. assert (Rmin d r <= r) by apply Rmin_r.
    assert (Ha : 0 < a < r /\ a < d) by (unfold a; lra).
    pose proof (Hz a ltac:(lra)) as Q. rewrite Rminus_0_r in Q. apply Rabs_def2 in Q.
    destruct (annulus A re n e HA Hre Hn He a r ltac:(lra)) as [_ B].
    pose proof (area_pos e He a ltac:(lra)). pose proof (area_inc e He a r ltac:(lra)).
    pose proof (law_dec A re n HA Hre Hn 0 a ltac:(lra)). pose proof (law_pos A re n HA a). unfold g in Q. nra.
  Qed.
  Lemma prof_low r : 0 < r -> law r / law 0 <= p r.
  Proof.
    intros Hr. rewrite (prof_ratio A re n e HA Hre Hn He) by auto. pose proof (F_le r Hr). pose proof (area_pos e He r Hr).
    pose proof (F_pos A re n e HA Hre Hn He r Hr). pose proof (law_pos A re n HA r). pose proof (law_pos A re n HA 0).
    unfold Rdiv at 1. apply Rmult_le_compat_l; [lra|]. apply Rinv_le_contravar.
    - apply Rdiv_lt_0_compat; auto.
    - apply Rmult_le_reg_r with (area r); auto. replace (F r / area r * area r) with (F r) by (field; lra). lra.
  Qed.
  Lemma prof_zero : tends_to_at_zero p 1.
  Proof.
    intros w Hw. pose proof (law_pos A re n HA 0) as L0.
    destruct (law_cont A re n (bnR n) Hre Hn 0 (w * law 0) ltac:(lra) ltac:(apply Rmult_lt_0_compat; auto)) as (d & Hd & H).
    exists d. split; auto. intros r Hr. pose proof (H r ltac:(lra) ltac:(rewrite Rminus_0_r, Rabs_pos_eq; lra)) as Q.
    apply Rabs_def2 in Q. pose proof (prof_low r ltac:(lra)) as Lo. destruct (prof_range re n Hre Hn r ltac:(lra)) as [_ Up].
    assert (1 - w < law r / law 0).
    { apply Rmult_lt_reg_r with (law 0); auto. replace (law r / law 0 * law 0) with (law r) by (field; lra). lra. }
    apply Rabs_def1; lra.
  Qed.
  Lemma prof_infty : tends_to_at_infinity p 0.
  Proof.
    intros w Hw. pose proof (F_pos A re n e HA Hre Hn He 1 ltac:(lra)) as F1.
    destruct (encl_limit A re n e Hre Hn (3 / 8 * w * F 1) ltac:(apply Rmult_lt_0_compat; lra)) as (X & HX).
    exists (2 * Rmax X 1). intros r Hr. pose proof (Rmax_l X 1). pose proof (Rmax_r X 1).
    pose proof (HX r ltac:(lra)) as Q1. pose proof (HX (r / 2) ltac:(lra)) as Q2. apply Rabs_def2 in Q1, Q2.
    destruct (annulus A re n e HA Hre Hn He (r / 2) r ltac:(lra)) as [B _].
    pose proof (area_pos e He r ltac:(lra)) as Ap. pose proof (encl_inc A re n e 1 r HA Hre Hn He ltac:(lra)) as Fi.
    destruct (prof_range re n Hre Hn r ltac:(lra)) as [Lo _]. rewrite Rminus_0_r, Rabs_pos_eq by lra.
    rewrite (prof_ratio A re n e HA Hre Hn He) by lra.
    replace (area (r / 2)) with (area r / 4) in B by (unfold ellipse_area; field).
    replace (law r / (F r / area r)) with (law r * area r / F r) by (field; lra).
    apply Rmult_lt_reg_r with (F r); [lra|]. replace (law r * area r / F r * F r) with (law r * area r) by (field; lra).
    assert (w * F 1 < w * F r) by (apply Rmult_lt_compat_l; lra). lra.
  Qed.

  (** the profile, 1 in the centre *)
  Definition prof0 (r : R) : R := if Rle_dec r 0 then 1 else p r.
  Lemma prof0_pos r : 0 < r -> prof0 r = p r.
  Proof. intros. unfold prof0. destruct (Rle_dec r 0); [lra|reflexivity]. Qed.
  Lemma prof0_cont : cont0 prof0.
  Proof.
    intros r w Hr Hw. destruct Hr as [Hr|<-].
    - destruct (prof_cont A re n e HA Hre Hn He r Hr w Hw) as (d & Hd & H). exists (Rmin d r). split; [now apply Rmin_pos|].
      intros q Hq D. assert (D1 : Rabs (q - r) < d) by (eapply Rlt_le_trans; [exact D|apply Rmin_l]).
      assert (D2 : Rabs (q - r) < r) by (eapply Rlt_le_trans; [exact D|apply Rmin_r]). apply Rabs_def2 in D2.
      rewrite !prof0_pos by lra. now apply H.
    - destruct (prof_zero w Hw) as (d & Hd & H). exists d. split; auto. intros q Hq D. rewrite Rminus_0_r, Rabs_pos_eq in D by lra.
      replace (prof0 0) with 1 by (unfold prof0; destruct (Rle_dec 0 0); [reflexivity|lra]).
      destruct Hq as [Hq|<-]; [rewrite prof0_pos by auto; apply H; lra|].
      unfold prof0. destruct (Rle_dec 0 0); [|lra]. rewrite Rminus_diag_eq, Rabs_R0; auto.
  Qed.
  Lemma prof0_infty : tends_to_at_infinity prof0 0.
  Proof.
    intros w Hw. destruct (prof_infty w Hw) as (X & HX). exists (Rmax X 1). intros r Hr. pose proof (Rmax_l X 1). pose proof (Rmax_r X 1).
    rewrite prof0_pos by lra. apply HX. lra.
  Qed.
  Lemma F_cont0 : cont0 F.
  Proof.
    intros r w Hr Hw. destruct Hr as [Hr|<-].
    - destruct (F_cont A re n e Hre Hn r Hr w Hw) as (d & Hd & H). exists d. split; auto.
    - destruct (encl_limit0 A re n e Hre Hn w Hw) as (d & Hd & H). exists d. split; auto. intros q Hq D. rewrite Rminus_0_r, Rabs_pos_eq in D by lra.
      rewrite (encl_zero A re n e). destruct Hq as [Hq|<-]; [apply H; lra|]. rewrite encl_zero, Rminus_diag_eq, Rabs_R0; auto.
  Qed.

  (** what is measured in a narrow annulus *)
  Lemma measured_near w : 0 < w -> exists d, 0 < d /\ forall a b, 0 < a < b -> b - a < d -> Rabs (meas a b - p b) < w.
  Proof.
    intros Hw. destruct (prof_infty (w / 8) ltac:(lra)) as (X & HX). set (X' := Rmax X 1 + 1).
    pose proof (Rmax_l X 1). pose proof (Rmax_r X 1).
    pose proof (law_pos A re n HA X') as LX.
    destruct (uniform_upto law X' (w * law X') (law_cont A re n (bnR n) Hre Hn) ltac:(apply Rmult_lt_0_compat; auto)) as (d & Hd & HU).
    exists (Rmin d 1). split; [apply Rmin_pos; lra|]. intros a b Hab D.
    assert (D1 : b - a < d) by (eapply Rlt_le_trans; [exact D|apply Rmin_l]).
    assert (D2 : b - a < 1) by (eapply Rlt_le_trans; [exact D|apply Rmin_r]).
    destruct (measured_bracket A re n e HA Hre Hn He a b Hab) as [[B1 _] B2].
    pose proof (law_pos A re n HA a) as La. pose proof (law_pos A re n HA b) as Lb. pose proof (law_dec A re n HA Hre Hn a b ltac:(lra)) as Ld.
    destruct (prof_range re n Hre Hn b ltac:(lra)) as [P0 P1].
    destruct (Rle_lt_dec b X') as [Hb|Hb].
    - pose proof (HU a b ltac:(lra) ltac:(lra) ltac:(rewrite Rabs_left1; lra)) as Q. rewrite Rabs_pos_eq in Q by lra.
      assert (law X' <= law b) by (destruct (Req_dec b X') as [->|]; [lra|left; apply law_dec; auto; lra]).
      assert (law a / law b < 1 + w).
      { apply Rmult_lt_reg_r with (law b); auto. replace (law a / law b * law b) with (law a) by (field; lra). nra. }
      apply Rabs_def1; nra.
    - destruct (annulus A re n e HA Hre Hn He a b Hab) as [_ Up].
      pose proof (area_pos e He a ltac:(lra)) as Aa. pose proof (area_inc e He a b ltac:(lra)) as Ab.
      pose proof (F_pos A re n e HA Hre Hn He a ltac:(lra)) as Fa. pose proof (encl_inc A re n e a b HA Hre Hn He ltac:(lra)) as Fb.
      assert (M : meas a b <= p a * 4).
      { unfold measured. rewrite (prof_ratio A re n e HA Hre Hn He) by lra.
        apply Rle_trans with (law a / (F b / area b)).
        - unfold Rdiv at 1 3. apply Rmult_le_compat_r; [left; apply Rinv_0_lt_compat; apply Rdiv_lt_0_compat; lra|].
          apply Rmult_le_reg_r with (area b - area a); [lra|]. unfold Rdiv. rewrite Rmult_assoc, Rinv_l by lra. lra.
        - replace (law a / (F a / area a) * 4) with (law a * (4 * area a) / F a) by (field; lra).
          replace (law a / (F b / area b)) with (law a * area b / F b) by (field; lra).
          assert (A4 : area b <= 4 * area a).
          { unfold ellipse_area. pose proof PI_RGT_0. replace (4 * (PI * (a * a) * (1 - e))) with (PI * (4 * (a * a)) * (1 - e)) by ring.
            apply Rmult_le_compat_r; [lra|]. apply Rmult_le_compat_l; [lra|]. unfold X' in Hb. nra. }
          unfold Rdiv. apply Rmult_le_compat; [apply Rmult_le_pos; lra|left; apply Rinv_0_lt_compat; lra|apply Rmult_le_compat_l; lra|apply Rinv_le_contravar; lra]. }
      pose proof (HX a ltac:(unfold X' in Hb; lra)) as Qa. pose proof (HX b ltac:(unfold X' in Hb; lra)) as Qb.
      rewrite Rminus_0_r in Qa, Qb. apply Rabs_def2 in Qa, Qb. apply Rabs_def1; lra.
  Qed.

  Lemma close_samples w : 0 < w -> exists d, 0 < d /\ forall rs, (2 < length rs)%nat -> increasing rs -> 0 < at_ rs 0 -> fine d (0 :: rs) ->
    (forall i, (S i < length rs)%nat -> Rabs (F (at_ rs (S i)) - F (at_ rs i)) <= w) /\
    (forall V, length V = (length rs - 1)%nat ->
       (forall i, (S i < length rs)%nat -> Rabs (at_ V i - meas (at_ rs i) (at_ rs (S i))) <= w / 8) -> jumps_within w (1 :: V)).
  Proof.
    intros Hw.
    destruct (uniform_all F _ w F_cont0 (encl_limit A re n e Hre Hn) Hw) as (d1 & Hd1 & U1).
    destruct (uniform_all prof0 _ (w / 8) prof0_cont prof0_infty ltac:(lra)) as (d2 & Hd2 & U2).
    destruct (measured_near (w / 8) ltac:(lra)) as (d3 & Hd3 & U3).
    set (d := Rmin d1 (Rmin (d2 / 2) d3)). assert (0 < d) by (unfold d; repeat apply Rmin_pos; lra).
    assert (G1 : d <= d1) by apply Rmin_l. assert (G2 : d <= d2 / 2) by (unfold d; eapply Rle_trans; [apply Rmin_r|apply Rmin_l]).
    assert (G3 : d <= d3) by (unfold d; eapply Rle_trans; [apply Rmin_r|apply Rmin_r]).
    exists d. split; auto. intros rs Len I P0 Fi.
    assert (Pos : forall i, (i < length rs)%nat -> 0 < at_ rs i) by (intros; apply at_pos; auto).
    assert (St : forall i, (S i < length rs)%nat -> at_ rs (S i) - at_ rs i < d) by (intros i Hi; apply (Fi (S i)); cbn; lia).
    assert (S0 : at_ rs 0 < d) by (pose proof (Fi 0%nat ltac:(cbn; lia)) as Q; change (at_ (0 :: rs) 1) with (at_ rs 0) in Q; unfold at_ at 2 in Q; cbn [nth] in Q; lra).
    split.
    - intros i Hi. left. apply U1; [left; apply Pos; lia|left; apply Pos; lia|]. pose proof (I i Hi). pose proof (St i Hi). rewrite Rabs_pos_eq; lra.
    - intros V LV HV i Hi. cbn [length] in Hi.
      assert (Near : forall j, (S j < length rs)%nat -> Rabs (at_ V j - prof0 (at_ rs (S j))) < w / 4).
      { intros j Hj. pose proof (HV j Hj) as Q1. pose proof (U3 (at_ rs j) (at_ rs (S j)) ltac:(split; [apply Pos; lia|now apply I]) ltac:(pose proof (St j Hj); lra)) as Q2.
        rewrite prof0_pos by (apply Pos; lia). apply near_le in Q1. apply Rabs_def2 in Q2. apply Rabs_def1; lra. }
      rewrite at_cons_V. destruct i as [|i].
      + unfold at_ at 2. cbn [nth]. pose proof (Near 0%nat ltac:(lia)) as Q1.
        pose proof (U2 (at_ rs 1) 0 ltac:(left; apply Pos; lia) ltac:(lra)) as Q2.
        pose proof (Pos 1%nat ltac:(lia)). pose proof (St 0%nat ltac:(lia)).
        specialize (Q2 ltac:(rewrite Rminus_0_r, Rabs_pos_eq; lra)).
        replace (prof0 0) with 1 in Q2 by (unfold prof0; destruct (Rle_dec 0 0); [reflexivity|lra]).
        apply Rabs_def2 in Q1, Q2. apply Rabs_le. lra.
      + rewrite at_cons_V. pose proof (Near i ltac:(lia)) as Q1. pose proof (Near (S i) ltac:(lia)) as Q2.
        pose proof (I (S i) ltac:(lia)). pose proof (St (S i) ltac:(lia)).
        pose proof (U2 (at_ rs (S (S i))) (at_ rs (S i)) ltac:(left; apply Pos; lia) ltac:(left; apply Pos; lia) ltac:(rewrite Rabs_pos_eq; lra)) as Q3.
        apply Rabs_def2 in Q1, Q2, Q3. apply Rabs_le. lra.
  Qed.

  (** every value between 0 and 1 is the Petrosian ratio at exactly one radius *)
  Lemma prof_onto eta : 0 < eta < 1 -> exists r, 0 < r /\ p r = eta.
  Proof.
    intros H. destruct (prof_zero (1 - eta) ltac:(lra)) as (d & Hd & H0). destruct (prof_infty eta ltac:(lra)) as (X & HX).
    set (a := d / 2). set (b := Rmax X d). assert (d <= b) by apply Rmax_r. assert (X <= b) by apply Rmax_l.
    pose proof (H0 a ltac:(unfold a; lra)) as Qa. pose proof (HX b ltac:(lra)) as Qb. apply Rabs_def2 in Qa, Qb.
    assert (Ca : forall x, a <= x <= b -> continuity_pt (fun r => eta - p r) x).
    { intros x Hx. apply continuity_pt_minus; [apply continuity_pt_const; intros ? ?; reflexivity|].
      destruct (prof_derive A re n e HA Hre Hn He x ltac:(unfold a in Hx; lra)) as (l & D). apply derivable_continuous_pt. now exists l. }
    destruct (Ranalysis5.IVT_interv (fun r => eta - p r) a b Ca) as (r & Hr & E); [unfold a; lra|lra|lra|].
    exists r. split; [unfold a in Hr; lra|lra].
  Qed.
End Sersic.
