(** The Petrosian profile computed from an ideal Sersic curve of growth brackets the true one. *)
From Verif Require Import Base Num Numpy M_Utils M_Petrosian M_Sersic Gamma S_Sersic S_Utils S_Petrosian S_PetroR S_Conv
  L_Numpy L_Sersic L_Petrosian.
Local Open Scope R_scope.

Section Sersic.
  Variables A re n e : R.
  Hypothesis HA : 0 < A.
  Hypothesis Hre : 0 < re.
  Hypothesis Hn : 0 < n.
  Hypothesis He : e < 1.
  Notation law := (sersic_law A re n (bnR n)).
  Notation F := (enclR A re n e).
  Notation area := (ellipse_area e).
  Definition profR (r : R) : R := petroR (2 * n) (argR re n r).
  Notation p := profR.

  Lemma law_pos r : 0 < law r.
  Proof. unfold sersic_law. apply Rmult_lt_0_compat; auto. apply exp_pos. Qed.
  Lemma law_dec r r' : 0 <= r < r' -> law r' < law r.
  Proof.
    intros H. unfold sersic_law. apply Rmult_lt_compat_l; auto. apply exp_increasing.
    pose proof (arg_inc re n r r' Hre Hn H) as I. unfold argR in I. lra.
  Qed.
  Lemma area_pos r : 0 < r -> 0 < area r.
  Proof.
    intros. unfold ellipse_area. pose proof PI_RGT_0. apply Rmult_lt_0_compat; [|lra].
    apply Rmult_lt_0_compat; auto. nra.
  Qed.
  Lemma area_inc r r' : 0 <= r < r' -> area r < area r'.
  Proof.
    intros. unfold ellipse_area. pose proof PI_RGT_0. apply Rmult_lt_compat_r; [lra|].
    apply Rmult_lt_compat_l; auto. nra.
  Qed.
  Lemma area_derive r : derivable_pt_lim area r (2 * PI * r * (1 - e)).
  Proof.
    apply (dpl_ext (fun y => (PI * (1 - e)) * (y * y)) _ _ _ 1); [lra|intros; unfold ellipse_area; ring|].
    replace (2 * PI * r * (1 - e)) with ((PI * (1 - e)) * (1 * r + r * 1)) by ring.
    apply (derivable_pt_lim_scal (fun y => y * y) (PI * (1 - e)) r).
    apply (derivable_pt_lim_mult id id r 1 1); apply derivable_pt_lim_id.
  Qed.

  (** mean intensity of an annulus lies between the intensities at its edges *)
  Lemma annulus a b : 0 < a < b ->
    law b * (area b - area a) < F b - F a < law a * (area b - area a).
  Proof.
    intros H.
    assert (D : forall c r, 0 < r -> derivable_pt_lim (fun x => F x - c * area x) r
              (2 * PI * r * (1 - e) * law r - c * (2 * PI * r * (1 - e)))).
    { intros c r Hr. apply (derivable_pt_lim_minus F (fun x => c * area x)).
      - now apply encl_derive.
      - apply (derivable_pt_lim_scal area c r). apply area_derive. }
    assert (M : forall c, exists z, a < z < b /\
       F b - F a - c * (area b - area a) = (2 * PI * z * (1 - e)) * (law z - c) * (b - a)).
    { intros c.
      destruct (MVT_cor2 (fun x => F x - c * area x)
         (fun r => 2 * PI * r * (1 - e) * law r - c * (2 * PI * r * (1 - e))) a b) as (z & E & Hz);
        [lra|intros; apply D; lra|].
      exists z. split; auto.
      replace (F b - F a - c * (area b - area a)) with (F b - c * area b - (F a - c * area a)) by ring.
      rewrite E. ring. }
    assert (P : forall z, 0 < z -> 0 < 2 * PI * z * (1 - e)).
    { intros z Hz. pose proof PI_RGT_0. apply Rmult_lt_0_compat; [|lra]. apply Rmult_lt_0_compat; lra. }
    split.
    - destruct (M (law b)) as (z & Hz & E). pose proof (law_dec z b ltac:(lra)).
      assert (0 < 2 * PI * z * (1 - e) * (law z - law b) * (b - a)).
      { apply Rmult_lt_0_compat; [|lra]. apply Rmult_lt_0_compat; [apply P; lra|lra]. }
      lra.
    - destruct (M (law a)) as (z & Hz & E). pose proof (law_dec a z ltac:(lra)).
      assert (0 < 2 * PI * z * (1 - e) * (law a - law z) * (b - a)).
      { apply Rmult_lt_0_compat; [|lra]. apply Rmult_lt_0_compat; [apply P; lra|lra]. }
      lra.
  Qed.

  Lemma F_pos r : 0 < r -> 0 < F r.
  Proof. intros. rewrite <- (encl_zero A re n e). apply encl_inc; auto; lra. Qed.
  Lemma prof_ratio r : 0 < r -> p r = law r / (F r / area r).
  Proof.
    intros Hr. destruct (profile_spec re n r Hre Hn Hr) as (v & E & _ & H & _).
    rewrite petro_fin in E by auto. injection E as <-.
    apply (H A e (bnR n)); auto using bnR_half. apply enclosed_fin; lra.
  Qed.
  Lemma prof_range r : 0 < r -> 0 < p r < 1.
  Proof. intros. apply petroR_range; [lra|]. now apply arg_pos. Qed.
  Lemma prof_dec r r' : 0 < r < r' -> p r' < p r.
  Proof. intros. apply petroR_dec; [lra|]. split; [apply arg_pos; lra|apply arg_inc; lra]. Qed.
  Lemma prof_dec_le r r' : 0 < r <= r' -> p r' <= p r.
  Proof. intros [H [L| ->]]; [left; now apply prof_dec|right; auto]. Qed.

  (** what the code computes for the annulus from a to b *)
  Definition measured (a b : R) : R := ((F b - F a) / (area b - area a)) / (F b / area b).

  Lemma measured_bracket a b : 0 < a < b ->
    p b < measured a b < 1 /\ measured a b < p b * (law a / law b).
  Proof.
    intros H. destruct (annulus a b H) as [H1 H2].
    pose proof (area_inc a b ltac:(lra)) as DA. pose proof (area_pos b ltac:(lra)) as PA.
    pose proof (area_pos a ltac:(lra)) as PAa.
    pose proof (F_pos b ltac:(lra)) as PF. pose proof (F_pos a ltac:(lra)) as PFa.
    pose proof (law_pos a). pose proof (law_pos b).
    assert (M : 0 < F b / area b) by now apply Rdiv_lt_0_compat.
    assert (IM : 0 < / (F b / area b)) by now apply Rinv_0_lt_compat.
    assert (Q1 : law b < (F b - F a) / (area b - area a)).
    { apply Rmult_lt_reg_r with (area b - area a); [lra|]. unfold Rdiv. rewrite Rmult_assoc, Rinv_l by lra. lra. }
    assert (Q2 : (F b - F a) / (area b - area a) < law a).
    { apply Rmult_lt_reg_r with (area b - area a); [lra|]. unfold Rdiv. rewrite Rmult_assoc, Rinv_l by lra. lra. }
    split; [split|].
    - rewrite prof_ratio by lra. unfold measured. unfold Rdiv at 1 4. apply Rmult_lt_compat_r; auto.
    - assert (X : law a * area a < F a).
      { pose proof (prof_range a ltac:(lra)) as [_ R]. rewrite prof_ratio in R by lra.
        assert (0 < F a / area a) by now apply Rdiv_lt_0_compat.
        apply Rmult_lt_compat_r with (r := F a / area a) in R; auto.
        unfold Rdiv at 1 in R. rewrite Rmult_assoc, Rinv_l in R by lra.
        apply Rmult_lt_compat_r with (r := area a) in R; auto.
        replace (1 * (F a / area a) * area a) with (F a) in R by (field; lra). lra. }
      assert (Y : (F b - F a) * area b < F b * (area b - area a)).
      { assert ((F b - F a) * area a < F a * (area b - area a)).
        { apply Rlt_trans with (law a * (area b - area a) * area a); [apply Rmult_lt_compat_r; auto|].
          replace (law a * (area b - area a) * area a) with (law a * area a * (area b - area a)) by ring.
          apply Rmult_lt_compat_r; lra. }
        nra. }
      unfold measured. apply Rmult_lt_reg_r with (F b / area b); auto. unfold Rdiv at 1.
      rewrite Rmult_assoc, Rinv_l by lra.
      apply Rmult_lt_reg_r with ((area b - area a) * area b); [apply Rmult_lt_0_compat; lra|].
      replace ((F b - F a) / (area b - area a) * 1 * ((area b - area a) * area b)) with ((F b - F a) * area b) by (field; lra).
      replace (1 * (F b / area b) * ((area b - area a) * area b)) with (F b * (area b - area a)) by (field; lra). lra.
    - rewrite prof_ratio by lra. unfold measured.
      replace (law b / (F b / area b) * (law a / law b)) with (law a / (F b / area b)) by (field; lra).
      unfold Rdiv at 1 4. apply Rmult_lt_compat_r; auto.
  Qed.
End Sersic.

(** ** The list *)
Lemma increasing_map (f : R -> R) rs : (forall r r', 0 < r < r' -> f r < f r') -> 0 < at_ rs 0 -> increasing rs ->
  increasing (map f rs).
Proof.
  intros H P I i Hi. rewrite map_length in Hi. rewrite !at_map by lia. apply H. split; [|now apply I].
  destruct i; auto. pose proof (inc_lt rs 0 (S i) I ltac:(lia) ltac:(lia)). lra.
Qed.
Lemma at_pos rs i : 0 < at_ rs 0 -> increasing rs -> (i < length rs)%nat -> 0 < at_ rs i.
Proof.
  intros P I Hi. destruct i; auto. pose proof (inc_lt rs 0 (S i) I ltac:(lia) ltac:(lia)). lra.
Qed.
Lemma fluxes_map A re n e rs L : 0 < re -> 0 < n -> 0 < at_ rs 0 -> increasing rs ->
  sersic_fluxes A re n e rs L -> L = map (enclR A re n e) rs.
Proof.
  intros Hre Hn P I S.
  assert (G : forall r, In r rs -> 0 <= r).
  { intros r Hr. destruct (In_nth rs r 0 Hr) as (i & Hi & <-). left. now apply at_pos. }
  clear P I. induction S as [|r l rs L E S IH]; auto. cbn. f_equal.
  - rewrite enclosed_fin in E; auto; [congruence|]. apply G. now left.
  - apply IH. intros r' H. apply G. now right.
Qed.

Lemma sersic_list A re n e rs L : 0 < A -> 0 < re -> 0 < n -> e < 1 ->
  (2 < length rs)%nat -> increasing rs -> 0 < at_ rs 0 -> sersic_fluxes A re n e rs L ->
  exists V, calculate_petrosian DFloat (map Fin (map (ellipse_area e) rs)) (map Fin L) None None
      = Ok (NaN :: map Fin V, None) /\ length V = (length rs - 1)%nat /\
    forall i, (S i < length rs)%nat -> at_ V i = measured A re n e (at_ rs i) (at_ rs (S i)).
Proof.
  intros HA Hre Hn He Len I P SF.
  pose proof (fluxes_map A re n e rs L Hre Hn P I SF) as ->.
  set (AL := map (ellipse_area e) rs). set (L := map (enclR A re n e) rs).
  assert (IA : increasing AL) by (apply increasing_map; auto; intros; apply area_inc; auto; lra).
  assert (NA : nonzero_tail AL).
  { intros i Hi. unfold AL in *. rewrite map_length in Hi. rewrite at_map by lia. apply Rgt_not_eq, area_pos; auto.
    apply at_pos; auto; lia. }
  assert (NL : nonzero_tail L).
  { intros i Hi. unfold L in *. rewrite map_length in Hi. rewrite at_map by lia. apply Rgt_not_eq, F_pos; auto.
    apply at_pos; auto; lia. }
  destruct (petrosian_formula AL L) as (Pl & E & LP & P0 & PI_); auto;
    [unfold AL, L; now rewrite !map_length|unfold AL; now rewrite map_length|].
  assert (LA : length AL = length rs) by apply map_length. rewrite LA in *.
  exists (map (fun i => petro_ratio AL L (S i)) (seq 0 (length rs - 1))).
  assert (V : forall i, (S i < length rs)%nat ->
    at_ (map (fun i => petro_ratio AL L (S i)) (seq 0 (length rs - 1))) i = petro_ratio AL L (S i)).
  { intros i Hi. unfold at_ at 1. rewrite nth_indep with (d' := petro_ratio AL L (S 0)) by (rewrite map_length, seq_length; lia).
    rewrite (map_nth (fun i => petro_ratio AL L (S i))), seq_nth by lia. reflexivity. }
  split; [|split].
  - rewrite E. do 2 f_equal. apply nth_error_ext. intros i. destruct i as [|i]; [exact P0|].
    destruct (Nat.lt_ge_cases (S i) (length rs)) as [Hi|Hi].
    + rewrite PI_ by lia. cbn [nth_error]. rewrite nth_fin by (rewrite map_length, seq_length; lia). now rewrite V by auto.
    + rewrite (proj2 (nth_error_None Pl (S i))) by lia. symmetry. apply nth_error_None.
      cbn [length]. rewrite !map_length, seq_length. lia.
  - now rewrite map_length, seq_length.
  - intros i Hi. rewrite V by auto. unfold petro_ratio, local_sb, mean_sb, measured, AL, L.
    replace (S i - 1)%nat with i by lia. now rewrite !at_map by lia.
Qed.

(** C96 *)
Theorem bracket_spec A re n e b rs L : 0 < A -> 0 < re -> 0 < n -> e < 1 -> half_light n b ->
  (2 < length rs)%nat -> increasing rs -> 0 < at_ rs 0 -> sersic_fluxes A re n e rs L ->
  exists P, calculate_petrosian DFloat (map Fin (map (ellipse_area e) rs)) (map Fin L) None None = Ok (P, None) /\
    forall i, (1 <= i < length rs)%nat -> exists v t,
      nth_error P i = Some (Fin v) /\ petrosian_profile (Fin (at_ rs i)) (Fin re) (Fin n) = Fin t /\
      t < v < 1 /\
      v < t * exp (b * (rpow (at_ rs i / re) (1 / n) - rpow (at_ rs (i - 1) / re) (1 / n))).
Proof.
  intros HA Hre Hn He Hb Len I P SF. rewrite (half_light_unique n b Hn Hb).
  destruct (sersic_list A re n e rs L HA Hre Hn He Len I P SF) as (V & E & LV & HV).
  exists (NaN :: map Fin V). split; auto. intros i Hi. destruct i as [|i]; [lia|].
  exists (at_ V i), (profR re n (at_ rs (S i))).
  pose proof (at_pos rs i P I ltac:(lia)) as Pi. pose proof (I i ltac:(lia)) as Ii.
  destruct (measured_bracket A re n e HA Hre Hn He (at_ rs i) (at_ rs (S i)) ltac:(lra)) as [B1 B2].
  split; [cbn [nth_error]; rewrite nth_fin by lia; auto|].
  split; [apply petro_fin; auto; lra|]. rewrite HV by lia. split; auto.
  replace (S i - 1)%nat with i by lia.
  replace (exp (bnR n * (rpow (at_ rs (S i) / re) (1 / n) - rpow (at_ rs i / re) (1 / n))))
    with (sersic_law A re n (bnR n) (at_ rs i) / sersic_law A re n (bnR n) (at_ rs (S i))); auto.
  unfold sersic_law.
  set (x := rpow (at_ rs i / re) (1 / n)). set (y := rpow (at_ rs (S i) / re) (1 / n)).
  replace (bnR n * (y - x)) with (- bnR n * (x - 1) + - (- bnR n * (y - 1))) by ring.
  rewrite exp_plus, exp_Ropp. pose proof (exp_pos (- bnR n * (y - 1))). field. split; lra.
Qed.
