(** Proofs about the closed-form functions of utils.py. *)
From Verif Require Import Base Num Numpy M_Utils L_Numpy S_Utils.
Local Open Scope R_scope.

(** ** make_radius_list (C03) *)

Lemma make_radius_list_reals (m : R) (n : Z) :
  make_radius_list (Fin m) n
  = map Fin (map (fun k => INR (S k) * m / IZR n) (seq 0 (Z.to_nat n))).
Proof.
  unfold make_radius_list, tabulate. rewrite map_map. apply map_ext_in.
  intros k Hk. apply in_seq in Hk.
  assert (Hn : IZR n <> 0) by (apply not_0_IZR; lia).
  cbn [nofZ nmul ndiv XRnum xmul]. rewrite xdiv_fin by auto.
  do 3 f_equal. rewrite S_INR, INR_IZR_INZ, plus_IZR. reflexivity.
Qed.

Lemma make_radius_list_spec (m : R) (n : Z) :
  0 < m -> (0 < n)%Z ->
  exists l : list R,
    make_radius_list (Fin m) n = map Fin l /\
    length l = Z.to_nat n /\
    (forall k x, nth_error l k = Some x -> 0 < x) /\
    (forall k x y, nth_error l k = Some x -> nth_error l (S k) = Some y ->
       x < y /\ y - x = m / IZR n) /\
    nth_error l 0 = Some (m / IZR n) /\
    nth_error l (Z.to_nat n - 1) = Some m.
Proof.
  intros Hm Hn. exists (map (fun k => INR (S k) * m / IZR n) (seq 0 (Z.to_nat n))).
  assert (Hn0 : 0 < IZR n) by (apply IZR_lt; lia).
  assert (Hd : 0 < m / IZR n) by (apply Rdiv_lt_0_compat; auto).
  assert (Hnth : forall k, nth_error (map (fun k => INR (S k) * m / IZR n) (seq 0 (Z.to_nat n))) k
            = if Nat.ltb k (Z.to_nat n) then Some (INR (S k) * m / IZR n) else None).
  { intros k. rewrite nth_error_map, nth_error_seq. now destruct (k <? Z.to_nat n)%nat. }
  split; [apply make_radius_list_reals|].
  split; [now rewrite map_length, seq_length|].
  split; [|split; [|split]].
  - intros k x. rewrite Hnth. destruct (k <? Z.to_nat n)%nat; [|discriminate].
    intros E; injs. unfold Rdiv. rewrite Rmult_assoc.
    apply Rmult_lt_0_compat; auto. apply lt_0_INR; lia.
  - intros k x y. rewrite !Hnth. destruct (k <? Z.to_nat n)%nat; [|discriminate].
    destruct (S k <? Z.to_nat n)%nat; [|discriminate].
    intros E1 E2; injs.
    assert (E : INR (S (S k)) * m / IZR n - INR (S k) * m / IZR n = m / IZR n).
    { rewrite (S_INR (S k)). field. lra. }
    split; auto. lra.
  - rewrite Hnth. destruct (Nat.ltb_spec 0 (Z.to_nat n)); [|lia]. f_equal. simpl. field. lra.
  - rewrite Hnth. destruct (Nat.ltb_spec (Z.to_nat n - 1) (Z.to_nat n)); [|lia].
    f_equal. replace (S (Z.to_nat n - 1)) with (Z.to_nat n) by lia.
    rewrite INR_IZR_INZ, Z2Nat.id by lia. field. lra.
Qed.

Lemma make_radius_list_nonpos (m : R) (n : Z) :
  (n <= 0)%Z -> make_radius_list (Fin m) n = [].
Proof. intros H. unfold make_radius_list. now replace (Z.to_nat n) with 0%nat by lia. Qed.

Lemma make_radius_list_log_spec (m : R) (n : Z) :
  0 < m -> (2 <= n)%Z ->
  exists (l : list R) (q : R),
    make_radius_list_log (Fin m) n = Ok (map Fin l) /\
    length l = Z.to_nat n /\
    nth_error l 0 = Some 1 /\
    nth_error l (Z.to_nat n - 1) = Some m /\
    0 < q /\
    (forall k x y, nth_error l k = Some x -> nth_error l (S k) = Some y -> y = q * x).
Proof.
  intros Hm Hn. set (N := Z.to_nat n). assert (HN : (2 <= N)%nat) by (unfold N; lia).
  assert (Hln10 : ln 10 <> 0).
  { apply Rgt_not_eq. rewrite <- ln_1. apply ln_increasing; lra. }
  set (L := Rlog10 m).
  set (f := fun k => exp (INR k * (L / INR (N - 1)) * ln 10)).
  exists (map f (seq 0 N)), (exp (L / INR (N - 1) * ln 10)).
  assert (HN1 : INR (N - 1) <> 0) by (apply not_0_INR; lia).
  assert (Hnth : forall k, (k < N)%nat -> nth_error (map f (seq 0 N)) k = Some (f k)).
  { intros k Hk. rewrite nth_error_map, nth_error_seq.
    apply Nat.ltb_lt in Hk; rewrite Hk. reflexivity. }
  split.
  - unfold make_radius_list_log. destruct (Z.ltb_spec n 0); [lia|]. f_equal. fold N.
    cbn [xlog10]. rewrite Rltb_true by auto. fold L.
    apply nth_error_ext. intros k. rewrite map_map.
    destruct (lt_dec k N) as [Hk|Hk].
    + rewrite nth_error_map, nth_linspace_fin by auto.
      rewrite nth_error_map, nth_error_seq.
      apply Nat.ltb_lt in Hk; rewrite Hk. cbn [option_map xpow10 Nat.add].
      unfold f. do 4 f_equal. field; auto.
    + rewrite (proj2 (nth_error_None _ _)), (proj2 (nth_error_None _ _)); auto;
        rewrite map_length, ?length_linspace, ?seq_length; lia.
  - split; [now rewrite map_length, seq_length|].
    split; [|split; [|split]].
    + rewrite Hnth by lia. f_equal. unfold f. simpl. rewrite !Rmult_0_l. apply exp_0.
    + rewrite Hnth by lia. f_equal. unfold f.
      replace (INR (N - 1) * (L / INR (N - 1)) * ln 10) with (L * ln 10) by (field; auto).
      unfold L, Rlog10. replace (ln m / ln 10 * ln 10) with (ln m) by (field; auto).
      now apply exp_ln.
    + apply exp_pos.
    + intros k x y Hx Hy.
      assert (Hk : (S k < N)%nat).
      {
        assert (nth_error (map f (seq 0 N)) (S k) <> None) by congruence.
        apply nth_error_Some in H. now rewrite map_length, seq_length in H. }
      rewrite Hnth in Hx by lia. rewrite Hnth in Hy by lia.
      injs. unfold f. rewrite <- exp_plus. f_equal.
      rewrite S_INR. ring.
Qed.

Lemma make_radius_list_log_one (m : R) :
  0 < m -> make_radius_list_log (Fin m) 1 = Ok [Fin 1].
Proof.
  intros Hm. unfold make_radius_list_log. simpl Z.to_nat. simpl Z.ltb. cbv iota.
  cbn [xlog10]. rewrite Rltb_true by auto.
  change (Pos.to_nat 1) with 1%nat. rewrite linspace_one_fin. cbn [map xpow10].
  rewrite Rmult_0_l, exp_0. reflexivity.
Qed.

(** ** ellipticity and elongation (C04) *)

Lemma ellip_elong_round (k : flavour) (e : R) :
  e <> 1 ->
  exists g, ellip_to_elong k (Fin e) = Ok (Fin g) /\ elong_to_ellip k (Fin g) = Ok (Fin e).
Proof.
  intros He. exists (1 / (1 - e)).
  assert (H1 : 1 - e <> 0) by lra.
  assert (H2 : 1 / (1 - e) <> 0).
  { unfold Rdiv. rewrite Rmult_1_l. now apply Rinv_neq_0_compat. }
  assert (A : xdiv n1 (xsub n1 (Fin e)) = Fin (1 / (1 - e))).
  { cbn. rewrite Reqb_false by lra. f_equal. }
  assert (B : xdiv (xsub (Fin (1 / (1 - e))) n1) (Fin (1 / (1 - e))) = Fin e).
  { unfold n1. cbn [nofZ XRnum xsub xopp xadd]. rewrite xdiv_fin by auto. f_equal. field. auto. }
  assert (H1' : neqb (xsub n1 (Fin e)) (@n0 xr _) = false).
  { cbn. apply Reqb_false. lra. }
  assert (H2' : neqb (Fin (1 / (1 - e))) (@n0 xr _) = false).
  { cbn. apply Reqb_false. auto. }
  unfold ellip_to_elong, elong_to_ellip, fdiv.
  cbn [nsub ndiv XRnum] in *. rewrite A, B, H1', H2'. destruct k; auto.
Qed.

Lemma elong_ellip_round (k : flavour) (g : R) :
  g <> 0 ->
  exists e, elong_to_ellip k (Fin g) = Ok (Fin e) /\ ellip_to_elong k (Fin e) = Ok (Fin g).
Proof.
  intros Hg. exists ((g - 1) / g).
  assert (H1 : 1 - (g - 1) / g <> 0).
  { replace (1 - (g - 1) / g) with (/ g) by (field; auto). now apply Rinv_neq_0_compat. }
  assert (A : xdiv n1 (xsub n1 (Fin ((g - 1) / g))) = Fin g).
  { unfold n1. cbn [nofZ XRnum xsub xopp xadd]. rewrite xdiv_fin by auto.
    f_equal. field. split; auto. lra. }
  assert (B : xdiv (xsub (Fin g) n1) (Fin g) = Fin ((g - 1) / g)).
  { unfold n1. cbn [nofZ XRnum xsub xopp xadd]. rewrite xdiv_fin by auto. f_equal. }
  assert (H1' : neqb (xsub n1 (Fin ((g - 1) / g))) (@n0 xr _) = false).
  { cbn. apply Reqb_false. auto. }
  assert (H2' : neqb (Fin g) (@n0 xr _) = false).
  { cbn. apply Reqb_false. auto. }
  unfold ellip_to_elong, elong_to_ellip, fdiv.
  cbn [nsub ndiv XRnum] in *. rewrite A, B, H1', H2'. destruct k; auto.
Qed.

Lemma ellip_to_elong_value (k : flavour) (e : R) :
  e <> 1 -> ellip_to_elong k (Fin e) = Ok (Fin (1 / (1 - e))).
Proof.
  intros He. unfold ellip_to_elong, fdiv.
  assert (A : ndiv n1 (nsub n1 (Fin e)) = Fin (1 / (1 - e))).
  { cbn. rewrite Reqb_false by lra. reflexivity. }
  assert (H1' : neqb (nsub n1 (Fin e)) (@n0 xr _) = false).
  { cbn. apply Reqb_false. lra. }
  rewrite A, H1'. now destruct k.
Qed.

Lemma ellip_to_elong_range (k : flavour) (e e' : R) :
  0 <= e -> e < e' -> e' < 1 ->
  exists g g', ellip_to_elong k (Fin e) = Ok (Fin g) /\
               ellip_to_elong k (Fin e') = Ok (Fin g') /\ 1 <= g < g'.
Proof.
  intros H0 H1 H2. exists (1 / (1 - e)), (1 / (1 - e')).
  rewrite !ellip_to_elong_value by lra. split; auto. split; auto.
  unfold Rdiv. rewrite !Rmult_1_l. split.
  - rewrite <- Rinv_1 at 1. apply Rinv_le_contravar; lra.
  - apply Rinv_lt_contravar; [|lra]. apply Rmult_lt_0_compat; lra.
Qed.

Lemma ellip_zero_division :
  ellip_to_elong PyFloat (Fin 1) = Err ZeroDivisionError /\
  elong_to_ellip PyFloat (Fin 0) = Err ZeroDivisionError /\
  ellip_to_elong NpFloat (Fin 1) = Ok PInf /\
  elong_to_ellip NpFloat (Fin 0) = Ok NInf.
Proof.
  unfold ellip_to_elong, elong_to_ellip, fdiv; cbn. unfold xsgn_inf. rdec. auto.
Qed.

(** ** areas to radii (C05) *)

Lemma elliptical_area_spec (A g : R) :
  0 <= A -> 0 < g ->
  exists a b, elliptical_area_to_r (Fin A) (Fin g) = (Fin a, Fin b) /\
    0 <= a /\ PI * a * b = A /\ a = g * b.
Proof.
  intros HA Hg. pose proof PI_RGT_0 as HPI.
  assert (Hq : 0 <= g * A / PI).
  { apply Rmult_le_pos; [apply Rmult_le_pos; lra|]. left. now apply Rinv_0_lt_compat. }
  exists (sqrt (g * A / PI)), (sqrt (g * A / PI) / g).
  split.
  - unfold elliptical_area_to_r, xpi. cbn [xmul]. rewrite xdiv_fin by lra.
    rewrite xsqrt_fin by auto. rewrite xdiv_fin by lra. reflexivity.
  - split; [apply sqrt_pos|]. split; [|field; lra].
    replace (PI * sqrt (g * A / PI) * (sqrt (g * A / PI) / g))
      with (PI / g * (sqrt (g * A / PI) * sqrt (g * A / PI))) by (field; lra).
    rewrite sqrt_sqrt by auto. field. lra.
Qed.

Lemma circle_area_spec (A : R) :
  0 <= A ->
  exists r, circle_area_to_r (Fin A) = Fin r /\ 0 <= r /\ PI * r ^ 2 = A /\
    elliptical_area_to_r (Fin A) (Fin 1) = (Fin r, Fin r).
Proof.
  intros HA. pose proof PI_RGT_0 as HPI.
  assert (Hq : 0 <= A / PI).
  { apply Rmult_le_pos; [lra|]. left. now apply Rinv_0_lt_compat. }
  exists (sqrt (A / PI)). split; [|split; [|split]].
  - unfold circle_area_to_r, xpi. rewrite xdiv_fin by lra. now rewrite xsqrt_fin.
  - apply sqrt_pos.
  - replace (sqrt (A / PI) ^ 2) with (sqrt (A / PI) * sqrt (A / PI)) by ring.
    rewrite sqrt_sqrt by auto. field. lra.
  - unfold elliptical_area_to_r, xpi. cbn [xmul]. rewrite Rmult_1_l, xdiv_fin by lra.
    rewrite xsqrt_fin by auto. rewrite xdiv_fin by lra. f_equal. f_equal. field.
Qed.

(** ** hst_flux_to_abmag (C07) *)

Lemma ln10_pos : 0 < ln 10.
Proof. rewrite <- ln_1. apply ln_increasing; lra. Qed.

Lemma hst_zpt_fin h a b z :
  PHOTFLAM h = Fin a -> PHOTPLAM h = Fin b -> PHOTZPT h = Fin z -> 0 < a -> 0 < b ->
  hst_zpt h = Fin (-5 / 2 * Rlog10 a + z - 5 * Rlog10 b + 18692 / 1000).
Proof.
  intros Ha Hb Hz Pa Pb. unfold hst_zpt, nlit. rewrite Ha, Hb, Hz.
  cbn [xlog10]. rewrite !Rltb_true by auto. cbn [nofZ ndiv XRnum].
  rewrite !xdiv_fin by (apply not_0_IZR; lia). cbn. reflexivity.
Qed.

Lemma mag_of_pos h c x :
  hst_zpt h = Fin c -> 0 < x -> mag_of h (Fin x) = Fin (-5 / 2 * Rlog10 x + c).
Proof.
  intros Hc Hx. unfold mag_of, nlit. rewrite Hc. cbn [xlog10 nofZ ndiv XRnum].
  rewrite Rltb_true by auto. rewrite xdiv_fin by (apply not_0_IZR; lia).
  reflexivity.
Qed.

Lemma mag_of_nan h : mag_of h NaN = NaN.
Proof.
  unfold mag_of. cbn [xlog10].
  destruct (nlit (-5) 2); reflexivity.
Qed.

Lemma hst_scalar h flam plam zpt x : good_header h flam plam zpt ->
  hst_flux_to_abmag (FluxScalar (Fin x)) h = Ok (MagScalar (if Rle_dec x 0 then NaN else Fin (ab_mag flam plam zpt x))).
Proof.
  intros (Ha & Hb & Hz & Pa & Pb). unfold hst_flux_to_abmag. cbn [xleb]. unfold Rleb.
  destruct (Rle_dec x 0); auto. rewrite (mag_of_pos h _ x (hst_zpt_fin h flam plam zpt Ha Hb Hz Pa Pb)) by lra.
  do 3 f_equal. unfold ab_mag, log10, Rlog10. field. apply Rgt_not_eq. exact ln10_pos.
Qed.
Lemma ab_mag_spec flam plam zpt :
  (forall x y, 0 < x -> x < y -> ab_mag flam plam zpt y < ab_mag flam plam zpt x) /\
  (forall x, 0 < x -> ab_mag flam plam zpt (100 * x) = ab_mag flam plam zpt x - 5).
Proof.
  pose proof ln10_pos as H10. unfold ab_mag. split.
  - intros x y Hx Hxy. assert (log10 x < log10 y); [|lra].
    unfold log10, Rdiv. apply Rmult_lt_compat_r.
    + now apply Rinv_0_lt_compat.
    + now apply ln_increasing.
  - intros x Hx. assert (E : log10 (100 * x) = 2 + log10 x); [|rewrite E; lra].
    unfold log10. rewrite ln_mult by lra.
    replace (ln 100) with (2 * ln 10).
    + field. lra.
    + replace 100 with (10 * 10) by lra. rewrite ln_mult by lra. ring.
Qed.

Lemma hst_array h (l : list R) :
  exists ms, hst_flux_to_abmag (FluxFloatArray (map Fin l)) h = Ok (MagArray ms) /\
    length ms = length l /\
    forall k x, nth_error l k = Some x ->
      exists m, nth_error ms k = Some m /\
        hst_flux_to_abmag (FluxScalar (Fin x)) h = Ok (MagScalar m).
Proof.
  unfold hst_flux_to_abmag. eexists. split; [reflexivity|].
  split; [now rewrite !map_length|].
  intros k x Hx. rewrite !nth_error_map, Hx. cbn [option_map].
  eexists. split; [reflexivity|].
  destruct (xleb (Fin x) (Fin 0)); auto. now rewrite mag_of_nan.
Qed.

Lemma hst_int_array h (l : list Z) :
  hst_flux_to_abmag (FluxIntArray l) h = Err ValueError.
Proof. reflexivity. Qed.

(** ** pixel / angular (C10) *)

Lemma xallclose_fin (a b : R) :
  xallclose (Fin a) (Fin b) = true <-> Rabs (a - b) <= 1 / 100000000 + 1 / 100000 * Rabs b.
Proof.
  unfold xallclose, nlit. cbn [xfin nofZ ndiv XRnum xeqb].
  rewrite !xdiv_fin by (apply not_0_IZR; lia). cbn [xmul xabs xsub xopp xadd xleb andb].
  destruct (Reqb_spec a b) as [->|Hne]; cbn [orb].
  - split; auto. intros _. rewrite Rminus_diag_eq, Rabs_R0 by auto.
    pose proof (Rabs_pos b). lra.
  - apply Rleb_iff.
Qed.

Lemma good_wcs_close w s u : good_wcs w s u ->
  scale0 w = Fin s /\ xallclose (scale0 w) (scale1 w) = true /\ cunit w = Fin u /\ 0 < s /\ 0 < u.
Proof. intros (s' & H1 & H2 & H3 & H). split; auto. rewrite H1, H2. split; auto. now apply xallclose_fin. Qed.

Lemma pixel_angular_round w s u (p : R) :
  good_wcs w s u ->
  exists q, pixel_to_angular (Fin p) w = Ok q /\ angular_to_pixel q w = Ok (Fin p).
Proof.
  intros W. apply good_wcs_close in W as (Hs & Hc & Hu & Ps & Pu). unfold pixel_to_angular, angular_to_pixel.
  rewrite Hc, Hs, Hu. unfold assert_, q_to, arcsec. cbn [qval qunit].
  eexists. split; [reflexivity|]. cbn [qval qunit].
  rewrite !(xdiv_fin 1 3600) by lra. rewrite !xdiv_fin by lra. cbn [xmul].
  rewrite xdiv_fin.
  - do 2 f_equal. field. lra.
  - apply Rmult_integral_contrapositive_currified; [lra|].
    apply Rgt_not_eq. apply Rdiv_lt_0_compat; lra.
Qed.

Lemma angular_pixel_round w s u (d du : R) :
  good_wcs w s u -> 0 < du ->
  exists p q v, angular_to_pixel {| qval := Fin d; qunit := Fin du |} w = Ok p /\
    pixel_to_angular p w = Ok q /\ qunit q = arcsec /\
    q_to q (Fin du) = Fin v /\ v = d.
Proof.
  intros W Pd. apply good_wcs_close in W as (Hs & Hc & Hu & Ps & Pu). unfold pixel_to_angular, angular_to_pixel.
  rewrite Hc, Hs, Hu. unfold assert_, q_to, arcsec. cbn [qval qunit].
  do 3 eexists. split; [reflexivity|]. split; [reflexivity|]. split; [reflexivity|].
  cbn [qval qunit]. rewrite !(xdiv_fin 1 3600) by lra. rewrite !xdiv_fin by lra. cbn [xmul].
  rewrite xdiv_fin.
  - cbn [xmul]. split; [reflexivity|]. field. lra.
  - apply Rmult_integral_contrapositive_currified; [lra|].
    apply Rgt_not_eq. apply Rdiv_lt_0_compat; lra.
Qed.

Lemma pixel_angular_linear w s u p :
  good_wcs w s u ->
  pixel_to_angular (Fin p) w = Ok {| qval := Fin (p * (3600 * (s * u))); qunit := Fin (1 / 3600) |}.
Proof.
  intros W. apply good_wcs_close in W as (Hs & Hc & Hu & Ps & Pu).
  unfold pixel_to_angular. rewrite Hc, Hs, Hu. unfold assert_, q_to, arcsec.
  cbn [qval qunit]. rewrite !(xdiv_fin 1 3600) by lra. rewrite !xdiv_fin by lra. cbn [xmul].
  do 3 f_equal. field.
Qed.

Lemma pixel_angular_assert w (p : xr) (q : quantity) :
  xallclose (scale0 w) (scale1 w) = false ->
  pixel_to_angular p w = Err AssertionError /\ angular_to_pixel q w = Err AssertionError.
Proof. intros H. unfold pixel_to_angular, angular_to_pixel. now rewrite H. Qed.

