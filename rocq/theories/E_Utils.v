(** Concrete cases and combined statements for P_Utils. *)
From Verif Require Import Base Num Numpy M_Utils L_Numpy S_Utils S_NatSort L_Utils L_Utils2 L_Utils3 L_NatSort.
From Coq Require Import Ascii String NArith.

Definition str (s : string) : list ascii := list_ascii_of_string s.

Lemma C01_ex :
  Forall xok [Fin 9; Fin 6; Fin 7; Fin 4; Fin 1] /\
  closest_value_index (Fin 5) [Fin 9; Fin 6; Fin 7; Fin 4; Fin 1] false = Some 1.
Proof.
  split.
  - repeat constructor; discriminate.
  - unfold closest_value_index, argmin. cbn. rdec. cbn.
    unfold Rabs. repeat (destruct (Rcase_abs _); try (exfalso; lra)).
    rdec. reflexivity.
Qed.

Lemma C02_all (v1 v2 : R) (a : list xr) (i1 i2 : nat) :
  Forall xok a -> (v1 <= v2)%R ->
  (closest_value_index (Fin v1) a true = Some i1 ->
   closest_value_index (Fin v2) a true = Some i2 -> i1 <= i2) /\
  (closest_value_index (Fin v1) a false = Some i1 ->
   closest_value_index (Fin v2) a false = Some i2 -> i2 <= i1) /\
  (closest_value_index (Fin v2) a true <> None ->
   closest_value_index (Fin v1) a true <> None) /\
  (closest_value_index (Fin v1) a false <> None ->
   closest_value_index (Fin v2) a false <> None).
Proof.
  intros Ha Hv. split; [|split; [|split]].
  - intros H1 H2. now apply (closest_mono true v1 v2 a).
  - intros H1 H2. now apply (closest_mono false v2 v1 a).
  - now apply (closest_reachable true v1 v2 a).
  - now apply (closest_reachable false v2 v1 a).
Qed.

Lemma C02_ex :
  Forall xok [Fin 1; Fin 3; Fin 2; Fin 5] /\
  closest_value_index (Fin 2) [Fin 1; Fin 3; Fin 2; Fin 5] true = Some 0 /\
  closest_value_index (Fin 4) [Fin 1; Fin 3; Fin 2; Fin 5] true = Some 1.
Proof.
  split; [|split].
  - repeat constructor; discriminate.
  - unfold closest_value_index, argmin. cbn. rdec. cbn.
    unfold Rabs. repeat (destruct (Rcase_abs _); try (exfalso; lra)).
    rdec. reflexivity.
  - unfold closest_value_index, argmin. cbn. rdec. cbn.
    unfold Rabs. repeat (destruct (Rcase_abs _); try (exfalso; lra)).
    rdec. reflexivity.
Qed.

Lemma C03_ex : make_radius_list (Fin 6) 3 = [Fin 2; Fin 4; Fin 6].
Proof.
  rewrite make_radius_list_reals. change (Z.to_nat 3) with 3. cbn.
  replace (1 * 6 / 3)%R with 2%R by field. replace ((1 + 1) * 6 / 3)%R with 4%R by field.
  replace ((1 + 1 + 1) * 6 / 3)%R with 6%R by field. reflexivity.
Qed.

Lemma C04_inverse (k : flavour) (x : R) :
  (x <> 1%R -> exists g, ellip_to_elong k (Fin x) = Ok (Fin g) /\
                         elong_to_ellip k (Fin g) = Ok (Fin x)) /\
  (x <> 0%R -> exists e, elong_to_ellip k (Fin x) = Ok (Fin e) /\
                         ellip_to_elong k (Fin e) = Ok (Fin x)).
Proof. split; intros H; [now apply ellip_elong_round|now apply elong_ellip_round]. Qed.

Lemma C04_ex : ellip_to_elong PyFloat (Fin (1/2)) = Ok (Fin 2).
Proof. rewrite ellip_to_elong_value by lra. do 2 f_equal. field. Qed.

Lemma C05_ex : circle_area_to_r (Fin (4 * PI)) = Fin 2.
Proof.
  pose proof PI_RGT_0. unfold circle_area_to_r, xpi. rewrite xdiv_fin by lra.
  replace (4 * PI / PI)%R with (2 * 2)%R by (field; lra).
  rewrite xsqrt_fin by lra. now rewrite sqrt_square by lra.
Qed.

Lemma C06_ex :
  natural_sort (map IStr [str "img10"; str "Img9"; str "img09"])
  = Ok (map IStr [str "Img9"; str "img09"; str "img10"]) /\
  ~ superscript_run (str "img10").
Proof.
  split; [vm_compute; reflexivity|].
  intros H. apply superscript_key_err in H. vm_compute in H. discriminate.
Qed.

Lemma C07_ex :
  good_header {| PHOTFLAM := Fin 1; PHOTZPT := Fin (-21); PHOTPLAM := Fin 10 |} 1 10 (-21) /\
  ab_mag 1 10 (-21) 100 = (-21 - 10 + 18692 / 1000)%R.
Proof.
  split; [cbn; repeat split; auto; lra|].
  assert (H : (0 < ln 10)%R) by (rewrite <- ln_1; apply ln_increasing; lra).
  unfold ab_mag, log10. replace (ln 100)%R with (2 * ln 10)%R.
  - rewrite ln_1. field. lra.
  - replace 100%R with (10 * 10)%R by lra. rewrite ln_mult by lra. ring.
Qed.

Lemma C08_ex :
  Nat.Even 2 /\ window_inside 2 1 3 /\
  axis_ok 2 1 3 /\ ~ axis_ok 3 1 3 /\ ~ axis_ok 2 0 3.
Proof.
  unfold axis_ok, window_inside. cbn.
  split; [exists 1; auto|]. split; [lia|]. split; [right; split; [exists 1; auto|lia]|].
  split.
  - intros [H|[[k H] _]]; lia.
  - intros [H|[_ H]]; lia.
Qed.

Lemma C09_ex :
  get_interpolated_values (fun (_ : unit) _ _ => Ok (fun q => q)) [Fin 0; Fin 4] [Fin 0; Fin 4] 3 (Some tt)
  = Ok ([Fin 0; Fin 2; Fin 4], [Fin 0; Fin 2; Fin 4]).
Proof.
  destruct (giv_spec (fun (_ : unit) _ _ => Ok (fun q => q)) tt [0;4]%R [Fin 0; Fin 4] 3 (fun q => q))
    as (lo & hi & g & E & [Hlo1 Hlo2] & [Hhi1 Hhi2] & Hg); auto.
  cbn [map] in E. rewrite E.
  assert (lo = 0%R) as ->.
  { specialize (Hlo2 0%R (or_introl eq_refl)). destruct Hlo1 as [<-|[<-|[]]]; lra. }
  assert (hi = 4%R) as ->.
  { specialize (Hhi2 4%R (or_intror (or_introl eq_refl))). destruct Hhi1 as [<-|[<-|[]]]; lra. }
  subst g. cbn. unfold grid_point. cbn.
  replace (0 + 0 * ((4 - 0) / (1 + 1)))%R with 0%R by field.
  replace (0 + 1 * ((4 - 0) / (1 + 1)))%R with 2%R by field.
  replace (0 + (1 + 1) * ((4 - 0) / (1 + 1)))%R with 4%R by field.
  reflexivity.
Qed.

Lemma C10_round w s u (p d du : R) :
  good_wcs w s u -> (0 < du)%R ->
  (exists q, pixel_to_angular (Fin p) w = Ok q /\ angular_to_pixel q w = Ok (Fin p)) /\
  (exists pix q v, angular_to_pixel {| qval := Fin d; qunit := Fin du |} w = Ok pix /\
     pixel_to_angular pix w = Ok q /\ qunit q = arcsec /\ q_to q (Fin du) = Fin v /\ v = d).
Proof.
  intros H Hd. split; [eapply pixel_angular_round; eauto|eapply angular_pixel_round; eauto].
Qed.

Lemma C10_assert w (a b : R) (p : xr) (q : quantity) :
  scale0 w = Fin a -> scale1 w = Fin b ->
  (Rabs (a - b) > 1 / 100000000 + 1 / 100000 * Rabs b)%R ->
  pixel_to_angular p w = Err AssertionError /\ angular_to_pixel q w = Err AssertionError.
Proof.
  intros Ha Hb H. apply pixel_angular_assert. rewrite Ha, Hb.
  destruct (xallclose (Fin a) (Fin b)) eqn:E; auto. apply xallclose_fin in E. lra.
Qed.

Lemma C10_ex :
  good_wcs {| scale0 := Fin (1/3600); scale1 := Fin (1/3600); cunit := Fin 1 |} (1/3600) 1.
Proof.
  unfold good_wcs. cbn [scale0 scale1 cunit].
  exists (1/3600)%R. repeat split; auto; try lra.
  rewrite Rminus_diag_eq, Rabs_R0 by auto. pose proof (Rabs_pos (1/3600)). lra.
Qed.

Lemma C57_end :
  exists (max_pix : f64) (n : Z) (last : f64),
    (0 < n)%Z /\ nltb n0 max_pix = true /\
    nth_error (make_radius_list max_pix n) (Z.to_nat n - 1) = Some last /\
    neqb last max_pix = false.
Proof.
  exists (nlit 39 10), 33%Z. eexists. repeat split; vm_compute; reflexivity.
Qed.

Lemma C58_mono :
  exists (a : list f64) (v1 v2 : f64) (i1 i2 : nat),
    nltb v1 v2 = true /\ existsb nisnan a = false /\
    closest_value_index v1 a true = Some i1 /\
    closest_value_index v2 a true = Some i2 /\ i2 < i1.
Proof.
  exists [nofZ 1; nadd (nofZ 1) (nlit 1 (2^52)); nofZ (10^17)], (nlit 3 2), (nofZ (4*10^16)), 1, 0.
  repeat split; vm_compute; reflexivity || auto.
Qed.
