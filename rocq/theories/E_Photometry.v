(** Combined statements and concrete cases for aperture photometry. *)
From Coq Require Import Classical.
From Verif Require Import Base Num Numpy M_Utils L_Numpy M_Photometry S_Petrosian S_Photometry L_Photometry.

(** ** C11 *)

Lemma aperture_axes : forall k (pos : xr * xr) r elong theta,
  (0 < r -> 0 < elong ->
   radial_elliptical_aperture k pos (Fin r) (Fin elong) theta
   = Ok (mkap (fst pos) (snd pos) (Fin r) (Fin (r / elong)) theta))%R /\
  (r <= 0 -> elong <> 0 ->
   radial_elliptical_aperture k pos (Fin r) (Fin elong) theta = Err ValueError)%R.
Proof. split; intros; [now apply aperture_ok|now apply aperture_bad]. Qed.

Lemma annulus_axes : forall k (pos : xr * xr) r dr elong theta,
  (0 < r -> 0 < dr -> 0 < elong ->
   exists b_in b_out,
   radial_elliptical_annulus k pos (Fin r) (Fin dr) (Fin elong) theta
   = Ok (mkan (fst pos) (snd pos) (Fin r) (Fin (r + dr)) (Fin b_in) (Fin b_out) theta) /\
   b_out = (r + dr) / elong /\ b_in = r / elong /\
   ellipse_area (r + dr) b_out - ellipse_area r b_in
   = ellipse_area (r + dr) ((r + dr) / elong) - ellipse_area r (r / elong) /\
   ellipse_area (r + dr) b_out - ellipse_area r b_in = PI * dr * (2 * r + dr) / elong)%R /\
  (elong <> 0 -> r <= 0 \/ dr <= 0 ->
   radial_elliptical_annulus k pos (Fin r) (Fin dr) (Fin elong) theta = Err ValueError)%R.
Proof.
  split; intros; [|now apply annulus_bad].
  eexists _, _. split; [now apply annulus_ok|]. repeat split. unfold ellipse_area. field. lra.
Qed.

Lemma C11_ex :
  radial_elliptical_aperture PyFloat (Fin 1, Fin 2) (Fin 3) (Fin 2) (Fin 0)
  = Ok (mkap (Fin 1) (Fin 2) (Fin 3) (Fin (3/2)) (Fin 0)).
Proof. apply (aperture_ok PyFloat (Fin 1, Fin 2) 3 2 (Fin 0)); lra. Qed.

(** ** C12: when it raises *)

Section Raises.
  Variable overlap : aperture xr -> nat -> nat -> option (nat -> nat -> xr).

  Lemma rp_error_irrelevant k image x y r error mask elong theta :
    (0 < r)%R -> (0 < elong)%R -> fits error image ->
    forall ex, radial_photometry overlap k image (x, y) [Fin r] error mask (Fin elong) theta = Err ex
     <-> radial_photometry overlap k image (x, y) [Fin r] None mask (Fin elong) theta = Err ex.
  Proof.
    intros Hr He Fe ex. rewrite !rp_one. unfold one_radius. rewrite !aperture_ok by auto. cbn [bind].
    unfold do_photometry. rewrite (fits_shape _ _ Fe).
    change (match option_map invert mask with None => true | Some m => same_shape m (ones_like image) end)
      with (match option_map invert mask with None => true | Some m => same_shape m image end).
    cbn [iny inx ones_like].
    destruct (match option_map invert mask with None => true | Some m => same_shape m image end); [|tauto].
    match goal with |- context [overlap ?a ?b ?c] => destruct (overlap a b c) end; cbn [bind fst snd];
    match goal with |- context [if nisnan ?f then _ else _] => destruct (nisnan f) end; split; congruence.
  Qed.

  Lemma rp_raises k image x y r error mask elong theta :
    (0 < r)%R -> (0 < elong)%R -> fits error image -> fits mask image ->
    (forall j i, j < iny image -> i < inx image -> px image j i = NaN \/ exists v, px image j i = Fin v) ->
    (forall w, overlap (ap_of x y theta elong r) (iny image) (inx image) = Some w ->
       forall j i, j < iny image -> i < inx image -> exists a, w j i = Fin a) ->
    (forall ex, radial_photometry overlap k image (x, y) [Fin r] error mask (Fin elong) theta = Err ex ->
       ex = GenericException) /\
    (radial_photometry overlap k image (x, y) [Fin r] error mask (Fin elong) theta = Err GenericException <->
     overlap (ap_of x y theta elong r) (iny image) (inx image) = None \/
     exists w j i a, overlap (ap_of x y theta elong r) (iny image) (inx image) = Some w /\
       j < iny image /\ i < inx image /\ w j i = Fin a /\ (0 < a)%R /\ selects mask j i = true /\
       px image j i = NaN).
  Proof.
    intros Hr He Fe Fm Hi Hw.
    set (bad := overlap (ap_of x y theta elong r) (iny image) (inx image) = None \/
     exists w j i a, overlap (ap_of x y theta elong r) (iny image) (inx image) = Some w /\
       j < iny image /\ i < inx image /\ w j i = Fin a /\ (0 < a)%R /\ selects mask j i = true /\
       px image j i = NaN).
    assert (Hbad : bad -> radial_photometry overlap k image (x, y) [Fin r] error mask (Fin elong) theta = Err GenericException).
    { intros [B|(w & j & i & a & B & Hj & Hi' & Ha & Hp & Hs & Hn)]; apply rp_nan; auto.
      right. exists w, j, i. repeat split; auto. rewrite Ha. cbn. now apply Rltb_iff. }
    assert (Hgood : ~ bad -> exists t, radial_photometry overlap k image (x, y) [Fin r] error mask (Fin elong) theta = Ok t).
    { intros B. destruct (radial_photometry overlap k image (x, y) [Fin r] error mask (Fin elong) theta) as [t|ex] eqn:E; [eauto|].
      exfalso. apply rp_error_irrelevant in E; auto.
      destruct (overlap (ap_of x y theta elong r) (iny image) (inx image)) as [w|] eqn:Ew.
      2:{ apply B. now left. }
      specialize (Hw w eq_refl).
      destruct (rp_value overlap k image (fun j i => match px image j i with Fin v => v | _ => 0%R end) x y r None mask elong theta
        (fun j i => match w j i with Fin v => v | _ => 0%R end) w) as (f & a & e & E' & _); auto.
      - cbn; auto.
      - intros j i Hj Hi'. destruct (Hw j i Hj Hi') as [a ->]. reflexivity.
      - intros j i Hj Hi' Hp Hs. destruct (Hi j i Hj Hi') as [Hn|[v ->]]; [|reflexivity].
        exfalso. destruct (Hw j i Hj Hi') as [a Ha]. rewrite Ha in Hp.
        apply B. right. exists w, j, i, a. repeat split; auto.
      - discriminate.
      - rewrite E in E'. discriminate. }
    split.
    - intros ex E. destruct (classic bad) as [B|B].
      + rewrite (Hbad B) in E. congruence.
      + destruct (Hgood B) as [t Et]. congruence.
    - split; auto. intros E. destruct (classic bad) as [B|B]; auto.
      destruct (Hgood B) as [t Et]. congruence.
  Qed.
End Raises.

(** ** C14: monotone *)

Lemma at_nth l i x : nth_error l i = Some x -> at_ l i = x.
Proof. intros H. unfold at_. erewrite nth_error_nth; eauto. Qed.

Lemma nondecreasing_le l i j : nondecreasing l -> i <= j -> j < length l -> (at_ l i <= at_ l j)%R.
Proof.
  intros H Hij. induction Hij as [|j Hij IH]; intros Hj; [lra|].
  pose proof (H j Hj). specialize (IH ltac:(lia)). lra.
Qed.

Lemma rp_monotone overlap k image v x y rs mask elong theta :
  (0 < elong)%R -> fits mask image -> finite_img image v ->
  (forall j i, j < iny image -> i < inx image -> (0 <= v j i)%R) ->
  nondecreasing rs -> (forall i, i < length rs -> (0 < at_ rs i)%R) ->
  (0 < length rs -> overlap (ap_of x y theta elong (at_ rs 0)) (iny image) (inx image) <> None) ->
  grows overlap x y theta elong (iny image) (inx image) ->
  exists F A, radial_photometry overlap k image (x, y) (map Fin rs) None mask (Fin elong) theta
      = Ok (map Fin F, map Fin A, map (fun _ => NaN) rs) /\
    length F = length rs /\ length A = length rs /\
    nondecreasing F /\ nondecreasing A /\
    forall i, i < length rs -> (0 <= at_ F i)%R /\ (0 <= at_ A i)%R.
Proof.
  intros He Fm Hv Hpos Hmono Hr H0 Hg.
  assert (Hw : forall i, i < length rs -> exists w, overlap (ap_of x y theta elong (at_ rs i)) (iny image) (inx image) = Some w).
  { intros i Hi. destruct (overlap (ap_of x y theta elong (at_ rs 0)) (iny image) (inx image)) as [w|] eqn:E.
    - destruct (Hg (at_ rs 0) (at_ rs i) w) as (w2 & E2 & _); eauto.
      split; [apply Hr; lia|apply nondecreasing_le; auto; lia].
    - destruct (H0 ltac:(lia) eq_refl). }
  set (wr := fun r j i => match overlap (ap_of x y theta elong r) (iny image) (inx image) with
                          | Some w => match w j i with Fin a => a | _ => 0%R end | None => 0%R end).
  set (F := map (fun r => rd6 (weighted (iny image) (inx image) (wr r) (selects mask) v)) rs).
  set (A := map (fun r => rd6 (weighted (iny image) (inx image) (wr r) (selects mask) (fun _ _ => 1%R))) rs).
  assert (Hfin : forall r w, (0 < r)%R -> overlap (ap_of x y theta elong r) (iny image) (inx image) = Some w ->
     forall j i, j < iny image -> i < inx image -> w j i = Fin (wr r j i) /\ (0 <= wr r j i)%R).
  { intros r w Hr' E j i Hj Hi. destruct (Hg r r w ltac:(lra) E) as (w2 & _ & Hf).
    destruct (Hf j i Hj Hi) as (a & b & Ea & _ & Ha). unfold wr. rewrite E, Ea. split; auto. lra. }
  assert (Hat : forall g i, i < length rs -> at_ (map g rs) i = g (at_ rs i)).
  { intros g i Hi. unfold at_. rewrite nth_indep with (d' := g 0%R) by now rewrite map_length. apply map_nth. }
  assert (Hle : forall i, S i < length rs -> forall u,
     (forall j k0, j < iny image -> k0 < inx image -> (0 <= u j k0)%R) ->
     (weighted (iny image) (inx image) (wr (at_ rs i)) (selects mask) u <=
      weighted (iny image) (inx image) (wr (at_ rs (S i))) (selects mask) u)%R).
  { intros i Hi u Hu. apply weighted_mono; auto. intros j k0 Hj Hk0.
    destruct (Hw i ltac:(lia)) as [w1 E1]. pose proof (Hr i ltac:(lia)) as R1.
    destruct (Hg (at_ rs i) (at_ rs (S i)) w1) as (w2 & E2 & Hf); [split; auto|auto|].
    destruct (Hf j k0 Hj Hk0) as (a & b & Ea & Eb & Hab). unfold wr. now rewrite E1, E2, Ea, Eb. }
  exists F, A. unfold F, A. rewrite !map_length. split; [|split; [auto|split; [auto|]]].
  - apply rp_Ok. rewrite !map_length. repeat split; auto. intros i r Hi.
    rewrite nth_error_map in Hi. destruct (nth_error rs i) as [r0|] eqn:Er; [|discriminate]. injection Hi as <-.
    pose proof (at_nth _ _ _ Er) as Ea. assert (Hi : i < length rs) by (apply nth_error_Some; congruence).
    destruct (Hw i Hi) as [w Ew]. rewrite Ea in Ew. pose proof (Hr i Hi) as R1. rewrite Ea in R1.
    destruct (rp_value overlap k image v x y r0 None mask elong theta (wr r0) w) as (f & a & e & E1 & E2 & E3 & E4 & _); auto.
    + cbn; auto.
    + intros j i0 Hj Hi0. apply (Hfin r0 w R1 Ew j i0 Hj Hi0).
    + discriminate.
    + rewrite !nth_error_map, Er. cbn.
      assert (Hu : forall q z, rounded6 q z -> z = rd6 q).
      { intros q z Hz. apply Rle_antisym; [eapply rounded6_mono with (x1 := q) (x2 := q)|eapply rounded6_mono with (x1 := q) (x2 := q)];
          eauto using rd6_rounded; lra. }
      rewrite (E4 eq_refl) in E1. rewrite (Hu _ _ E2), (Hu _ _ E3) in E1.
      eexists _, _, _. split; [exact E1|]. auto.
  - repeat split.
    + intros i Hi. rewrite map_length in Hi. rewrite !Hat by lia.
      eapply rounded6_mono; [apply rd6_rounded|apply rd6_rounded|]. apply Hle; auto.
    + intros i Hi. rewrite map_length in Hi. rewrite !Hat by lia.
      eapply rounded6_mono; [apply rd6_rounded|apply rd6_rounded|]. apply Hle; auto. intros; lra.
    + rewrite Hat by auto. replace 0%R with (rd6 0).
      * eapply rounded6_mono; [apply rd6_rounded|apply rd6_rounded|]. now apply weighted_nonneg.
      * unfold rd6. rewrite Rmult_0_l. rewrite (Rrint_IZR 0). lra.
    + rewrite Hat by auto. replace 0%R with (rd6 0).
      * eapply rounded6_mono; [apply rd6_rounded|apply rd6_rounded|]. apply weighted_nonneg. intros; lra.
      * unfold rd6. rewrite Rmult_0_l. rewrite (Rrint_IZR 0). lra.
Qed.

Lemma center_grows x y t elong ny nx : (0 < elong)%R ->
  grows center_overlap (Fin x) (Fin y) (Fin t) elong ny nx.
Proof.
  intros He r1 r2 w1 Hr E. unfold ap_of in *.
  assert (B : (0 < r1 / elong <= r2 / elong)%R).
  { split; [apply Rdiv_lt_0_compat; lra|]. apply Rmult_le_compat_r; [|lra]. left. now apply Rinv_0_lt_compat. }
  destruct (center_nested x y r1 r2 (r1/elong) (r2/elong) t ny nx w1 Hr B E) as (w2 & q1 & q2 & E2 & H).
  exists w2. split; auto. intros j i _ _. destruct (H j i) as (H1 & H2 & H3 & _). eauto.
Qed.

Lemma center_monotone k image v x y t rs mask elong :
  (0 < elong)%R -> fits mask image -> finite_img image v ->
  (forall j i, j < iny image -> i < inx image -> (0 <= v j i)%R) ->
  nondecreasing rs -> (forall i, i < length rs -> (0 < at_ rs i)%R) ->
  (0 < length rs -> center_overlap (ap_of (Fin x) (Fin y) (Fin t) elong (at_ rs 0)) (iny image) (inx image) <> None) ->
  exists F A, radial_photometry center_overlap k image (Fin x, Fin y) (map Fin rs) None mask (Fin elong) (Fin t)
      = Ok (map Fin F, map Fin A, map (fun _ => NaN) rs) /\
    length F = length rs /\ length A = length rs /\
    nondecreasing F /\ nondecreasing A /\
    forall i, i < length rs -> (0 <= at_ F i)%R /\ (0 <= at_ A i)%R.
Proof. intros. eapply rp_monotone; eauto. now apply center_grows. Qed.

(** ** the accuracy of one value *)

Lemma rp_accuracy overlap k image v x y r mask elong theta wr w :
  (0 < r)%R -> (0 < elong)%R -> fits mask image -> finite_img image v ->
  overlap (ap_of x y theta elong r) (iny image) (inx image) = Some w ->
  (forall j i, j < iny image -> i < inx image -> w j i = Fin (wr j i)) ->
  let total u := weighted (iny image) (inx image) wr (selects mask) u in
  exists f a, radial_photometry overlap k image (x, y) [Fin r] None mask (Fin elong) theta
      = Ok ([Fin f], [Fin a], [NaN]) /\
    (Rabs (f - total v) <= 5 / 10000000)%R /\
    (Rabs (a - total (fun _ _ => 1%R)) <= 5 / 10000000)%R /\
    (forall c, (forall j i, j < iny image -> i < inx image -> v j i = c) ->
       (Rabs (f - c * total (fun _ _ => 1%R)) <= 5 / 10000000)%R).
Proof.
  intros Hr He Fm Hv Ho Hw total.
  destruct (rp_value overlap k image v x y r None mask elong theta wr w) as (f & a & e & E1 & E2 & E3 & E4 & _); auto.
  - cbn; auto.
  - discriminate.
  - rewrite (E4 eq_refl) in E1. exists f, a. split; auto. apply rounded6_near in E2. apply rounded6_near in E3.
    repeat split; auto. intros c Hc. unfold total. rewrite <- weighted_const.
    replace (weighted (iny image) (inx image) wr (selects mask) (fun _ _ => c))
      with (weighted (iny image) (inx image) wr (selects mask) v); auto.
    apply sum2_ext. intros j i Hj Hi. now rewrite Hc.
Qed.

(** ** a concrete call: 3x3 image, middle row inside the aperture, one pixel masked *)

Definition ex_img : img xr := mkimg 3 3 (fun j i => Fin (INR (10 * j + i))).
Definition ex_mask : img bool := mkimg 3 3 (fun j i => negb (i =? 2)).
Definition ex_w (j i : nat) : R := if (j =? 1) then 1%R else 0%R.

Lemma ex_overlap : exists w,
  center_overlap (ap_of (Fin 1) (Fin 1) (Fin 0) (3/2) (3/2)) 3 3 = Some w /\
  forall j i, j < 3 -> i < 3 -> w j i = Fin (ex_w j i).
Proof.
  unfold ap_of, center_overlap, extent_x, extent_y. rewrite cos_0, sin_0.
  replace (3/2 * 1 * (3/2 * 1) + 3/2 / (3/2) * 0 * (3/2 / (3/2) * 0))%R with (3/2 * (3/2))%R by field.
  replace (3/2 * 0 * (3/2 * 0) + 3/2 / (3/2) * 1 * (3/2 / (3/2) * 1))%R with (1 * 1)%R by field.
  rewrite !sqrt_square by lra. unfold Rfloor, Rceil.
  assert (F1 : Int_part (1 - 3/2 + 1/2) = 0%Z) by (apply (Int_part_spec _ 0); lra).
  assert (F2 : Int_part (- (1 + 3/2 + 1/2)) = (-3)%Z) by (apply (Int_part_spec _ (-3)); lra).
  assert (F3 : Int_part (1 - 1 + 1/2) = 0%Z) by (apply (Int_part_spec _ 0); lra).
  assert (F4 : Int_part (- (1 + 1 + 1/2)) = (-3)%Z) by (apply (Int_part_spec _ (-3)); lra).
  rewrite F1, F2, F3, F4. cbn [Z.of_nat Z.leb Z.compare orb Z.opp].
  eexists. split; [reflexivity|]. intros j i Hj Hi.
  unfold in_ellipse. rewrite cos_0, sin_0. unfold ex_w.
  replace (3/2 / (3/2))%R with 1%R by field.
  destruct j as [|[|[|j]]]; [| | |lia]; destruct i as [|[|[|i]]]; try lia; cbn [Nat.eqb INR];
  match goal with |- context [Rltb ?a 1] => destruct (Rltb_spec a 1) as [Q|Q] end; auto; exfalso; lra.
Qed.

Lemma C12_ex : exists e,
  radial_photometry center_overlap PyFloat ex_img (Fin 1, Fin 1) [Fin (3/2)] None (Some ex_mask)
    (Fin (3/2)) (Fin 0) = Ok ([Fin 21], [Fin 2], [e]).
Proof.
  destruct ex_overlap as (w & Ew & Hw).
  destruct (rp_value center_overlap PyFloat ex_img (fun j i => INR (10 * j + i)) (Fin 1) (Fin 1) (3/2) None
    (Some ex_mask) (3/2) (Fin 0) ex_w w) as (f & a & e & E1 & E2 & E3 & _); auto; try lra.
  - cbn; auto.
  - cbn; auto.
  - discriminate.
  - exists e. rewrite E1.
    assert (Hf : f = 21%R).
    { assert (K : rounded6 21 21) by (exists 21000000%Z; split; [left; rewrite Rabs_pos_eq; lra|lra]).
      match type of E2 with rounded6 ?s _ => assert (S : s = 21%R) end.
      { unfold weighted, sum2, ex_img, ex_mask, ex_w, selects. cbn [iny inx px sum_to Nat.eqb negb].
        rewrite !(Rltb_true 0 1), !(Rltb_false 0 0) by lra. cbn [Nat.mul Nat.add]. rewrite !INR_IZR_INZ. cbn [Z.of_nat Pos.of_succ_nat Pos.succ]. lra. }
      rewrite S in E2. apply Rle_antisym; eapply rounded6_mono; eauto; lra. }
    assert (Ha : a = 2%R).
    { assert (K : rounded6 2 2) by (exists 2000000%Z; split; [left; rewrite Rabs_pos_eq; lra|lra]).
      match type of E3 with rounded6 ?s _ => assert (S : s = 2%R) end.
      { unfold weighted, sum2, ex_img, ex_mask, ex_w, selects. cbn [iny inx px sum_to Nat.eqb negb].
        rewrite !(Rltb_true 0 1), !(Rltb_false 0 0) by lra. lra. }
      rewrite S in E3. apply Rle_antisym; eapply rounded6_mono; eauto; lra. }
    now rewrite Hf, Ha.
Qed.

(** an image that differs from ex_img (NaN) only at a masked pixel *)
Lemma C13_ex :
  agree ex_mask ex_img (mkimg 3 3 (fun j i => if (i =? 2) then NaN else Fin (INR (10 * j + i)))) /\
  px ex_img 0 2 <> NaN.
Proof.
  split; [|discriminate]. repeat split; auto. intros j i _ _ H. cbn in *.
  destruct (i =? 2); [discriminate|reflexivity].
Qed.

Lemma C14_ex :
  nondecreasing [3/2; 2; 5/2]%R /\
  center_overlap (ap_of (Fin 1) (Fin 1) (Fin 0) (3/2) (at_ [3/2; 2; 5/2]%R 0)) 3 3 <> None /\
  finite_img ex_img (fun j i => INR (10 * j + i)) /\
  forall j i, (0 <= INR (10 * j + i))%R.
Proof.
  split.
  { intros i Hi. cbn in Hi. destruct i as [|[|i]]; try lia; unfold at_; cbn; lra. }
  split.
  { destruct ex_overlap as (w & Ew & _). unfold at_. cbn [nth]. rewrite Ew. discriminate. }
  split; [intros j i _ _; reflexivity|intros; apply pos_INR].
Qed.
