(** Photometry of the simulated galaxies of the correction grid. *)
From Coq Require Import String FunctionalExtensionality.
From Coquelicot Require Import Coquelicot.
From Verif Require Import Base Num Numpy M_Utils M_Photometry S_Photometry M_Petrosian S_Petrosian M_PSF S_PSF M_Fitting S_Fitting
  M_Ellipse M_Exact S_Center S_Exact Gamma M_Sersic S_Sersic S_Galaxy M_Correction S_Correction S_CorRow M_Worker S_Worker
  L_Photometry L_Sersic L_Sersic2 L_Ellipse L_Exact L_Exact3 L_Growth L_Galaxy L_Galaxy2 L_Worker.
Local Open Scope list_scope.
Local Open Scope R_scope.

(** ** circles around the centre of an image of 2h x 2h pixels *)
Lemma inside_circle x y r u w : 0 < r -> inside_ellipse x y r (r / 1) 0 u w -> Rabs (u - x) < r /\ Rabs (w - y) < r.
Proof.
  intros Hr (s & v & H & -> & ->). rewrite cos_0, sin_0.
  replace (x + r * s * 1 - r / 1 * v * 0 - x) with (r * s) by field. replace (y + r * s * 0 + r / 1 * v * 1 - y) with (r * v) by field.
  assert (-1 < s < 1) by nra. assert (-1 < v < 1) by nra. split; apply Rabs_def1; nra.
Qed.

Lemma circle_on h N r : 0 < r -> INR N = 2 * h -> r <= h - 1/2 -> on_image h h r (r / 1) 0 N N.
Proof. intros Hr HN H u w I. apply inside_circle in I as [Iu Iw]; auto. apply Rabs_def2 in Iu. apply Rabs_def2 in Iw. rewrite HN. lra. Qed.

Lemma circle_on_wider h N : 0 < h -> INR N = 2 * h -> on_image h h h (h / 1) 0 (S N) (S N).
Proof. intros Hr HN u w I. apply inside_circle in I as [Iu Iw]; auto. apply Rabs_def2 in Iu. apply Rabs_def2 in Iw. rewrite S_INR, HN. lra. Qed.

(** the part of pixel (h, 2h) inside the circle of radius h around (h, h) *)
Lemma cut_pixel (h : R) j i : 1 <= h -> INR j = h -> INR i = 2 * h -> 1 / 4 <= pixel_area h h h (h / 1) 0 j i.
Proof.
  intros Hh Hj Hi. unfold pixel_area. rewrite Hi, Hj. replace (h / 1) with h by field.
  set (F := fun u => chord_part h h 0 (u - h) (h - 1/2 - h) (h + 1/2 - h)).
  assert (EX : forall p q, ex_RInt F p q) by (intros; apply int_part; lra).
  rewrite <- (RInt_Chasles F (2 * h - 1/2) (2 * h - 1/4) (2 * h + 1/2)) by apply EX. unfold plus; cbn.
  assert (P2 : 0 <= RInt F (2 * h - 1/4) (2 * h + 1/2)) by (apply RInt_ge_0; [lra|apply EX|intros; apply Rmax_l]).
  assert (P1 : RInt (fun _ => 1) (2 * h - 1/2) (2 * h - 1/4) <= RInt F (2 * h - 1/2) (2 * h - 1/4)).
  { apply RInt_le; [lra|apply ex_RInt_const|apply EX|]. intros u Hu. unfold F, chord_part.
    assert (M : chord_mid h h 0 (u - h) = 0) by (unfold chord_mid; rewrite sin_0; unfold Rdiv; ring).
    assert (W : width2 h h 0 = h * h) by (unfold width2; rewrite cos_0, sin_0; ring).
    assert (C : 1/2 <= chord_half h h 0 (u - h)).
    { unfold chord_half. rewrite W. replace (h * h * sqrt (h * h - (u - h) * (u - h)) / (h * h)) with (sqrt (h * h - (u - h) * (u - h))) by (field; lra).
      rewrite <- (sqrt_square (1/2)) by lra. apply sqrt_le_1_alt. assert (0 <= u - h <= h - 1/4) by lra. nra. }
    rewrite M, Rplus_0_l. rewrite Rmin_right by lra. rewrite Rmax_right with (y := h - 1 / 2 - h) by lra.
    eapply Rle_trans; [|apply Rmax_r]. lra. }
  rewrite RInt_const in P1. unfold scal in P1; cbn in P1. unfold mult in P1; cbn in P1.
  eapply Rle_trans; [|apply Rplus_le_compat; [exact P1|exact P2]]. lra.
Qed.

(** the sum over the smaller image *)
Lemma sum_to_in n f k : (k < n)%nat -> (forall i, (i < n)%nat -> 0 <= f i) -> f k <= sum_to n f.
Proof.
  intros Hk H. induction n as [|n IH]; [lia|]. cbn. destruct (Nat.eq_dec k n) as [->|Ne].
  - assert (0 <= sum_to n f); [|lra]. clear -H. induction n as [|n IH]; cbn; [lra|]. generalize (H n ltac:(lia)). assert (0 <= sum_to n f) by (apply IH; intros; apply H; lia). lra.
  - assert (f k <= sum_to n f) by (apply IH; [lia|intros; apply H; lia]). generalize (H n ltac:(lia)). lra.
Qed.

Lemma sum2_wider n f j : (j < n)%nat -> (forall j i, 0 <= f j i) -> sum2 n n f + f j n <= sum2 (S n) (S n) f.
Proof.
  intros Hj H. unfold sum2. cbn [sum_to]. rewrite sum_to_add.
  assert (f j n <= sum_to n (fun j => f j n)) by (apply (sum_to_in n (fun j => f j n)); auto).
  assert (0 <= sum_to n (fun i => f n i)).
  { destruct n; [cbn; lra|]. eapply Rle_trans; [|apply (sum_to_in (S n) (fun i => f (S n) i) 0); auto; lia]. apply H. }
  generalize (H n n). lra.
Qed.

(** ** images that show a falling profile *)
Section Shown.
  Variables (h : R) (N : nat) (s G : R -> R) (v : nat -> nat -> R) (d : R).
  Hypothesis (Hh : 1 <= h) (HN : INR N = 2 * h) (Hd : 0 <= d) (HS : falls s)
    (HD : forall n, drawn_within d s h h 1 0 n n v) (G0 : G 0 = 0)
    (Gm : forall r, gains_at_most s (PI / 1) r G) (Gl : forall r, gains_at_least s (PI / 1) r G) (Hv : forall j i, 0 <= v j i).

  Lemma grown_nonneg j i r : 0 < r -> 0 <= grown h h 1 0 j i r.
  Proof. intros Hr. rewrite grown_pos by auto. apply area_bounds; lra. Qed.

  Lemma inner r : 0 < r <= h - 1/2 -> Rabs (image_flux h h 1 0 N N v r - G r) <= 2 * PI * r * d * s 0.
  Proof.
    intros Hr. eapply Rle_trans; [apply (image_flux_close h h 1 0 N N v r d s G); auto; try lra|].
    - apply circle_on; lra.
    - right. field.
  Qed.

  Lemma outer_flux : image_flux h h 1 0 N N v h <= G h + 2 * PI * h * d * s 0.
  Proof.
    assert (C : Rabs (image_flux h h 1 0 (S N) (S N) v h - G h) <= 2 * PI * h / 1 * d * s 0).
    { apply (image_flux_close h h 1 0 (S N) (S N) v h d s G); auto; try lra. apply circle_on_wider; lra. }
    apply Rabs_le_between in C.
    assert (W : image_flux h h 1 0 N N v h <= image_flux h h 1 0 (S N) (S N) v h).
    { unfold image_flux. destruct N as [|M]; [cbn in HN; lra|].
      assert (NN : forall j i, 0 <= v j i * grown h h 1 0 j i h) by (intros; apply Rmult_le_pos; auto; apply grown_nonneg; lra).
      generalize (sum2_wider (S M) _ 0 ltac:(lia) NN). generalize (NN 0%nat (S M)). lra. }
    replace (2 * PI * h / 1 * d * s 0) with (2 * PI * h * d * s 0) in C by field. lra.
  Qed.

  Lemma outer_flux_low : G (h - 1/2) - 2 * PI * (h - 1/2) * d * s 0 <= image_flux h h 1 0 N N v h.
  Proof.
    generalize (inner (h - 1/2) ltac:(lra)). intros C. apply Rabs_le_between in C.
    assert (W : image_flux h h 1 0 N N v (h - 1/2) <= image_flux h h 1 0 N N v h).
    { unfold image_flux. apply sum2_le. intros j i _ _. apply Rmult_le_compat_l; auto. apply grown_mono; lra. }
    lra.
  Qed.

  Lemma outer_area j : INR j = h -> (j < N)%nat ->
    PI * (h - 1/2) * (h - 1/2) <= sum2 N N (fun j i => pixel_area h h h (h / 1) 0 j i) <= PI * h * h - 1/4.
  Proof.
    intros Hj Hl. split.
    - assert (E : sum2 N N (fun j i => pixel_area h h (h - 1/2) ((h - 1/2) / 1) 0 j i) = PI * (h - 1/2) * ((h - 1/2) / 1)).
      { apply exact_total; [lra|lra|]. apply circle_on; lra. }
      replace (PI * (h - 1/2) * (h - 1/2)) with (PI * (h - 1/2) * ((h - 1/2) / 1)) by field. rewrite <- E. apply sum2_le. intros. apply area_mono; lra.
    - assert (E : sum2 (S N) (S N) (fun j i => pixel_area h h h (h / 1) 0 j i) = PI * h * (h / 1)).
      { apply exact_total; [lra|lra|]. apply circle_on_wider; lra. }
      assert (NN : forall j i, 0 <= pixel_area h h h (h / 1) 0 j i) by (intros; apply area_bounds; lra).
      assert (W := sum2_wider N (fun j i => pixel_area h h h (h / 1) 0 j i) j Hl NN). cbn beta in W. rewrite E in W. generalize W (cut_pixel h j N Hh Hj HN). replace (PI * h * (h / 1)) with (PI * h * h) by field. lra.
  Qed.

  (** one aperture *)
  Lemma inner_value k m r : finite_img m v -> iny m = N -> inx m = N -> 0 < r <= h - 1/2 ->
    exists f a, radial_photometry exact_overlap k m (Fin h, Fin h) [Fin r] None None (Fin 1) (Fin 0) = Ok ([Fin f], [Fin a], [NaN]) /\
      Rabs (f - G r) <= 2 * PI * r * d * s 0 + 5 / 10000000 /\ Rabs (a - PI * r * r) <= 5 / 10000000.
  Proof.
    intros Fi Ey Ex Hr. destruct (exact_value k m v h h r 1 0) as (f & a & E & RA & RF); auto; try lra.
    - rewrite Ey, Ex. apply circle_on; lra.
    - exists f, a. split; auto. split.
      + eapply rounded_close; [exact RF|]. rewrite Ey, Ex. now apply inner.
      + apply rounded6_near in RA. replace (PI * r * r) with (PI * r * (r / 1)) by field. exact RA.
  Qed.

  Lemma outer_value k m j : finite_img m v -> iny m = N -> inx m = N -> INR j = h -> (j < N)%nat ->
    exists f a, radial_photometry exact_overlap k m (Fin h, Fin h) [Fin h] None None (Fin 1) (Fin 0) = Ok ([Fin f], [Fin a], [NaN]) /\
      G (h - 1/2) - 2 * PI * (h - 1/2) * d * s 0 - 5 / 10000000 <= f <= G h + 2 * PI * h * d * s 0 + 5 / 10000000 /\
      PI * (h - 1/2) * (h - 1/2) - 5 / 10000000 <= a <= PI * h * h - 1/4 + 5 / 10000000.
  Proof.
    intros Fi Ey Ex Hj Hl.
    assert (On : on_image h h (h - 1/2) ((h - 1/2) / 1) 0 N N) by (apply circle_on; lra).
    destruct (exact_grows h h 0 1 N N ltac:(lra) (h - 1/2) h _ ltac:(lra) (exact_some h h (h - 1/2) ((h - 1/2) / 1) 0 N N ltac:(lra) ltac:(lra) On)) as (w & Ew & _).
    unfold ap_of in Ew. rewrite <- Ey in Ew at 1. rewrite <- Ex in Ew.
    assert (Ew' : forall j i, w j i = Fin (pixel_area h h h (h / 1) 0 j i)).
    { cbn [exact_overlap] in Ew. destruct (box_misses h h h (h / 1) 0 (iny m) (inx m)); [discriminate|]. injection Ew as <-. auto. }
    destruct (rp_value exact_overlap k m v (Fin h) (Fin h) h None None 1 (Fin 0) (pixel_area h h h (h / 1) 0) w ltac:(lra) ltac:(lra) I I Ew)
      as (f & a & e & EQ & Ff & Fa & Fe & _); auto; try discriminate.
    rewrite (Fe eq_refl) in EQ. exists f, a. split; [exact EQ|].
    rewrite weighted_all in Ff, Fa by (intros; apply area_bounds; lra). rewrite Ey, Ex in Ff, Fa.
    apply rounded6_near, Rabs_le_between in Ff. apply rounded6_near, Rabs_le_between in Fa.
    assert (EA : sum2 N N (fun j i => 1 * pixel_area h h h (h / 1) 0 j i) = sum2 N N (fun j i => pixel_area h h h (h / 1) 0 j i)) by (apply sum2_ext; intros; ring).
    assert (EF : sum2 N N (fun j i => v j i * pixel_area h h h (h / 1) 0 j i) = image_flux h h 1 0 N N v h).
    { apply sum2_ext. intros. rewrite grown_pos by lra. reflexivity. }
    rewrite EA in Fa. rewrite EF in Ff. generalize (outer_area j Hj Hl) outer_flux outer_flux_low. lra.
  Qed.
End Shown.
