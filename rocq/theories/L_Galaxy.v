(** Exact photometry of a galaxy drawn on pixels. *)
From Coq Require Import Classical.
From Coquelicot Require Import Coquelicot.
From Verif Require Import Base Num Numpy M_Photometry S_Photometry S_Petrosian M_Ellipse M_Exact S_Center S_Exact S_Sersic S_Galaxy
  L_Photometry E_Photometry L_Center L_Ellipse L_Exact L_Growth.
Local Open Scope list_scope.
Local Open Scope R_scope.

Section Ellipse.
  Variables (x y elong t : R).
  Hypothesis He : 0 < elong.
  Local Notation rad := (ell_radius x y elong t).

  Lemma rad_nonneg u w : 0 <= rad u w.
  Proof. apply sqrt_pos. Qed.

  (** the points of an ellipse are those of smaller elliptical radius *)
  Lemma inside_rad r u w : 0 < r -> (inside_ellipse x y r (r / elong) t u w <-> rad u w < r).
  Proof.
    intros Hr. assert (Hb : 0 < r / elong) by now apply Rdiv_lt_0_compat.
    rewrite <- (in_ellipse_iff x y r (r / elong) t u w Hr Hb). unfold in_ellipse. rewrite Rltb_iff.
    unfold ell_radius, along, across.
    set (p := (u - x) * cos t + (w - y) * sin t). set (q := (w - y) * cos t - (u - x) * sin t).
    replace (- (u - x) * sin t + (w - y) * cos t) with q by (unfold q; ring).
    replace (p / r * (p / r) + q / (r / elong) * (q / (r / elong))) with ((p ^ 2 + (elong * q) ^ 2) / (r * r)) by (field; lra).
    assert (Hrr : 0 < r * r) by nra. set (Q := p ^ 2 + (elong * q) ^ 2). assert (HQ : 0 <= Q) by (unfold Q; nra).
    split; intros H.
    - apply Rlt_le_trans with (sqrt (r * r)); [|rewrite sqrt_square; lra].
      apply sqrt_lt_1; [auto|lra|]. apply (Rmult_lt_compat_r (r * r)) in H; auto. replace (Q / (r * r) * (r * r)) with Q in H by (field; lra). lra.
    - apply (Rmult_lt_reg_r (r * r)); auto. replace (Q / (r * r) * (r * r)) with Q by (field; lra).
      assert (E : Q = sqrt Q * sqrt Q) by now rewrite sqrt_sqrt. generalize (sqrt_pos Q). nra.
  Qed.

  (** area on a pixel as a function of the radius, from 0 on *)
  Definition grown (j i : nat) (r : R) : R := if Rlt_dec 0 r then pixel_area x y r (r / elong) t j i else 0.

  Lemma grown_pos j i r : 0 < r -> grown j i r = pixel_area x y r (r / elong) t j i.
  Proof. intros H. unfold grown. destruct (Rlt_dec 0 r); [auto|contradiction]. Qed.
  Lemma grown_0 j i : grown j i 0 = 0.
  Proof. unfold grown. destruct (Rlt_dec 0 0); [lra|auto]. Qed.

  Lemma grown_spec j i r : 0 <= r -> exists len : R -> R,
    (forall u, interval_length (fun w => rad u w < r /\ INR j - 1/2 < w < INR j + 1/2) (len u)) /\
    is_RInt len (INR i - 1/2) (INR i + 1/2) (grown j i r).
  Proof.
    intros Hr. destruct (Req_dec r 0) as [->|N].
    - exists (fun _ => 0). split.
      + intros u. exists 0, 0. split; [lra|]. split; [ring|]. intros w. generalize (rad_nonneg u w). lra.
      + rewrite grown_0. pose proof (is_RInt_const (V := R_NormedModule) (INR i - 1/2) (INR i + 1/2) 0) as Z.
        assert (E : scal (INR i + 1/2 - (INR i - 1/2)) 0 = 0) by (unfold scal; cbn; unfold mult; cbn; ring).
        exact (eq_rect _ (fun z : R => is_RInt (fun _ : R => 0) (INR i - 1/2) (INR i + 1/2) z) Z 0 E).
    - assert (P : 0 < r) by lra. assert (Hb : 0 < r / elong) by now apply Rdiv_lt_0_compat.
      rewrite grown_pos by auto.
      exists (fun u => chord_part r (r / elong) t (u - x) (INR j - 1/2 - y) (INR j + 1/2 - y)). split.
      + intros u.
        destruct (part_spec r (r / elong) t P Hb (u - x) (INR j - 1/2 - y) (INR j + 1/2 - y) ltac:(lra)) as (p & q & L & E & H).
        exists (p + y), (q + y). split; [lra|]. split; [lra|]. intros w. rewrite <- inside_rad, inside_chord by auto. specialize (H (w - y)). split.
        * intros X. assert (Y : p < w - y < q) by (apply H; lra). lra.
        * intros X. assert (Y : p < w - y < q) by lra. apply H in Y. lra.
      + apply (RInt_correct (V := R_CompleteNormedModule)). apply int_part; auto.
  Qed.

  Lemma grown_mono j i p q : 0 <= p <= q -> grown j i p <= grown j i q.
  Proof.
    intros H. destruct (Req_dec p 0) as [->|N].
    - rewrite grown_0. destruct (Req_dec q 0) as [->|M]; [rewrite grown_0; lra|]. rewrite grown_pos by lra.
      apply area_bounds.
    - rewrite !grown_pos by lra. apply area_mono; [lra|]. split; [apply Rdiv_lt_0_compat; lra|].
      apply Rmult_le_compat_r; [left; now apply Rinv_0_lt_compat|lra].
  Qed.

  (** a pixel gains area only where one of its points is in the ring *)
  Lemma grown_ring j i p q : 0 <= p <= q -> grown j i p < grown j i q ->
    exists u w, Rabs (u - INR i) < 1/2 /\ Rabs (w - INR j) < 1/2 /\ p <= rad u w < q.
  Proof.
    intros H L. apply NNPP. intros N. assert (grown j i p = grown j i q); [|lra].
    destruct (grown_spec j i p ltac:(lra)) as (f & F1 & F2). destruct (grown_spec j i q ltac:(lra)) as (g & G1 & G2).
    apply (is_RInt_unique (V := R_CompleteNormedModule)) in F2. apply (is_RInt_unique (V := R_CompleteNormedModule)) in G2.
    rewrite <- F2, <- G2. apply RInt_ext. intros u Hu. rewrite Rmin_left, Rmax_right in Hu by lra.
    destruct (F1 u) as (a & b & A1 & A2 & A3). apply (length_unique (fun w => rad u w < q /\ INR j - 1/2 < w < INR j + 1/2)); [|apply G1].
    exists a, b. split; auto. split; auto. intros w. rewrite <- A3. split; intros [X Y]; split; auto; [|lra].
    destruct (Rlt_dec (rad u w) p) as [Z|Z]; auto. exfalso. apply N. exists u, w.
    split; [apply Rabs_def1; lra|]. split; [apply Rabs_def1; lra|]. lra.
  Qed.

  (** the flux of an image within the radius *)
  Variables (ny nx : nat) (v : nat -> nat -> R) (r : R).
  Hypothesis Hr : 0 < r.
  Hypothesis On : on_image x y r (r / elong) t ny nx.
  Definition image_flux (p : R) : R := sum2 ny nx (fun j i => v j i * grown j i p).

  Lemma on_smaller p : 0 < p <= r -> on_image x y p (p / elong) t ny nx.
  Proof.
    intros P u w H. apply On. apply inside_rad; [lra|]. apply inside_rad in H; lra.
  Qed.
  Lemma grown_total p : 0 <= p <= r -> sum2 ny nx (fun j i => grown j i p) = PI / elong * (p * p).
  Proof.
    intros P. destruct (Req_dec p 0) as [->|N].
    - rewrite (sum2_ext _ _ _ (fun _ _ => 0 * 0)); [rewrite sum2_mult; ring|]. intros. rewrite grown_0. ring.
    - rewrite (sum2_ext _ _ _ (fun j i => pixel_area x y p (p / elong) t j i)) by (intros; apply grown_pos; lra).
      rewrite exact_total; [field; lra|lra|apply Rdiv_lt_0_compat; lra|apply on_smaller; lra].
  Qed.
  Lemma image_flux_0 : image_flux 0 = 0.
  Proof. unfold image_flux. rewrite (sum2_ext _ _ _ (fun _ _ => 0 * 0)); [rewrite sum2_mult; ring|]. intros. rewrite grown_0. ring. Qed.

  Lemma sum2_minus n m f g : sum2 n m (fun j i => f j i - g j i) = sum2 n m f - sum2 n m g.
  Proof. unfold sum2. rewrite <- sum_minus. apply sum_to_ext. intros. apply sum_minus. Qed.

  Lemma flux_gains d s : 0 <= d -> falls s -> drawn_within d s x y elong t ny nx v ->
    gains_at_most (fun p => s (Rmax 0 (p - d))) (PI / elong) r image_flux /\
    gains_at_least (fun p => s (p + d)) (PI / elong) r image_flux.
  Proof.
    intros Hd [S1 S2] D.
    assert (G : forall p q, 0 <= p < q -> q <= r -> sum2 ny nx (fun j i => grown j i q - grown j i p) = PI / elong * (q * q - p * p)).
    { intros p q P Q. rewrite sum2_minus, !grown_total by lra. ring. }
    assert (I : forall p q, image_flux q - image_flux p = sum2 ny nx (fun j i => v j i * (grown j i q - grown j i p))).
    { intros p q. unfold image_flux. rewrite <- sum2_minus. apply sum2_ext. intros. ring. }
    split; intros p q P Q; rewrite I, <- G, <- sum2_mult by auto; apply sum2_le; intros j i Hj Hi;
      destruct (Rle_lt_or_eq_dec _ _ (grown_mono j i p q ltac:(lra))) as [L|L]; try (rewrite L; lra);
      destruct (grown_ring j i p q ltac:(lra) L) as (u & w & Hu & Hw & B); destruct (D j i u w Hj Hi Hu Hw) as [D1 D2];
      generalize (rad_nonneg u w); intros Z; apply Rmult_le_compat_r; try lra.
    - eapply Rle_trans; [exact D2|]. apply S2. split; [apply Rmax_l|]. apply Rle_max_compat_l. lra.
    - eapply Rle_trans; [|exact D1]. apply S2. lra.
  Qed.
End Ellipse.

Lemma within_gains s elong r I : 0 < elong -> 0 < r -> falls s -> flux_within s elong r I ->
  exists G, G 0 = 0 /\ G r = I /\ gains_at_most s (PI / elong) r G /\ gains_at_least s (PI / elong) r G.
Proof.
  intros He Hr S H. apply integral_gains; auto.
  - left. apply Rdiv_lt_0_compat; auto. apply PI_RGT_0.
  - eapply (is_RInt_ext (V := R_NormedModule)); [|exact H]. intros p _. cbn beta. match goal with |- @eq _ ?a ?b => change (@eq R a b) end. field. lra.
Qed.

(** ** one radius *)
Lemma exact_value k image v x y r elong t : 0 < r -> 0 < elong ->
  on_image x y r (r / elong) t (iny image) (inx image) -> finite_img image v ->
  exists f A, radial_photometry exact_overlap k image (Fin x, Fin y) [Fin r] None None (Fin elong) (Fin t) = Ok ([Fin f], [Fin A], [NaN]) /\
    rounded6 (PI * r * (r / elong)) A /\ rounded6 (image_flux x y elong t (iny image) (inx image) v r) f.
Proof.
  intros Hr He On Fi. assert (Hb : 0 < r / elong) by now apply Rdiv_lt_0_compat.
  destruct (rp_value exact_overlap k image v (Fin x) (Fin y) r None None elong (Fin t) (pixel_area x y r (r / elong) t) _ Hr He I I
     (exact_some x y r (r / elong) t _ _ Hr Hb On)) as (f & A & e & E & Ff & Fa & Fe & _); auto; try discriminate.
  rewrite (Fe eq_refl) in E.
  assert (NN : forall j i, 0 <= pixel_area x y r (r / elong) t j i) by (intros; now apply area_bounds).
  rewrite weighted_all in Ff, Fa by auto.
  assert (EA : sum2 (iny image) (inx image) (fun j i => 1 * pixel_area x y r (r / elong) t j i) = PI * r * (r / elong)).
  { rewrite <- (exact_total x y r (r / elong) t (iny image) (inx image)) by auto. apply sum2_ext. intros; ring. }
  rewrite EA in Fa. exists f, A. split; [exact E|]. split; auto.
  replace (image_flux x y elong t (iny image) (inx image) v r) with (sum2 (iny image) (inx image) (fun j i => v j i * pixel_area x y r (r / elong) t j i)); auto.
  apply sum2_ext. intros. now rewrite grown_pos.
Qed.

Theorem sandwich k image v x y r elong t d s lo hi : 0 < r -> 0 < elong -> 0 <= d -> falls s ->
  on_image x y r (r / elong) t (iny image) (inx image) -> finite_img image v ->
  drawn_within d s x y elong t (iny image) (inx image) v ->
  flux_within (fun p => s (p + d)) elong r lo -> flux_within (fun p => s (Rmax 0 (p - d))) elong r hi ->
  exists f f0 A, radial_photometry exact_overlap k image (Fin x, Fin y) [Fin r] None None (Fin elong) (Fin t) = Ok ([Fin f], [Fin A], [NaN]) /\
    rounded6 (PI * r * (r / elong)) A /\ rounded6 f0 f /\ lo <= f0 <= hi.
Proof.
  intros Hr He Hd S On Fi D Lo Hi. destruct (exact_value k image v x y r elong t) as (f & A & E & RA & RF); auto.
  exists f, (image_flux x y elong t (iny image) (inx image) v r), A. split; auto. split; auto. split; auto.
  destruct (flux_gains x y elong t He _ _ v r Hr On d s Hd S D) as [U L].
  assert (Hc : 0 <= PI / elong) by (left; apply Rdiv_lt_0_compat; auto; apply PI_RGT_0).
  destruct S as [S1 S2].
  assert (Sl : falls (fun p => s (p + d))) by (split; intros; [apply S1|apply S2]; lra).
  assert (Sh : falls (fun p => s (Rmax 0 (p - d)))).
  { split; intros; [apply S1, Rmax_l|]. apply S2. split; [apply Rmax_l|]. apply Rle_max_compat_l. lra. }
  destruct (within_gains _ elong r lo He Hr Sl Lo) as (Gl & L0 & <- & Lm & Ll).
  destruct (within_gains _ elong r hi He Hr Sh Hi) as (Gh & H0 & <- & Hm & Hl).
  split.
  - apply (below (PI / elong) r Hc Hr (fun p => s (p + d))); auto. apply image_flux_0.
  - apply (below (PI / elong) r Hc Hr (fun p => s (Rmax 0 (p - d)))); auto. apply image_flux_0.
Qed.

Lemma image_flux_close x y elong t ny nx v r d s G : 0 < r -> 0 < elong -> 0 <= d -> falls s ->
  on_image x y r (r / elong) t ny nx -> drawn_within d s x y elong t ny nx v ->
  G 0 = 0 -> gains_at_most s (PI / elong) r G -> gains_at_least s (PI / elong) r G ->
  Rabs (image_flux x y elong t ny nx v r - G r) <= 2 * PI * r / elong * d * s 0.
Proof.
  intros Hr He Hd S On D G0 Gm Gl. destruct (flux_gains x y elong t He ny nx v r Hr On d s Hd S D) as [U L].
  assert (Hc : 0 <= PI / elong) by (left; apply Rdiv_lt_0_compat; auto; apply PI_RGT_0).
  replace (2 * PI * r / elong * d * s 0) with (2 * (PI / elong) * r * d * s 0) by (field; lra).
  apply Rabs_le. split.
  - generalize (close_below (PI / elong) r Hc Hr d s _ G Hd S (image_flux_0 x y elong t ny nx v) G0 L Gm). lra.
  - generalize (close_above (PI / elong) r Hc Hr d s _ G Hd S (image_flux_0 x y elong t ny nx v) G0 U Gl). lra.
Qed.

(** ** lists of radii *)
Lemma rp_list overlap k image pos rs error mask elong theta (P : R -> R -> R -> Prop) :
  (forall i, (i < List.length rs)%nat -> exists f a,
     radial_photometry overlap k image pos [Fin (at_ rs i)] error mask elong theta = Ok ([Fin f], [Fin a], [NaN]) /\ P (at_ rs i) f a) ->
  exists F A, radial_photometry overlap k image pos (map Fin rs) error mask elong theta = Ok (map Fin F, map Fin A, map (fun _ => NaN) rs) /\
    List.length F = List.length rs /\ List.length A = List.length rs /\
    forall i, (i < List.length rs)%nat -> P (at_ rs i) (at_ F i) (at_ A i).
Proof.
  intros H.
  assert (X : exists F A, List.length F = List.length rs /\ List.length A = List.length rs /\
    forall i, (i < List.length rs)%nat -> radial_photometry overlap k image pos [Fin (at_ rs i)] error mask elong theta = Ok ([Fin (at_ F i)], [Fin (at_ A i)], [NaN]) /\
      P (at_ rs i) (at_ F i) (at_ A i)).
  { induction rs as [|r rs IH].
    - exists [], []. cbn. split; auto. split; auto. intros. lia.
    - destruct (H 0%nat) as (f & a & E & HP); [cbn; lia|]. destruct IH as (F & A & LF & LA & HI).
      + intros i Hi. apply (H (S i)). cbn. lia.
      + exists (f :: F), (a :: A). cbn [List.length]. split; [lia|]. split; [lia|]. intros [|i] Hi; [split; auto|]. apply (HI i). lia. }
  destruct X as (F & A & LF & LA & HI). exists F, A. split; [|split; auto; split; auto; intros; now apply HI].
  apply rp_Ok. rewrite !map_length. split; auto. split; auto. split; auto. intros i r Hi.
  rewrite nth_error_map in Hi. destruct (nth_error rs i) as [q|] eqn:Eq; [|discriminate]. cbn in Hi. injection Hi as <-.
  assert (Li : (i < List.length rs)%nat) by (apply nth_error_Some; congruence).
  destruct (HI i Li) as [E _].
  assert (At : forall l : list R, (i < List.length l)%nat -> nth_error l i = Some (at_ l i)) by (intros l Hl; unfold at_; now apply nth_error_nth').
  rewrite (At rs Li) in Eq. injection Eq as <-. exists (Fin (at_ F i)), (Fin (at_ A i)), NaN. split; [exact E|].
  rewrite !nth_error_map, !At by lia. auto.
Qed.

Lemma rounded_close a b e c : rounded6 a c -> Rabs (a - b) <= e -> Rabs (c - b) <= e + 5 / 10000000.
Proof.
  intros H1 H2. apply rounded6_near in H1. replace (c - b) with ((c - a) + (a - b)) by ring.
  eapply Rle_trans; [apply Rabs_triang|]. lra.
Qed.

Theorem galaxy_fluxes k image v x y rs elong t d s : 0 < elong -> 0 <= d -> falls s -> finite_img image v ->
  drawn_within d s x y elong t (iny image) (inx image) v ->
  (forall i, (i < List.length rs)%nat -> 0 < at_ rs i /\ on_image x y (at_ rs i) (at_ rs i / elong) t (iny image) (inx image)) ->
  exists F A, radial_photometry exact_overlap k image (Fin x, Fin y) (map Fin rs) None None (Fin elong) (Fin t)
      = Ok (map Fin F, map Fin A, map (fun _ => NaN) rs) /\
    List.length F = List.length rs /\ List.length A = List.length rs /\
    forall i, (i < List.length rs)%nat ->
      Rabs (at_ A i - PI * at_ rs i * (at_ rs i / elong)) <= 5 / 10000000 /\
      forall I, flux_within s elong (at_ rs i) I -> Rabs (at_ F i - I) <= 2 * PI * at_ rs i / elong * d * s 0 + 5 / 10000000.
Proof.
  intros He Hd S Fi D Hrs.
  apply (rp_list exact_overlap k image (Fin x, Fin y) rs None None (Fin elong) (Fin t) (fun r f a =>
    Rabs (a - PI * r * (r / elong)) <= 5 / 10000000 /\
    forall I, flux_within s elong r I -> Rabs (f - I) <= 2 * PI * r / elong * d * s 0 + 5 / 10000000)).
  intros i Hi. destruct (Hrs i Hi) as [Hr On]. destruct (exact_value k image v x y (at_ rs i) elong t) as (f & A & E & RA & RF); auto.
  exists f, A. split; auto. split.
  - apply rounded6_near in RA. exact RA.
  - intros I HI. destruct (within_gains s elong (at_ rs i) I He Hr S HI) as (G & G0 & <- & Gm & Gl).
    eapply rounded_close; [exact RF|]. apply image_flux_close; auto.
Qed.
