(** source_photometry of images that differ by a plane. *)
From Coq Require Import String Classical_Prop.
From Verif Require Import Base Num Numpy M_Utils M_Photometry S_Photometry M_PSF M_Fitting S_Fitting M_Segm S_Segm L_Numpy L_Photometry L_PSF
  L_Fitting L_Fitting2 L_Segm L_Segm2 L_Segm3 L_Segm4 S_LSQ L_LSQ L_LSQ2.
Local Open Scope list_scope.

Lemma minus_both a b d p q r m m' f f' : plus_plane a b d m m' -> minus_plane (plane p q r) m f -> minus_plane (plane (p + a) (q + b) (r + d)) m' f' -> same_px f' f.
Proof.
  intros (H1 & H2 & H3) (F1 & F2 & F3) (G1 & G2 & G3). split; [congruence|]. split; [congruence|]. intros j i Hj Hi.
  rewrite G3, F3, H3 by congruence. destruct (px m j i); auto. f_equal. unfold plane. lra.
Qed.
Lemma minus_both_clipped a b d p q r lo m m' f f' : plus_plane a b d m m' -> minus_plane_clipped (plane p q r) lo m f ->
  minus_plane_clipped (plane (p + a) (q + b) (r + d)) lo m' f' -> same_px f' f.
Proof.
  intros (H1 & H2 & H3) (F1 & F2 & F3) (G1 & G2 & G3). split; [congruence|]. split; [congruence|]. intros j i Hj Hi.
  rewrite G3, F3, H3 by congruence. destruct (px m j i); auto. f_equal. f_equal. unfold plane. lra.
Qed.
Lemma minus_exact a b d m m' f : plus_plane a b d m m' -> minus_plane (plane a b d) m' f -> same_px f m.
Proof.
  intros (H1 & H2 & H3) (G1 & G2 & G3). split; [congruence|]. split; [congruence|]. intros j i Hj Hi.
  rewrite G3, H3 by congruence. destruct (px m j i); auto. f_equal. lra.
Qed.
Lemma minus_exact_clipped a b d lo m m' f : plus_plane a b d m m' -> minus_plane_clipped (plane a b d) lo m' f ->
  (forall j i, (j < iny m)%nat -> (i < inx m)%nat -> match px m j i with Fin v => (lo <= v)%R | NInf => False | _ => True end) -> same_px f m.
Proof.
  intros (H1 & H2 & H3) (G1 & G2 & G3) HB. split; [congruence|]. split; [congruence|]. intros j i Hj Hi.
  specialize (HB j i ltac:(congruence) ltac:(congruence)). rewrite G3, H3 by congruence. destruct (px m j i) as [| | |v]; auto; [contradiction|].
  f_equal. replace (v + _ - _)%R with v by lra. now apply Rmax_right.
Qed.

Section Whole.
  Variable overlap : aperture xr -> nat -> nat -> option (nat -> nat -> xr).
  Variable sigma_clip : img xr -> xr -> img bool.
  Variable clipped_stats : img xr -> xr * xr.
  Variables M O : Type.
  Variable planar : M.
  Variable linear : fitter (T:=xr) M O.
  Variable opts : O.
  Variable evalM : M -> smodel (T:=xr).
  Notation sp := (source_photometry overlap sigma_clip clipped_stats M O planar linear opts evalM).

  Lemma background_plane a b d h image image' segm x y size s s' : plus_plane a b d (a_img (deref h image)) (a_img (deref h image')) ->
    background h image segm x y size s -> background h image' segm x y size s' -> plus_plane a b (moved a b d x y size) s s'.
  Proof.
    intros HP (bg & K & C) (bg' & K' & C'). eapply cutout_plane; [|exact C|exact C']. eapply keeps_plane; eauto.
  Qed.

  Lemma good_plane a b d s s' j i : plus_plane a b d s s' -> (good s' j i <-> good s j i).
  Proof.
    intros H. pose proof (plane_nan a b d s s' j i H) as N. destruct H as (H1 & H2 & _). unfold good. rewrite H1, H2. split; intros (A & B & C); repeat split; auto; intros E; apply C; now apply N.
  Qed.

  Lemma many_list s l : many_background s -> row_major (good s) l -> (10 < List.length l)%nat.
  Proof. intros (l' & H & Hn) HL. now rewrite (row_major_unique _ _ _ HL H). Qed.

  Theorem tilt_clip k c image image' segm r_list error cs sigma mb (h : heap xr) size a b d obeys :
    usable h image (c_x c) (c_y c) size -> usable h image' (c_x c) (c_y c) size ->
    (forall e, error = Some e -> usable h e (c_x c) (c_y c) size) ->
    iny segm = iny (a_img (deref h image)) -> inx segm = inx (a_img (deref h image)) ->
    cutout_side cs r_list = Ok size -> (0 < size)%Z ->
    fits_planes linear planar evalM obeys ->
    plus_plane a b d (a_img (deref h image)) (a_img (deref h image')) ->
    (forall s s', background h image segm (c_x c) (c_y c) size s -> background h image' segm (c_x c) (c_y c) size s' ->
       many_background s /\ no_infinity s /\ spread_on (unmasked obeys s (sigma_clip s sigma)) /\
       (obeys = true -> clips_alike (fun s => sigma_clip s sigma) s s')) ->
    fst (sp k (SCat c) image' segm r_list error cs true sigma Clip mb h) = fst (sp k (SCat c) image segm r_list error cs true sigma Clip mb h).
  Proof.
    intros HU HU' HE Hy Hx Hs Hp LS HP HB. pose proof HP as (P1 & P2 & _).
    destruct (subtract_clip overlap sigma_clip clipped_stats M O planar linear opts evalM k c image segm r_list error cs sigma mb h size HU HE Hy Hx Hs Hp)
      as (kept & m & s & l & err & K & C & B & L & E & F).
    destruct (subtract_clip overlap sigma_clip clipped_stats M O planar linear opts evalM k c image' segm r_list error cs sigma mb h size HU' HE
      ltac:(congruence) ltac:(congruence) Hs Hp) as (kept' & m' & s' & l' & err' & K' & C' & B' & L' & E' & F').
    destruct (HB s s' B B') as (HM & HI & HS & HC).
    pose proof (background_plane _ _ _ _ _ _ _ _ _ _ _ _ HP B B') as PS.
    assert (PM : plus_plane a b (moved a b d (c_x c) (c_y c) size) m m') by (eapply cutout_plane; [|exact C|exact C']; eapply keeps_plane; eauto).
    assert (l' = l) as ->.
    { eapply row_major_unique; [exact L'|]. eapply row_major_iff; [|exact L]. intros j i. symmetry. apply (good_plane _ _ _ _ _ j i PS). }
    pose proof (many_list s l HM L) as Hn. specialize (F Hn) as [_ F]. specialize (F' Hn) as [_ F'].
    assert (IN : forall j i, In (j, i) l <-> good s j i) by (intros; apply (proj2 L)).
    destruct (run_shift M O planar linear opts evalM obeys LS s s' (Some (sigma_clip s sigma)) (Some (sigma_clip s' sigma)) l
      (unmasked obeys s (sigma_clip s sigma)) _ _ _ PS) as (fm & f & fm' & f' & p & q & r & R1 & R2 & R3 & R4 & R5 & R6).
    - intros (j, i) Hi. apply IN in Hi. destruct (HI j i Hi) as (v & Ev). destruct Hi as (? & ? & ?). cbn. eauto.
    - exact HS.
    - intros j i (G & N). split; [now apply IN|]. cbn. destruct obeys; cbn; auto. now rewrite N.
    - intros (j, i) Hi. apply IN in Hi. cbn. destruct obeys; cbn; auto. now rewrite (HC eq_refl j i Hi).
    - destruct (F fm f _ R1 R2 R3) as (fin1 & k1 & M1 & W1 & ->). destruct (F' fm' f' _ R4 R5 R6) as (fin2 & k2 & M2 & W2 & ->).
      pose proof (minus_both _ _ _ _ _ _ _ _ _ _ PM M1 M2) as SF.
      apply rp_same; auto. + eapply error_same; eauto. + cbn. eapply mask_same; eauto.
  Qed.

  Theorem flat_clip k c image image' segm r_list error cs sigma mb (h : heap xr) size a b d obeys :
    usable h image (c_x c) (c_y c) size -> usable h image' (c_x c) (c_y c) size ->
    (forall e, error = Some e -> usable h e (c_x c) (c_y c) size) ->
    iny segm = iny (a_img (deref h image)) -> inx segm = inx (a_img (deref h image)) ->
    cutout_side cs r_list = Ok size -> (0 < size)%Z ->
    fits_planes linear planar evalM obeys ->
    plus_plane a b d (a_img (deref h image)) (a_img (deref h image')) ->
    (forall s s', background h image segm (c_x c) (c_y c) size s -> background h image' segm (c_x c) (c_y c) size s' ->
       many_background s /\ (forall j i, good s j i -> px s j i = Fin 0) /\ spread_on (unmasked obeys s' (sigma_clip s' sigma))) ->
    fst (sp k (SCat c) image' segm r_list error cs true sigma Clip mb h) = fst (sp k (SCat c) image segm r_list error cs false sigma Clip mb h).
  Proof.
    intros HU HU' HE Hy Hx Hs Hp LS HP HB. pose proof HP as (P1 & P2 & _).
    destruct (prepared overlap sigma_clip clipped_stats M O planar linear opts evalM k c image segm r_list error cs false sigma Clip mb h size HU HE Hy Hx Hs Hp)
      as (kept & m & bg & s & err & K & C & Kb & Cb & E & F).
    assert (B : background h image segm (c_x c) (c_y c) size s) by now exists bg.
    destruct (subtract_clip overlap sigma_clip clipped_stats M O planar linear opts evalM k c image' segm r_list error cs sigma mb h size HU' HE
      ltac:(congruence) ltac:(congruence) Hs Hp) as (kept' & m' & s' & l' & err' & K' & C' & B' & L' & E' & F').
    destruct (HB s s' B B') as (HM & HZ & HS).
    pose proof (background_plane _ _ _ _ _ _ _ _ _ _ _ _ HP B B') as PS.
    assert (PM : plus_plane a b (moved a b d (c_x c) (c_y c) size) m m') by (eapply cutout_plane; [|exact C|exact C']; eapply keeps_plane; eauto).
    assert (L : row_major (good s) l').
    { eapply row_major_iff; [|exact L']. intros j i. apply (good_plane _ _ _ _ _ j i PS). }
    pose proof (many_list s l' HM L) as Hn. specialize (F' Hn) as [_ F'].
    assert (IN : forall j i, In (j, i) l' <-> good s j i) by (intros; apply (proj2 L)).
    destruct (run_exact M O planar linear opts evalM obeys LS s' (Some (sigma_clip s' sigma)) l' (unmasked obeys s' (sigma_clip s' sigma))
      a b (moved a b d (c_x c) (c_y c) size)) as (fm & f & R1 & R2 & R3).
    - intros (j, i) Hi. apply IN in Hi. pose proof (HZ j i Hi) as Z. destruct Hi as (? & ? & ?). cbn [fst snd]. destruct PS as (_ & _ & PS). rewrite PS, Z by auto.
      f_equal. lra.
    - exact HS.
    - intros j i (G & N). split; [apply IN; now apply (good_plane _ _ _ _ _ j i PS)|]. cbn. destruct obeys; cbn; auto. now rewrite N.
    - destruct (F' fm f _ R1 R2 R3) as (fin2 & k2 & M2 & W2 & ->). rewrite F. cbn [andb bind].
      pose proof (minus_exact _ _ _ _ _ _ PM M2) as SF. destruct C as (C1 & C2 & _). rewrite (centre_num m size C1 C2).
      apply rp_same; auto. + eapply error_same; eauto. + cbn. eapply mask_same; [exact SF|exact W2|apply not_nan_ok].
  Qed.

  Theorem offset_bound k c image image' segm r_list error cs sg mb (h : heap xr) size d obeys :
    usable h image (c_x c) (c_y c) size -> usable h image' (c_x c) (c_y c) size ->
    (forall e, error = Some e -> usable h e (c_x c) (c_y c) size) ->
    iny segm = iny (a_img (deref h image)) -> inx segm = inx (a_img (deref h image)) ->
    cutout_side cs r_list = Ok size -> (0 < size)%Z ->
    fits_planes linear planar evalM obeys ->
    plus_plane 0 0 d (a_img (deref h image)) (a_img (deref h image')) ->
    (forall s s', background h image segm (c_x c) (c_y c) size s -> background h image' segm (c_x c) (c_y c) size s' ->
       many_background s /\ exists mean std, clipped_stats s = (Fin mean, Fin std) /\ clipped_stats s' = (Fin (mean + d), Fin std) /\
       spread_on (inside s mean std sg)) ->
    fst (sp k (SCat c) image' segm r_list error cs true (Fin sg) Bound mb h) = fst (sp k (SCat c) image segm r_list error cs true (Fin sg) Bound mb h).
  Proof.
    intros HU HU' HE Hy Hx Hs Hp LS HP HB. pose proof HP as (P1 & P2 & _).
    destruct (subtract_bound overlap sigma_clip clipped_stats M O planar linear opts evalM k c image segm r_list error cs sg mb h size HU HE Hy Hx Hs Hp)
      as (kept & m & s & err & K & C & B & E & F).
    destruct (subtract_bound overlap sigma_clip clipped_stats M O planar linear opts evalM k c image' segm r_list error cs sg mb h size HU' HE
      ltac:(congruence) ltac:(congruence) Hs Hp) as (kept' & m' & s' & err' & K' & C' & B' & E' & F').
    destruct (HB s s' B B') as (HM & mean & std & T & T' & HS).
    pose proof (background_plane _ _ _ _ _ _ _ _ _ _ _ _ HP B B') as PS.
    assert (PM : plus_plane 0 0 (moved 0 0 d (c_x c) (c_y c) size) m m') by (eapply cutout_plane; [|exact C|exact C']; eapply keeps_plane; eauto).
    assert (HM' : many_background s').
    { destruct HM as (l & H & Hn). exists l. split; auto. eapply row_major_iff; [|exact H]. intros j i. symmetry. apply (good_plane _ _ _ _ _ j i PS). }
    destruct (F mean std HM T) as (l & L & _ & FF). destruct (F' _ std HM' T') as (l' & L' & _ & FF'). clear F F'.
    assert (MV : moved 0 0 d (c_x c) (c_y c) size = d) by (unfold moved; ring). rewrite MV in PS, PM.
    assert (l' = l) as ->.
    { eapply row_major_unique; [exact L'|]. eapply row_major_iff; [|exact L]. intros j i. destruct PS as (S1 & S2 & S3). cbn beta. rewrite S1, S2.
      split; intros (A1 & A2 & v & A3 & A4); split; auto; split; auto.
      - exists (v + d)%R. rewrite S3, A3 by auto. split; [f_equal; unfold plane; lra|lra].
      - rewrite S3 in A3 by auto. destruct (px s j i) as [| | |w]; try discriminate. exists w. split; auto. injection A3 as A3. unfold plane in A3. lra. }
    assert (IN : forall j i, In (j, i) l <-> inside s mean std sg j i) by (intros; apply (proj2 L)).
    destruct (run_shift M O planar linear opts evalM obeys LS s s' None None l (inside s mean std sg) _ _ _ PS)
      as (fm & f & fm' & f' & p & q & r & R1 & R2 & R3 & R4 & R5 & R6).
    - intros (j, i) Hi. apply IN in Hi. destruct Hi as (? & ? & v & ? & _). cbn. eauto.
    - exact HS.
    - intros j i Hi. split; [now apply IN|reflexivity].
    - reflexivity.
    - destruct (FF fm f _ R1 R2 R3) as (fin1 & k1 & M1 & W1 & ->). destruct (FF' fm' f' _ R4 R5 R6) as (fin2 & k2 & M2 & W2 & ->).
      pose proof (minus_both_clipped _ _ _ _ _ _ _ _ _ _ _ PM M1 M2) as SF.
      apply rp_same; auto. + eapply error_same; eauto. + cbn. eapply mask_same; eauto.
  Qed.

  Theorem flat_bound k c image image' segm r_list error cs sg mb (h : heap xr) size a b d obeys :
    usable h image (c_x c) (c_y c) size -> usable h image' (c_x c) (c_y c) size ->
    (forall e, error = Some e -> usable h e (c_x c) (c_y c) size) ->
    iny segm = iny (a_img (deref h image)) -> inx segm = inx (a_img (deref h image)) ->
    cutout_side cs r_list = Ok size -> (0 < size)%Z ->
    fits_planes linear planar evalM obeys ->
    plus_plane a b d (a_img (deref h image)) (a_img (deref h image')) ->
    (forall s s', background h image segm (c_x c) (c_y c) size s -> background h image' segm (c_x c) (c_y c) size s' ->
       many_background s /\ (forall j i, good s j i -> px s j i = Fin 0) /\
       exists mean std, clipped_stats s' = (Fin mean, Fin std) /\ spread_on (inside s' mean std sg)) ->
    (forall j i, (j < iny segm)%nat -> (i < inx segm)%nat -> wanted (c_label c) mb (px segm j i) ->
       match px (a_img (deref h image)) j i with Fin v => (- sg <= v)%R | NInf => False | _ => True end) ->
    fst (sp k (SCat c) image' segm r_list error cs true (Fin sg) Bound mb h) = fst (sp k (SCat c) image segm r_list error cs false (Fin sg) Bound mb h).
  Proof.
    intros HU HU' HE Hy Hx Hs Hp LS HP HB HV. pose proof HP as (P1 & P2 & _).
    destruct (prepared overlap sigma_clip clipped_stats M O planar linear opts evalM k c image segm r_list error cs false (Fin sg) Bound mb h size HU HE Hy Hx Hs Hp)
      as (kept & m & bg & s & err & K & C & Kb & Cb & E & F).
    assert (B : background h image segm (c_x c) (c_y c) size s) by now exists bg.
    destruct (subtract_bound overlap sigma_clip clipped_stats M O planar linear opts evalM k c image' segm r_list error cs sg mb h size HU' HE
      ltac:(congruence) ltac:(congruence) Hs Hp) as (kept' & m' & s' & err' & K' & C' & B' & E' & F').
    destruct (HB s s' B B') as (HM & HZ & mean & std & T & HS).
    pose proof (background_plane _ _ _ _ _ _ _ _ _ _ _ _ HP B B') as PS.
    assert (PM : plus_plane a b (moved a b d (c_x c) (c_y c) size) m m') by (eapply cutout_plane; [|exact C|exact C']; eapply keeps_plane; eauto).
    assert (HM' : many_background s').
    { destruct HM as (l & H & Hn). exists l. split; auto. eapply row_major_iff; [|exact H]. intros j i. symmetry. apply (good_plane _ _ _ _ _ j i PS). }
    destruct (F' mean std HM' T) as (l' & L' & _ & FF'). clear F'.
    assert (IN : forall j i, In (j, i) l' <-> inside s' mean std sg j i) by (intros; apply (proj2 L')).
    destruct (run_exact M O planar linear opts evalM obeys LS s' None l' (inside s' mean std sg)
      a b (moved a b d (c_x c) (c_y c) size)) as (fm & f & R1 & R2 & R3).
    - intros (j, i) Hi. apply IN in Hi. destruct Hi as (Hj & Hi & v & Ev & _). cbn [fst snd].
      assert (G : good s j i) by (apply (good_plane _ _ _ _ _ j i PS); repeat split; auto; congruence).
      pose proof (HZ j i G) as Z. destruct PS as (S1 & S2 & PS). rewrite PS, Z by congruence. f_equal. lra.
    - exact HS.
    - intros j i Hi. split; [now apply IN|reflexivity].
    - destruct (FF' fm f _ R1 R2 R3) as (fin2 & k2 & M2 & W2 & ->). rewrite F. cbn [andb bind].
      assert (SF : same_px fin2 m).
      { eapply minus_exact_clipped; [exact PM|exact M2|]. intros j i Hj Hi. destruct C as (_ & _ & C). destruct (C j i _ _ Hj Hi eq_refl eq_refl) as [Q1 Q2].
        destruct K as (K1 & K2 & K3). rewrite K1, K2 in Q1, Q2.
        match type of Q1 with (?P -> _) => destruct (classic P) as [W|W] end; [|now rewrite Q2].
        rewrite Q1 by auto. set (Y := Z.to_nat _). set (X := Z.to_nat _).
        assert (HY : (Y < iny (a_img (deref h image)))%nat) by (unfold Y; lia). assert (HX : (X < inx (a_img (deref h image)))%nat) by (unfold X; lia).
        destruct (K3 Y X HY HX) as [K4 K5].
        destruct (classic (wanted (c_label c) mb (px segm Y X))) as [V|V]; [rewrite K4 by auto; apply HV; auto; congruence|now rewrite K5]. }
      destruct C as (C1 & C2 & _). rewrite (centre_num m size C1 C2).
      apply rp_same; auto. + eapply error_same; eauto. + cbn. eapply mask_same; [exact SF|exact W2|apply not_nan_ok].
  Qed.
End Whole.
