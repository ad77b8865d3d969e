(** Proofs about source_photometry as a whole. *)
From Coq Require Import String FunctionalExtensionality.
From Verif Require Import Base Num Numpy M_Utils M_Photometry S_Photometry M_PSF M_Fitting S_Fitting M_Segm S_Segm L_Numpy L_Photometry L_PSF
  L_Fitting L_Fitting2 L_Segm L_Segm2 L_Segm3.
Local Open Scope list_scope.

Section Whole.
  Variable overlap : aperture xr -> nat -> nat -> option (nat -> nat -> xr).
  Variable sigma_clip : img xr -> xr -> img bool.
  Variable clipped_stats : img xr -> xr * xr.
  Variables M O : Type.
  Variable planar : M.
  Variable linear : fitter (T:=xr) M O.
  Variable opts : O.
  Variable evalM : M -> smodel (T:=xr).
  Notation sp := (source_photometry overlap sigma_clip clipped_stats M O planar linear opts evalM).
  Notation pp := (pure_photometry overlap sigma_clip clipped_stats M O planar linear opts evalM).


  Lemma to_pure k src image segm r_list error cs bg_sub sigma kind mb (h : heap xr) : valid h image -> valid_error h error ->
    fst (sp k src image segm r_list error cs bg_sub sigma kind mb h) =
    pp k src (deref h image) segm r_list (option_map (deref h) error) cs bg_sub sigma kind mb.
  Proof.
    intros V VE. destruct (photometry_pure overlap sigma_clip clipped_stats M O planar linear opts evalM k src image segm r_list error cs bg_sub sigma kind mb h) as (t & E); auto.
    - intros e ->. exact VE.
    - unfold photometry in E. now rewrite E.
  Qed.

  Theorem arguments_unchanged k src image segm r_list error cs bg_sub sigma kind mb (h : heap xr) : valid h image -> valid_error h error ->
    exists t, snd (sp k src image segm r_list error cs bg_sub sigma kind mb h) = h ++ t.
  Proof.
    intros V VE. destruct (photometry_pure overlap sigma_clip clipped_stats M O planar linear opts evalM k src image segm r_list error cs bg_sub sigma kind mb h) as (t & E); auto.
    - intros e ->. exact VE.
    - unfold photometry in E. rewrite E. now exists t.
  Qed.

  (** ** Background subtraction *)
  Lemma subtract_shape m s size sigma kind f : subtract sigma_clip clipped_stats M O planar linear opts evalM m s size sigma kind = Ok f ->
    iny f = iny m /\ inx f = inx m.
  Proof.
    unfold subtract. intros H. apply bind_Ok in H as (bg & _ & H). apply bind_Ok in H as (fitted & _ & H). apply bind_Ok in H as (mi & _ & H).
    destruct (_ && _)%bool; [|discriminate]. injection H as <-. destruct kind; auto.
  Qed.

  (** the aperture centre is pixel (side/2, side/2) of a square of that side *)
  Theorem centre k c image segm r_list error cs bg_sub sigma kind mb (h : heap xr) size res : valid h image -> valid_error h error ->
    cutout_side cs r_list = Ok size ->
    fst (sp k c image segm r_list error cs bg_sub sigma kind mb h) = Ok res ->
    exists r final err mask half, source_row c = Ok r /\
      Z.of_nat (iny final) = size /\ Z.of_nat (inx final) = size /\ size = (2 * half)%Z /\
      (forall j i, (j < iny final)%nat -> (i < inx final)%nat -> px mask j i = true <-> px final j i <> NaN) /\
      radial_photometry overlap k final (Fin (IZR half), Fin (IZR half)) r_list err (Some mask) (c_elong r) (c_theta r) = Ok res.
  Proof.
    intros V VE Hs. rewrite to_pure by auto. unfold pure_photometry. intros H.
    apply bind_Ok in H as (r & Er & H). rewrite Hs in H. cbn [bind] in H. apply bind_Ok in H as (er & _ & H).
    apply bind_Ok in H as (full & _ & H). apply bind_Ok in H as (m & Em & H). apply bind_Ok in H as (bgf & _ & H). apply bind_Ok in H as (s & _ & H).
    apply bind_Ok in H as (final & Ef & H). destruct (cut_square _ _ _ _ _ Em) as (My & Mx & Hp).
    assert (S : iny final = Z.to_nat size /\ inx final = Z.to_nat size).
    { destruct (_ && _)%bool in Ef; [|now injection Ef as <-]. apply subtract_shape in Ef. now rewrite My, Mx in Ef. }
    destruct S as [Sy Sx]. apply side_even in Hs. apply Z.even_spec in Hs as (half & ->).
    exists r, final, er, (not_nan final), half. split; [exact Er|]. split; [lia|]. split; [lia|]. split; [reflexivity|]. split.
    - intros j i _ _. cbn. destruct (px final j i); cbn; split; congruence.
    - rewrite <- H. f_equal. rewrite Sy, Sx, !nofnat_xr, INR_IZR_INZ, Z2Nat.id by lia. unfold n2, nlit. cbn [nofZ ndiv XRnum xdiv].
      rewrite (Reqb_false 2 0) by lra. rewrite mult_IZR. f_equal; f_equal; lra.
  Qed.

  (** ** Without background subtraction *)


  Lemma prepared k c image segm r_list error cs bg_sub sigma kind mb (h : heap xr) size :
    usable h image (c_x c) (c_y c) size -> (forall e, error = Some e -> usable h e (c_x c) (c_y c) size) ->
    iny segm = iny (a_img (deref h image)) -> inx segm = inx (a_img (deref h image)) ->
    cutout_side cs r_list = Ok size -> (0 < size)%Z ->
    exists kept m bg s err,
      keeps (wanted (c_label c) mb) segm (a_img (deref h image)) kept /\ is_cutout kept (c_x c) (c_y c) size m /\
      keeps (fun z => z = 0%Z) segm (a_img (deref h image)) bg /\ is_cutout bg (c_x c) (c_y c) size s /\
      error_cutout h error (c_x c) (c_y c) size err /\
      fst (sp k (SCat c) image segm r_list error cs bg_sub sigma kind mb h) =
      (do final <- (if bg_sub && (10 <? List.length (good_pixels s))%nat
                    then subtract sigma_clip clipped_stats M O planar linear opts evalM m s size sigma kind else Ok m);
       radial_photometry overlap k final (nofnat (iny final) / n2, nofnat (inx final) / n2)%num r_list err (Some (not_nan final)) (c_elong c) (c_theta c)).
  Proof.
    intros (V & HT & HO) HE Hy Hx Hs Hp.
    assert (VE : valid_error h error) by (destruct error; cbn; auto; now apply HE).
    destruct (masked_float (LCat (c_label c)) (deref h image) segm mb HT Hy Hx) as (full & Ef & Tf & Fy & Fx).
    destruct (masked_float (LInt 0) (deref h image) segm false HT Hy Hx) as (bgf & Eb & Tb & By & Bx).
    assert (Of : overlaps (a_img full) (c_x c) (c_y c) size) by (unfold overlaps in *; now rewrite Fy, Fx).
    assert (Ob : overlaps (a_img bgf) (c_x c) (c_y c) size) by (unfold overlaps in *; now rewrite By, Bx).
    destruct (cut_ok full _ _ _ Hp Of Tf) as (m & Em). destruct (cut_ok bgf _ _ _ Hp Ob Tb) as (s & Es).
    destruct (masked_keeps _ _ _ _ _ (c_label c) (or_intror eq_refl) Ef) as (_ & _ & Kf & _).
    destruct (masked_keeps _ _ _ _ _ 0%Z (or_introl eq_refl) Eb) as (_ & _ & Kb & _).
    assert (exists err, error_cutout h error (c_x c) (c_y c) size err /\
      match option_map (deref h) error with None => Ok None | Some e => do x <- cut e (c_x c) (c_y c) size; Ok (Some x) end = Ok err)
      as (err & Ec & Ee).
    { destruct error as [e|]; cbn [option_map].
      - destruct (HE e eq_refl) as (Ve & Te & Oe). destruct (cut_ok _ _ _ _ Hp Oe Te) as (x & Ex). exists (Some x). rewrite Ex. split; auto.
        cbn. now apply cut_is.
      - exists None. cbn. auto. }
    exists (a_img full), m, (a_img bgf), s, err. split; [exact Kf|]. split; [now apply cut_is|].
    split. { destruct Kb as (K1 & K2 & K3). split; auto. split; auto. intros j i Hj Hi. destruct (K3 j i Hj Hi) as (K4 & K5). split; intros K.
      - apply K4. now left. - apply K5. intros [K'|[K' _]]; auto. }
    split; [now apply cut_is|]. split; [exact Ec|].
    rewrite to_pure by auto. unfold pure_photometry. cbn [source_row bind as_arg]. rewrite Hs. cbn [bind]. rewrite Ee. cbn [bind].
    rewrite Ef. cbn [bind]. rewrite Em. cbn [bind]. rewrite Eb. cbn [bind]. rewrite Es. cbn [bind]. reflexivity.
  Qed.

  Lemma not_nan_ok m : mask_of m (not_nan m).
  Proof. unfold mask_of. repeat split; cbn; destruct (px m j i); cbn; congruence. Qed.

  Lemma centre_num (m : img xr) size : Z.of_nat (iny m) = size -> Z.of_nat (inx m) = size ->
    (nofnat (iny m) / n2, nofnat (inx m) / n2)%num = (Fin (IZR size / 2), Fin (IZR size / 2)).
  Proof.
    intros Hy Hx. rewrite !nofnat_xr, !INR_IZR_INZ, Hy, Hx. unfold n2, nlit. cbn [nofZ ndiv XRnum xdiv].
    now rewrite (Reqb_false 2 0) by lra.
  Qed.

  Theorem plain k c image segm r_list error cs sigma kind mb (h : heap xr) size :
    usable h image (c_x c) (c_y c) size -> (forall e, error = Some e -> usable h e (c_x c) (c_y c) size) ->
    iny segm = iny (a_img (deref h image)) -> inx segm = inx (a_img (deref h image)) ->
    cutout_side cs r_list = Ok size -> (0 < size)%Z ->
    exists kept m err mask,
      keeps (wanted (c_label c) mb) segm (a_img (deref h image)) kept /\ is_cutout kept (c_x c) (c_y c) size m /\
      error_cutout h error (c_x c) (c_y c) size err /\ mask_of m mask /\
      fst (sp k (SCat c) image segm r_list error cs false sigma kind mb h) =
      radial_photometry overlap k m (Fin (IZR size / 2), Fin (IZR size / 2)) r_list err (Some mask) (c_elong c) (c_theta c).
  Proof.
    intros HU HE Hy Hx Hs Hp.
    destruct (prepared k c image segm r_list error cs false sigma kind mb h size HU HE Hy Hx Hs Hp) as (kept & m & bg & s & err & H1 & H2 & _ & _ & H5 & H6).
    exists kept, m, err, (not_nan m). split; auto. split; auto. split; auto. split; [apply not_nan_ok|]. rewrite H6. cbn [andb bind].
    f_equal. destruct H2 as (A & B & _). now apply centre_num.
  Qed.

  (** ** Few background pixels: nothing is subtracted *)
  Lemma few_pixels s l : row_major (fun j i => (j < iny s)%nat /\ (i < inx s)%nat /\ px s j i <> NaN) l -> good_pixels s = l.
  Proof. intros H. eapply row_major_unique; [apply good_pixels_ok|exact H]. Qed.


  Lemma background_unique h image segm x y size s s' : background h image segm x y size s -> background h image segm x y size s' -> same_data s s'.
  Proof.
    intros (bg & (K1 & K2 & K3) & (C1 & C2 & C3)) (bg' & (K1' & K2' & K3') & (C1' & C2' & C3')). unfold same_data.
    assert (iny s = iny s') by lia. assert (inx s = inx s') by lia. split; auto. split; auto. intros j i Hj Hi.
    destruct (C3 j i _ _ Hj Hi eq_refl eq_refl) as (A1 & A2).
    destruct (C3' j i _ _ ltac:(lia) ltac:(lia) eq_refl eq_refl) as (B1 & B2). rewrite K1, K2 in A1, A2. rewrite K1', K2' in B1, B2.
    set (Y := (y + (Z.of_nat j - size / 2))%Z) in *. set (X := (x + (Z.of_nat i - size / 2))%Z) in *.
    destruct (Z_le_dec 0 Y); [|rewrite A2, B2 by lia; auto].
    destruct (Z_lt_dec Y (Z.of_nat (iny (a_img (deref h image))))); [|rewrite A2, B2 by lia; auto].
    destruct (Z_le_dec 0 X); [|rewrite A2, B2 by lia; auto].
    destruct (Z_lt_dec X (Z.of_nat (inx (a_img (deref h image))))); [|rewrite A2, B2 by lia; auto].
    rewrite A1, B1 by lia. destruct (K3 (Z.to_nat Y) (Z.to_nat X) ltac:(lia) ltac:(lia)) as (P1 & P2).
    destruct (K3' (Z.to_nat Y) (Z.to_nat X) ltac:(lia) ltac:(lia)) as (Q1 & Q2).
    destruct (Z.eq_dec (px segm (Z.to_nat Y) (Z.to_nat X)) 0) as [E|E]; [now rewrite P1, Q1 | now rewrite P2, Q2].
  Qed.

  Theorem few_skipped k c image segm r_list error cs sigma kind mb (h : heap xr) size s l :
    usable h image (c_x c) (c_y c) size -> (forall e, error = Some e -> usable h e (c_x c) (c_y c) size) ->
    iny segm = iny (a_img (deref h image)) -> inx segm = inx (a_img (deref h image)) ->
    cutout_side cs r_list = Ok size -> (0 < size)%Z ->
    background h image segm (c_x c) (c_y c) size s ->
    row_major (fun j i => (j < iny s)%nat /\ (i < inx s)%nat /\ px s j i <> NaN) l -> (List.length l <= 10)%nat ->
    fst (sp k (SCat c) image segm r_list error cs true sigma kind mb h) = fst (sp k (SCat c) image segm r_list error cs false sigma kind mb h).
  Proof.
    intros HU HE Hy Hx Hs Hp HB HL Hn. apply few_pixels in HL. subst l.
    assert (PS : forall b, exists full m bgf s', masked [] (as_arg (SCat c)) (deref h image) segm (Some NaN) mb = Ok full /\ cut full (c_x c) (c_y c) size = Ok m /\
       masked [] (AItem (LInt 0)) (deref h image) segm (Some NaN) false = Ok bgf /\ cut bgf (c_x c) (c_y c) size = Ok s' /\ (b = true -> background h image segm (c_x c) (c_y c) size s')).
    { intros b. destruct HU as (V & HT & HO).
      destruct (masked_float (LCat (c_label c)) (deref h image) segm mb HT Hy Hx) as (full & Ef & Tf & Fy & Fx).
      destruct (masked_float (LInt 0) (deref h image) segm false HT Hy Hx) as (bgf & Eb & Tb & By & Bx).
      assert (Of : overlaps (a_img full) (c_x c) (c_y c) size) by (unfold overlaps in *; now rewrite Fy, Fx).
      assert (Ob : overlaps (a_img bgf) (c_x c) (c_y c) size) by (unfold overlaps in *; now rewrite By, Bx).
      destruct (cut_ok full _ _ _ Hp Of Tf) as (m & Em). destruct (cut_ok bgf _ _ _ Hp Ob Tb) as (s' & Es).
      exists full, m, bgf, s'. repeat (split; [assumption|]). intros _.
      destruct (masked_keeps _ _ _ _ _ 0%Z (or_introl eq_refl) Eb) as (_ & _ & (K1 & K2 & K3) & _).
      exists (a_img bgf). split; [|now apply cut_is]. split; auto. split; auto. intros j i Hj Hi. destruct (K3 j i Hj Hi) as (K4 & K5). split; intros K.
      - apply K4. now left. - apply K5. intros [K'|[K' _]]; auto. }
    destruct (PS true) as (full & m & bgf & s' & E1 & E2 & E3 & E4 & B). specialize (B eq_refl).
    assert (VE : valid_error h error) by (destruct error; cbn; auto; now apply HE).
    rewrite !to_pure by (auto; apply HU). unfold pure_photometry. cbn [source_row bind]. rewrite Hs. cbn [bind].
    destruct (match option_map (deref h) error with None => Ok None | Some e => do x <- cut e (c_x c) (c_y c) size; Ok (Some x) end); cbn [bind]; auto.
    rewrite E1. cbn [bind]. rewrite E2. cbn [bind]. rewrite E3. cbn [bind]. rewrite E4. cbn [bind andb].
    rewrite (good_pixels_same s' s) by (eapply background_unique; eauto).
    destruct (Nat.ltb_spec 10 (List.length (good_pixels s))); auto. lia.
  Qed.

  (** ** Enough background pixels *)

  Lemma many_ltb s : many_background s -> (10 <? List.length (good_pixels s))%nat = true.
  Proof. intros (l & H & Hn). apply few_pixels in H. subst l. now apply Nat.ltb_lt. Qed.

  Lemma model_image f g size (m : img xr) : real_function f g -> (0 < size)%Z -> Z.of_nat (iny m) = size -> Z.of_nat (inx m) = size ->
    exists mi, model_to_image (pointwise f) (VInt size) false Center 1 None = Ok mi /\ iny mi = iny m /\ inx mi = inx m /\
      forall j i, (j < iny m)%nat -> (i < inx m)%nat -> px mi j i = Fin (g (INR i) (INR j)).
  Proof.
    intros Hf Hp Hy Hx. destruct (center_pixels f g (VInt size) false 1 None size size 0%R 0%R Hf) as (mi & E & Iy & Ix & Ip).
    { constructor. now left. } { cbn. auto. }
    exists mi. split; auto. split; [lia|]. split; [lia|]. intros j i Hj Hi. rewrite Ip by lia. now rewrite !Rplus_0_l.
  Qed.


  Definition call_fit (d : fitdata (T:=xr)) : result M := ft_run linear false planar d (if ft_iterative linear then Some opts else None).

  Lemma fit_none (bg : img xr * option (img bool)) : fit_model M O bg planar None linear false opts =
    (do m <- call_fit (mkfd (map snd (good_pixels (fst bg))) (map fst (good_pixels (fst bg)))
               (map (fun p => px (fst bg) (fst p) (snd p)) (good_pixels (fst bg)))
               (option_map (fun a => map (fun p => px a (fst p) (snd p)) (good_pixels (fst bg))) (snd bg)) None);
     Ok (m, linear)).
  Proof. reflexivity. Qed.

  Theorem subtract_clip k c image segm r_list error cs sigma mb (h : heap xr) size :
    usable h image (c_x c) (c_y c) size -> (forall e, error = Some e -> usable h e (c_x c) (c_y c) size) ->
    iny segm = iny (a_img (deref h image)) -> inx segm = inx (a_img (deref h image)) ->
    cutout_side cs r_list = Ok size -> (0 < size)%Z ->
    exists kept m s l err,
      keeps (wanted (c_label c) mb) segm (a_img (deref h image)) kept /\ is_cutout kept (c_x c) (c_y c) size m /\
      background h image segm (c_x c) (c_y c) size s /\
      row_major (fun j i => (j < iny s)%nat /\ (i < inx s)%nat /\ px s j i <> NaN) l /\
      error_cutout h error (c_x c) (c_y c) size err /\
      ((10 < List.length l)%nat ->
       let values {A} (a : img A) := map (fun p => px a (fst p) (snd p)) l in
       let fit := call_fit (mkfd (map snd l) (map fst l) (values s) (Some (values (sigma_clip s sigma))) None) in
       let res := fst (sp k (SCat c) image segm r_list error cs true sigma Clip mb h) in
       (forall e, fit = Err e -> res = Err e) /\
       (forall fm f g, fit = Ok fm -> evalM fm = pointwise f -> real_function f g ->
         exists final mask, minus_plane g m final /\ mask_of final mask /\
           res = radial_photometry overlap k final (Fin (IZR size / 2), Fin (IZR size / 2)) r_list err (Some mask) (c_elong c) (c_theta c))).
  Proof.
    intros HU HE Hy Hx Hs Hp.
    destruct (prepared k c image segm r_list error cs true sigma Clip mb h size HU HE Hy Hx Hs Hp) as (kept & m & bg & s & err & H1 & H2 & H3 & H4 & H5 & H6).
    exists kept, m, s, (good_pixels s), err. split; auto. split; auto. split; [now exists bg|]. split; [apply good_pixels_ok|]. split; auto.
    intros Hn values fit res. assert (E : (10 <? List.length (good_pixels s))%nat = true) by now apply Nat.ltb_lt.
    unfold res. rewrite H6, E. cbn [andb]. unfold subtract. cbn [bg_image bind]. rewrite fit_none. cbn [fst snd option_map]. fold (values xr s).
    fold (values bool (sigma_clip s sigma)). fold fit. destruct H2 as (My & Mx & _). split.
    - intros e ->. reflexivity.
    - intros fm f g -> Ev Hf. cbn [bind fst]. rewrite Ev. destruct (model_image f g size m Hf Hp My Mx) as (mi & -> & Iy & Ix & Ip).
      cbn [bind]. rewrite Iy, Ix, !Nat.eqb_refl. cbn [andb bind]. set (d := pmap _ m). exists d, (not_nan d). split; [|split; [apply not_nan_ok|]].
      + split; auto. split; auto. intros j i Hj Hi. unfold d, pmap. cbn [px]. destruct (Nat.ltb_spec j (iny m)); [|lia]. destruct (Nat.ltb_spec i (inx m)); [|lia].
        cbn [andb]. rewrite Ip by auto. destruct (px m j i); reflexivity.
      + f_equal. now apply centre_num.
  Qed.

  Lemma row_major_iff (P Q : nat -> nat -> Prop) l : (forall j i, P j i <-> Q j i) -> row_major P l -> row_major Q l.
  Proof. intros E [H1 H2]. split; auto. intros j i. now rewrite H2. Qed.

  Theorem subtract_bound k c image segm r_list error cs sg mb (h : heap xr) size :
    usable h image (c_x c) (c_y c) size -> (forall e, error = Some e -> usable h e (c_x c) (c_y c) size) ->
    iny segm = iny (a_img (deref h image)) -> inx segm = inx (a_img (deref h image)) ->
    cutout_side cs r_list = Ok size -> (0 < size)%Z ->
    exists kept m s err,
      keeps (wanted (c_label c) mb) segm (a_img (deref h image)) kept /\ is_cutout kept (c_x c) (c_y c) size m /\
      background h image segm (c_x c) (c_y c) size s /\
      error_cutout h error (c_x c) (c_y c) size err /\
      forall mean std, many_background s -> clipped_stats s = (Fin mean, Fin std) ->
       exists l, row_major (fun j i => (j < iny s)%nat /\ (i < inx s)%nat /\
           exists v, px s j i = Fin v /\ (mean - std * sg <= v <= mean + std * sg)%R) l /\
       let fit := call_fit (mkfd (map snd l) (map fst l) (map (fun p => px s (fst p) (snd p)) l) None None) in
       let res := fst (sp k (SCat c) image segm r_list error cs true (Fin sg) Bound mb h) in
       (forall e, fit = Err e -> res = Err e) /\
       (forall fm f g, fit = Ok fm -> evalM fm = pointwise f -> real_function f g ->
         exists final mask, minus_plane_clipped g (- sg) m final /\ mask_of final mask /\
           res = radial_photometry overlap k final (Fin (IZR size / 2), Fin (IZR size / 2)) r_list err (Some mask) (c_elong c) (c_theta c)).
  Proof.
    intros HU HE Hy Hx Hs Hp.
    destruct (prepared k c image segm r_list error cs true (Fin sg) Bound mb h size HU HE Hy Hx Hs Hp) as (kept & m & bg & s & err & H1 & H2 & H3 & H4 & H5 & H6).
    exists kept, m, s, err. split; auto. split; auto. split; [now exists bg|]. split; auto.
    intros mean std HM HC. set (s' := bound_out clipped_stats s (Fin sg)).
    assert (PX : forall j i, (j < iny s)%nat -> (i < inx s)%nat ->
      (exists v, px s j i = Fin v /\ (mean - std * sg <= v <= mean + std * sg)%R /\ px s' j i = Fin v) \/
      (px s' j i = NaN /\ ~ exists v, px s j i = Fin v /\ (mean - std * sg <= v <= mean + std * sg)%R)).
    { intros j i Hj Hi. unfold s', bound_out. rewrite HC. cbn [pmap px iny inx].
      destruct (Nat.ltb_spec j (iny s)); [|lia]. destruct (Nat.ltb_spec i (inx s)); [|lia]. cbn [andb].
      destruct (px s j i) as [| | |v]; cbn [nadd nsub nmul nltb XRnum xadd xsub xopp xmul xltb].
      - right. split; auto. now intros (v & ? & _).
      - right. split; auto. now intros (v & ? & _).
      - right. split; auto. now intros (v & ? & _).
      - destruct (Rltb_spec (mean + std * sg) v); cbn [xltb].
        + right. split; auto. intros (w & [= <-] & K). lra.
        + destruct (Rltb_spec v (mean + - (std * sg))).
          * right. split; auto. intros (w & [= <-] & K). lra.
          * left. exists v. split; auto. split; auto. lra. }
    assert (Sy : iny s' = iny s /\ inx s' = inx s) by (unfold s', bound_out; rewrite HC; auto). destruct Sy as [Sy Sx].
    exists (good_pixels s'). split.
    { eapply row_major_iff; [|apply good_pixels_ok]. intros j i. cbn beta. rewrite Sy, Sx. split.
      - intros (A & B & C). repeat split; auto. destruct (PX j i A B) as [(v & P1 & P2 & _)|[P _]]; [eauto|contradiction].
      - intros (A & B & C). repeat split; auto. destruct (PX j i A B) as [(v & P1 & P2 & P3)|[_ P]]; [congruence|contradiction]. }
    assert (VV : map (fun p => px s' (fst p) (snd p)) (good_pixels s') = map (fun p => px s (fst p) (snd p)) (good_pixels s')).
    { apply map_ext_in. intros (j, i) K. destruct (good_pixels_ok s') as [_ G]. apply G in K. destruct K as (A & B & C). cbn [fst snd].
      rewrite Sy in A. rewrite Sx in B. destruct (PX j i A B) as [(v & P1 & P2 & P3)|[P _]]; [congruence|contradiction]. }
    intros fit res. unfold res. rewrite H6, (many_ltb s HM). cbn [andb]. unfold subtract. cbn [bg_image bind]. fold s'. rewrite fit_none. cbn [fst snd option_map].
    rewrite VV. fold fit. destruct H2 as (My & Mx & _). split.
    - intros e ->. reflexivity.
    - intros fm f g -> Ev Hf. cbn [bind fst]. rewrite Ev. destruct (model_image f g size m Hf Hp My Mx) as (mi & -> & Iy & Ix & Ip).
      cbn [bind]. rewrite Iy, Ix, !Nat.eqb_refl. cbn [andb bind iny inx]. set (d := mkimg (iny (pmap _ m)) _ _). exists d, (not_nan d). split; [|split; [apply not_nan_ok|]].
      + split; auto. split; auto. intros j i Hj Hi. unfold d, pmap. cbn [px]. destruct (Nat.ltb_spec j (iny m)); [|lia]. destruct (Nat.ltb_spec i (inx m)); [|lia].
        cbn [andb]. rewrite Ip by auto. unfold clip_below, nopp, n0, nlit. 
        cbn [nsub nofZ XRnum xsub xopp xadd]. replace (0 + - sg)%R with (- sg)%R by lra.
        destruct (px m j i) as [| | |v]; try reflexivity. cbn. unfold Rmax. destruct (Rltb_spec (v + - g (INR i) (INR j)) (- sg)), (Rle_dec (- sg) (v - g (INR i) (INR j))); f_equal; lra.
      + f_equal. apply centre_num; auto.
  Qed.

  Theorem other_type k c image segm r_list error cs sigma mb (h : heap xr) size s :
    usable h image (c_x c) (c_y c) size -> (forall e, error = Some e -> usable h e (c_x c) (c_y c) size) ->
    iny segm = iny (a_img (deref h image)) -> inx segm = inx (a_img (deref h image)) ->
    cutout_side cs r_list = Ok size -> (0 < size)%Z ->
    background h image segm (c_x c) (c_y c) size s -> many_background s ->
    fst (sp k (SCat c) image segm r_list error cs true sigma OtherKind mb h) = Err TypeError.
  Proof.
    intros HU HE Hy Hx Hs Hp HB HM.
    destruct (prepared k c image segm r_list error cs true sigma OtherKind mb h size HU HE Hy Hx Hs Hp) as (kept & m & bg & s' & err & H1 & H2 & H3 & H4 & H5 & H6).
    rewrite H6. assert (HB' : background h image segm (c_x c) (c_y c) size s') by now exists bg.
    rewrite (good_pixels_same s' s) by (eapply background_unique; eauto). now rewrite (many_ltb s HM).
  Qed.

  (** ** Rejected inputs *)
  Theorem row_rejected k c image segm r_list error cs bg_sub sigma kind mb (h : heap xr) : valid h image -> valid_error h error ->
    (forall res, fst (sp k (SRow c) image segm r_list error cs bg_sub sigma kind mb h) <> Ok res) /\
    (error = None -> forall size, cutout_side cs r_list = Ok size ->
      fst (sp k (SRow c) image segm r_list error cs bg_sub sigma kind mb h) = Err TypeError).
  Proof.
    intros V VE. rewrite to_pure by auto. unfold pure_photometry. cbn [source_row bind as_arg]. split.
    - intros res H. apply bind_Ok in H as (size & Es & H). apply bind_Ok in H as (er & _ & H). discriminate.
    - intros -> size ->. reflexivity.
  Qed.

  Theorem int_rejected k c image segm r_list cs bg_sub sigma kind mb (h : heap xr) size : valid h image ->
    a_type (deref h image) = DInt -> iny segm = iny (a_img (deref h image)) -> inx segm = inx (a_img (deref h image)) ->
    cutout_side cs r_list = Ok size ->
    fst (sp k (SCat c) image segm r_list None cs bg_sub sigma kind mb h) = Err ValueError.
  Proof.
    intros V HT Hy Hx Hs. rewrite to_pure by (cbn; auto). unfold pure_photometry. cbn [source_row bind as_arg option_map]. rewrite Hs. cbn [bind].
    now rewrite masked_int.
  Qed.

  Theorem away_rejected k c image segm r_list cs bg_sub sigma kind mb (h : heap xr) size : valid h image ->
    a_type (deref h image) = DFloat -> iny segm = iny (a_img (deref h image)) -> inx segm = inx (a_img (deref h image)) ->
    (0 < iny segm)%nat -> (0 < inx segm)%nat -> cutout_side cs r_list = Ok size ->
    (0 < size)%Z -> ~ overlaps (a_img (deref h image)) (c_x c) (c_y c) size ->
    fst (sp k (SCat c) image segm r_list None cs bg_sub sigma kind mb h) = Err ValueError.
  Proof.
    intros V HT Hy Hx Py Px Hs Hp HO. rewrite to_pure by (cbn; auto). unfold pure_photometry. cbn [source_row bind as_arg option_map]. rewrite Hs. cbn [bind].
    destruct (masked_float (LCat (c_label c)) (deref h image) segm mb HT Hy Hx) as (full & -> & Tf & Fy & Fx). cbn [bind].
    replace (cut full (c_x c) (c_y c) size) with (@Err (img xr) ValueError); auto. symmetry.
    destruct (cut_away full (c_x c) (c_y c) size) as [E|[E|E]]; auto; try lia. unfold overlaps in *. now rewrite Fy, Fx.
  Qed.

  (** ** Other sources have no influence *)

  Lemma bg_exists label mb a segm f x y size m : masked [] (AItem (LCat label)) a segm (Some NaN) mb = Ok f -> cut f x y size = Ok m ->
    exists b s, masked [] (AItem (LInt 0)) a segm (Some NaN) false = Ok b /\ cut b x y size = Ok s.
  Proof.
    intros Ef Ec. destruct (masked_keeps _ _ _ _ _ label (or_intror eq_refl) Ef) as (T1 & T2 & (K1 & K2 & _) & Y & X).
    destruct (masked_float (LInt 0) a segm false T1 Y X) as (b & Eb & Tb & By & Bx). exists b.
    unfold cut in *. rewrite By, Bx, Tb. rewrite K1, K2 in Ec. destruct (size <=? 0)%Z; [discriminate|].
    destruct (_ || _)%bool; [discriminate|]. rewrite orb_true_r. eauto.
  Qed.

  Theorem others_irrelevant k c image1 image2 segm r_list error cs bg_sub sigma kind mb (h : heap xr) :
    valid h image1 -> valid h image2 -> valid_error h error ->
    a_type (deref h image1) = a_type (deref h image2) ->
    agree_on (used_labels (c_label c) mb bg_sub) segm (a_img (deref h image1)) (a_img (deref h image2)) ->
    fst (sp k (SCat c) image1 segm r_list error cs bg_sub sigma kind mb h) = fst (sp k (SCat c) image2 segm r_list error cs bg_sub sigma kind mb h).
  Proof.
    intros V1 V2 VE HT HA. rewrite !to_pure by auto. unfold pure_photometry. cbn [source_row bind as_arg].
    destruct (cutout_side cs r_list) as [size|]; cbn [bind]; auto.
    destruct (match option_map (deref h) error with None => Ok None | Some e => do x <- cut e (c_x c) (c_y c) size; Ok (Some x) end); cbn [bind]; auto.
    assert (A1 : agree_on (requested [LCat (c_label c)] mb) segm (a_img (deref h image1)) (a_img (deref h image2))).
    { destruct HA as (A & B & C). split; auto. split; auto. intros j i Hj Hi K. apply C; auto. left. now apply requested_one in K. }
    pose proof (masked_same [] (AItem (LCat (c_label c))) _ _ segm mb _ eq_refl HT A1) as S1.
    destruct (masked [] (AItem (LCat (c_label c))) (deref h image1) segm (Some NaN) mb) as [f1|] eqn:F1,
             (masked [] (AItem (LCat (c_label c))) (deref h image2) segm (Some NaN) mb) as [f2|] eqn:F2; try contradiction; cbn [bind]; [|congruence].
    pose proof (cut_same _ _ (c_x c) (c_y c) size S1) as CE. rewrite CE. destruct (cut f2 (c_x c) (c_y c) size) as [m|] eqn:Em; cbn [bind]; auto.
    destruct bg_sub.
    - assert (A2 : agree_on (requested [LInt 0] false) segm (a_img (deref h image1)) (a_img (deref h image2))).
      { destruct HA as (A & B & C). split; auto. split; auto. intros j i Hj Hi K. apply C; auto. right. apply requested_one in K. cbn in K. destruct K as [K|[K _]]; auto. }
      pose proof (masked_same [] (AItem (LInt 0)) _ _ segm false _ eq_refl HT A2) as S2.
      destruct (masked [] (AItem (LInt 0)) (deref h image1) segm (Some NaN) false) as [b1|],
               (masked [] (AItem (LInt 0)) (deref h image2) segm (Some NaN) false) as [b2|]; try contradiction; cbn [bind]; [|congruence].
      rewrite (cut_same _ _ (c_x c) (c_y c) size S2). reflexivity.
    - (* the background cutout is made but not used *)
      cbn [andb].
      destruct (bg_exists _ _ _ _ _ _ _ _ _ F1 CE) as (b1 & s1 & -> & E1). destruct (bg_exists _ _ _ _ _ _ _ _ _ F2 Em) as (b2 & s2 & -> & E2).
      cbn [bind]. rewrite E1, E2. reflexivity.
  Qed.

  Lemma subtract_nan m s size sigma kind f j i : subtract sigma_clip clipped_stats M O planar linear opts evalM m s size sigma kind = Ok f ->
    px m j i = NaN -> px f j i = NaN.
  Proof.
    unfold subtract. intros H HN. apply bind_Ok in H as (bg & _ & H). apply bind_Ok in H as (fitted & _ & H). apply bind_Ok in H as (mi & _ & H).
    destruct (_ && _)%bool; [|discriminate]. injection H as <-. 
    assert (K : px (pmap (fun j i old => (old - px mi j i)%num) m) j i = NaN).
    { cbn [pmap px]. destruct (_ && _)%bool; auto. rewrite HN. reflexivity. }
    destruct kind; [exact K| |exact K].
    match goal with |- px ?a j i = NaN => change (clip_below (nopp sigma) (px (pmap (fun j i old => (old - px mi j i)%num) m) j i) = NaN) end.
    rewrite K. reflexivity.
  Qed.

  (** errors of pixels that do not count have no influence *)
  Theorem errors_irrelevant k c image segm r_list e1 e2 cs bg_sub sigma kind mb (h : heap xr) :
    valid h image -> valid h e1 -> valid h e2 -> a_type (deref h e1) = a_type (deref h e2) ->
    iny (a_img (deref h e1)) = iny (a_img (deref h image)) -> inx (a_img (deref h e1)) = inx (a_img (deref h image)) ->
    agree_on (wanted (c_label c) mb) segm (a_img (deref h e1)) (a_img (deref h e2)) ->
    fst (sp k (SCat c) image segm r_list (Some e1) cs bg_sub sigma kind mb h) = fst (sp k (SCat c) image segm r_list (Some e2) cs bg_sub sigma kind mb h).
  Proof.
    intros V V1 V2 HT Hy Hx (Ay & Ax & Ap). rewrite !to_pure by (cbn; auto). unfold pure_photometry. cbn [source_row bind as_arg option_map].
    destruct (cutout_side cs r_list) as [size|]; cbn [bind]; auto.
    assert (SH : (cut (deref h e1) (c_x c) (c_y c) size = Err ValueError /\ cut (deref h e2) (c_x c) (c_y c) size = Err ValueError) \/
                 exists x1 x2, cut (deref h e1) (c_x c) (c_y c) size = Ok x1 /\ cut (deref h e2) (c_x c) (c_y c) size = Ok x2).
    { unfold cut. rewrite HT, Ay, Ax. destruct (size <=? 0)%Z; auto. destruct (_ || _)%bool; auto. destruct (_ || _)%bool; auto. right; eauto. }
    destruct SH as [[-> ->]|(x1 & x2 & E1 & E2)]; auto. rewrite E1, E2. cbn [bind].
    destruct (masked [] (AItem (LCat (c_label c))) (deref h image) segm (Some NaN) mb) as [full|] eqn:EF; cbn [bind]; auto.
    destruct (cut full (c_x c) (c_y c) size) as [m|] eqn:Em; cbn [bind]; auto.
    destruct (masked [] (AItem (LInt 0)) (deref h image) segm (Some NaN) false) as [bgf|]; cbn [bind]; auto.
    destruct (cut bgf (c_x c) (c_y c) size) as [s|]; cbn [bind]; auto.
    destruct (if bg_sub && (10 <? List.length (good_pixels s))%nat then subtract sigma_clip clipped_stats M O planar linear opts evalM m s size sigma kind else Ok m)
      as [final|] eqn:Ef; cbn [bind]; auto.
    assert (SF : iny final = iny m /\ inx final = inx m /\ forall j i, px m j i = NaN -> px final j i = NaN).
    { destruct (_ && _)%bool in Ef.
      - destruct (subtract_shape _ _ _ _ _ _ Ef). split; auto. split; auto. intros j i. now apply (subtract_nan _ _ _ _ _ _ _ _ Ef).
      - injection Ef as <-. auto. }
    destruct SF as (Fy & Fx & Fn).
    destruct (masked_keeps _ _ _ _ _ (c_label c) (or_intror eq_refl) EF) as (_ & _ & (K1 & K2 & K3) & _).
    destruct (cut_is _ _ _ _ _ Em) as (M1 & M2 & M3). destruct (cut_is _ _ _ _ _ E1) as (P1 & P2 & P3). destruct (cut_is _ _ _ _ _ E2) as (Q1 & Q2 & Q3).
    apply rp_agree. { split; auto. }
    split; [|lia]. split; [lia|]. split; [lia|]. intros j i Hj Hi NN.
    assert (MN : px m j i <> NaN). { intros E. apply Fn in E. cbn [not_nan px] in NN. rewrite E in NN. discriminate. }
    destruct (M3 j i _ _ ltac:(lia) ltac:(lia) eq_refl eq_refl) as (C1 & C2).
    destruct (P3 j i _ _ ltac:(lia) ltac:(lia) eq_refl eq_refl) as (D1 & D2).
    destruct (Q3 j i _ _ ltac:(lia) ltac:(lia) eq_refl eq_refl) as (G1 & G2).
    set (Y := (c_y c + (Z.of_nat j - size / 2))%Z) in *. set (X := (c_x c + (Z.of_nat i - size / 2))%Z) in *.
    rewrite K1, K2 in C1, C2.
    assert (IN : (0 <= Y < Z.of_nat (iny (a_img (deref h image))) /\ 0 <= X < Z.of_nat (inx (a_img (deref h image))))%Z).
    { destruct (Z_le_dec 0 Y); [|now rewrite C2 in MN by lia].
      destruct (Z_lt_dec Y (Z.of_nat (iny (a_img (deref h image))))); [|now rewrite C2 in MN by lia].
      destruct (Z_le_dec 0 X); [|now rewrite C2 in MN by lia].
      destruct (Z_lt_dec X (Z.of_nat (inx (a_img (deref h image))))); [|now rewrite C2 in MN by lia]. lia. }
    rewrite D1, G1 by lia. apply Ap; try lia.
    destruct (K3 (Z.to_nat Y) (Z.to_nat X) ltac:(lia) ltac:(lia)) as (_ & W).
    destruct (requested_dec [LCat (c_label c)] mb (px segm (Z.to_nat Y) (Z.to_nat X))) as [R|R]; [now apply requested_one in R|].
    destruct MN. rewrite C1 by lia. apply W. intros R'. apply R. now apply requested_one.
  Qed.
End Whole.
