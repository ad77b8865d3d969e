(** Noise-free images are fitted exactly. *)
From Coq Require Import String.
From Verif Require Import Base Num Numpy M_Utils M_Photometry S_Photometry M_PSF M_Fitting S_Fitting M_Segm S_Segm L_Numpy L_Photometry L_PSF
  L_Fitting L_Fitting2 S_LSQ L_LSQ L_LSQ2.
Local Open Scope list_scope.

Definition wt (w : option (img xr)) (p : nat * nat) : R := match w with Some ws => fin (px ws (fst p) (snd p)) | None => 1%R end.
Lemma combine_map4 {A B C} (f : A -> B) (g : A -> C) l : combine (map f l) (map g l) = map (fun a => (f a, g a)) l.
Proof. induction l as [|a l IH]; cbn; auto. now rewrite IH. Qed.
Lemma repeat_map {A} (l : list A) : repeat 1%R (List.length l) = map (fun _ => 1%R) l.
Proof. induction l as [|a l IH]; cbn; auto. now rewrite IH. Qed.

Section Exact.
  Variables M O : Type.
  Variable f : fitter (T:=xr) M O.
  Variable model : M.
  Variable evalM : M -> smodel (T:=xr).
  Variable family : (R -> R -> R) -> Prop.
  Hypothesis FE : finds_exact f model evalM family.

  Theorem fit_exact (image : img xr) weights calc (opts : O) g0 : fits weights image -> nonzero_weights weights image -> family g0 ->
    (forall j i, good image j i -> px image j i = Fin (g0 (INR i) (INR j))) ->
    exists m fx g, fit_model M O (image, None) model weights f calc opts = Ok (m, f) /\ evalM m = pointwise fx /\ real_function fx g /\ family g /\
      forall j i, good image j i -> g (INR i) (INR j) = g0 (INR i) (INR j).
  Proof.
    intros HW HN HF HG.
    destruct (@fit_model_call M O image model weights f calc opts HW) as (l & L & E). cbv zeta beta in E.
    assert (IN : forall j i, In (j, i) l <-> good image j i) by (intros; apply (proj2 L)).
    assert (EZ : map (fun p => px image (fst p) (snd p)) l = map Fin (zs image l)).
    { apply fin_list. intros (j, i) Hi. cbn. apply IN in Hi. rewrite HG; eauto. }
    set (w := option_map (fun ws : img xr => map (fun p => fin (px ws (fst p) (snd p))) l) weights).
    assert (EW : option_map (fun ws : img xr => map (fun p => px ws (fst p) (snd p)) l) weights = option_map (map Fin) w).
    { unfold w. destruct weights as [ws|]; cbn [option_map]; auto. f_equal. apply (fin_list ws). intros (j, i) Hi. apply IN in Hi. cbn.
      destruct (HN ws j i eq_refl Hi) as (v & -> & _). eauto. }
    assert (ED : combine (combine (combine (map snd l) (map fst l)) (zs image l)) (weights_or_one w (List.length (map snd l))) = map (fun p => (pt image p, wt weights p)) l).
    { unfold zs. rewrite combine_map3. rewrite map_length. replace (weights_or_one w (List.length l)) with (map (wt weights) l).
      - rewrite combine_map4. reflexivity.
      - unfold w, wt. destruct weights; cbn [option_map weights_or_one]; auto. now rewrite repeat_map. }
    assert (Z0 : wmisfit g0 (map (fun p => (pt image p, wt weights p)) l) = 0%R).
    { unfold wmisfit. rewrite map_map.
      assert (H : forall l', (forall q, In q l' -> In q l) -> total (map (fun x => (snd (pt image x, wt weights x) * (snd (fst (pt image x, wt weights x)) -
         g0 (col (fst (pt image x, wt weights x))) (line (fst (pt image x, wt weights x))))) ^ 2)%R l') = 0%R).
      { induction l' as [|(j, i) l' IH]; intros Hl; [reflexivity|]. rewrite total_cons, IH by (intros q Hq; apply Hl; now right).
        pose proof (Hl (j, i) (or_introl eq_refl)) as K. apply IN in K. unfold pt, col, line. cbn [fst snd]. rewrite (HG j i K). cbn [fin]. ring. }
      apply H. auto. }
    destruct (FE calc (if ft_iterative f then Some opts else None) (map snd l) (map fst l) (zs image l) w g0) as (m & fx & g & R1 & R2 & R3 & R4 & R5); auto.
    - now rewrite !map_length.
    - unfold zs. now rewrite !map_length.
    - intros k. unfold w. destruct weights; cbn; [|discriminate]. intros [= <-]. now rewrite !map_length.
    - now rewrite ED.
    - exists m, fx, g. split; [|split; [exact R2|split; [exact R3|split; [exact R4|]]]].
      + etransitivity; [exact E|]. rewrite EZ. replace (option_map _ weights) with (option_map (map Fin) w). rewrite R1. reflexivity.
      + specialize (R5 g0 HF). rewrite ED, Z0 in R5. intros j i G.
        assert (K : ((wt weights (j, i) * (snd (pt image (j, i)) - g (col (pt image (j, i))) (line (pt image (j, i))))) ^ 2 = 0)%R).
        { unfold wmisfit in R5. 
          apply (total_zero (fun q : point * R => (snd q * (snd (fst q) - g (col (fst q)) (line (fst q)))) ^ 2)%R) with (p := (pt image (j, i), wt weights (j, i))) in R5; auto.
          - intros q. apply pow2_ge_0.
          - apply in_map_iff. exists (j, i). split; auto. now apply IN. }
        cbn [pow] in K. rewrite Rmult_1_r in K. apply Rsqr_0_uniq in K. apply Rmult_integral in K.
        destruct K as [K|K].
        * exfalso. unfold wt in K. destruct weights as [ws|]; [|lra]. destruct (HN ws j i eq_refl G) as (v & Ev & Hv). cbn [fst snd] in K. rewrite Ev in K. cbn in K. lra.
        * unfold pt, col, line in K. cbn [fst snd] in K. rewrite (HG j i G) in K. cbn [fin] in K. lra.
  Qed.

  Theorem fit_residual (image : img xr) weights calc (opts : O) g0 : fits weights image -> nonzero_weights weights image -> family g0 ->
    (forall j i, good image j i -> px image j i = Fin (g0 (INR i) (INR j))) ->
    exists m mi r, fit_model M O (image, None) model weights f calc opts = Ok (m, f) /\ plot_fit (evalM m) image Center None = Ok (mi, r) /\
      iny r = iny image /\ inx r = inx image /\
      forall j i, (j < iny image)%nat -> (i < inx image)%nat -> px r j i = match px image j i with NaN => NaN | _ => Fin 0 end.
  Proof.
    intros HW HN HF HG. destruct (fit_exact image weights calc opts g0 HW HN HF HG) as (m & fx & g & E1 & E2 & E3 & _ & E5).
    destruct (plot_fit_residual fx g image None 0 0 E3) as (mi & r & P1 & _ & P3 & P4 & P5); [cbn; auto|].
    exists m, mi, r. split; auto. split; [now rewrite E2|]. split; auto. split; auto. intros j i Hj Hi. rewrite P5 by auto. rewrite !Rplus_0_l.
    destruct (px image j i) eqn:E; try reflexivity.
    - assert (G : good image j i) by (repeat split; auto; congruence). rewrite (HG j i G) in E. discriminate.
    - assert (G : good image j i) by (repeat split; auto; congruence). rewrite (HG j i G) in E. discriminate.
    - assert (G : good image j i) by (repeat split; auto; congruence). rewrite E5 by auto. rewrite (HG j i G) in E. injection E as <-.
      cbn. f_equal. lra.
  Qed.

  (** the image drawn from the fitted model is the image that was fitted *)
  Theorem fit_rendered f0 g0 size flag k nx ny calc (opts : O) image : real_function f0 g0 -> family g0 -> size_means size flag nx ny ->
    model_to_image (pointwise f0) size flag Center k None = Ok image ->
    exists m drawn, fit_model M O (image, None) model None f calc opts = Ok (m, f) /\
      model_to_image (evalM m) size flag Center k None = Ok drawn /\ same_data image drawn.
  Proof.
    intros H0 HF HS HI.
    destruct (center_pixels f0 g0 size flag k None nx ny 0 0 H0 HS) as (image' & E & Iy & Ix & Ip); [cbn; auto|].
    rewrite HI in E. injection E as <-.
    destruct (fit_exact image None calc opts g0) as (m & fx & g & E1 & E2 & E3 & _ & E5); auto.
    - exact I.
    - intros ws j i [=].
    - intros j i (Hj & Hi & _). rewrite Ip by lia. now rewrite !Rplus_0_l.
    - destruct (center_pixels fx g size flag k None nx ny 0 0 E3 HS) as (drawn & D1 & Dy & Dx & Dp); [cbn; auto|].
      exists m, drawn. split; auto. rewrite E2. split; auto. split; [congruence|]. split; [congruence|]. intros j i Hj Hi.
      rewrite Ip, Dp by lia. rewrite !Rplus_0_l. f_equal. symmetry. apply E5. repeat split; auto. rewrite Ip by lia. discriminate.
  Qed.
End Exact.

(** ** fit_background *)
Section Background.
  Variables M O : Type.
  Variable planar : M.
  Variable linear : fitter (T:=xr) M O.
  Variable evalM : M -> smodel (T:=xr).
  Variable sigma_clip : img xr -> xr -> img bool.
  Variable obeys : bool.
  Hypothesis LS : fits_planes linear planar evalM obeys.

  Definition clip_mask (image : img xr) (sigma : option xr) : option (img bool) := option_map (sigma_clip image) sigma.

  Lemma background_run (image : img xr) sigma calc (opts : O) :
    fit_background M O sigma_clip image planar sigma linear calc opts =
    (do m <- ft_run linear calc planar (mkfd (map snd (good_pixels image)) (map fst (good_pixels image)) (map (fun p => px image (fst p) (snd p)) (good_pixels image))
       (option_map (fun k => map (fun p => px k (fst p) (snd p)) (good_pixels image)) (clip_mask image sigma)) None) (if ft_iterative linear then Some opts else None);
     Ok (m, linear)).
  Proof. destruct sigma; reflexivity. Qed.

  Lemma remaining_left (image : img xr) sigma j i : remaining sigma_clip obeys image sigma j i ->
    In (j, i) (good_pixels image) /\ left_in obeys (clip_mask image sigma) (j, i) = true.
  Proof.
    intros (G & H). split; [now apply (proj2 (good_pixels_ok image))|]. unfold left_in, clip_mask. destruct sigma as [s|]; cbn; auto.
    destruct obeys; cbn; auto. now rewrite (H s eq_refl eq_refl).
  Qed.

  Theorem background_exact (image : img xr) sigma calc (opts : O) a b c :
    (forall j i, good image j i -> px image j i = Fin (plane a b c (INR i) (INR j))) -> spread_on (remaining sigma_clip obeys image sigma) ->
    exists m f, fit_background M O sigma_clip image planar sigma linear calc opts = Ok (m, linear) /\ evalM m = pointwise f /\ real_function f (plane a b c).
  Proof.
    intros HG HS. rewrite background_run.
    assert (IN : forall j i, In (j, i) (good_pixels image) <-> good image j i) by (intros; apply (proj2 (good_pixels_ok image))).
    rewrite (fin_list image). 2:{ intros (j, i) Hi. apply IN in Hi. cbn. rewrite HG; eauto. }
    destruct (LS calc (if ft_iterative linear then Some opts else None) (map snd (good_pixels image)) (map fst (good_pixels image)) (zs image (good_pixels image))
      (option_map (fun k => map (fun p => px k (fst p) (snd p)) (good_pixels image)) (clip_mask image sigma))) as (m & f & p & q & r & R1 & R2 & R3 & R4).
    - now rewrite !map_length.
    - unfold zs. now rewrite !map_length.
    - intros k. destruct (clip_mask image sigma); cbn; [|discriminate]. intros [= <-]. now rewrite !map_length.
    - rewrite points_are. apply (spread_points obeys image _ _ _ HS (remaining_left image sigma)).
    - rewrite points_are in R4. exists m, f. rewrite R1. split; auto. split; auto.
      assert (B : best_plane (map (pt image) (filter (left_in obeys (clip_mask image sigma)) (good_pixels image))) a b c).
      { apply best_exact. intros x Hx. apply in_map_iff in Hx as ((j, i) & <- & Hy). apply filter_In in Hy as [Hy _]. apply IN in Hy.
        unfold pt, col, line. cbn [fst snd]. now rewrite HG. }
      destruct (best_unique _ _ _ _ _ _ _ (spread_points obeys image _ _ _ HS (remaining_left image sigma)) R4 B) as (-> & -> & ->). exact R3.
  Qed.
End Background.
