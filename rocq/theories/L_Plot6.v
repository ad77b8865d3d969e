(** Proofs about the drawing code: images, apertures, catalogs, files. *)
From Coq Require Import String.
From Verif Require Import Base Num Numpy M_Utils M_Photometry M_Petrosian M_Correction M_PSF M_Fitting M_Plot S_Correction S_Plot.
From Verif Require Import L_Numpy L_Photometry L_Correction L_Plot L_Plot2 L_Plot3 L_Plot4 L_Plot5.
From Verif Require M_Segm.
Local Open Scope list_scope.

Section Images.
  Context {T : Type} {N : Num T} {NL : NumLog T}.

  Lemma in_labelled (segm : img Z) j i :
    In (j, i) (labelled segm) <-> (j < iny segm)%nat /\ (i < inx segm)%nat /\ px segm j i <> 0%Z.
  Proof.
    unfold labelled. rewrite filter_In, in_pixels. cbn [fst snd]. rewrite negb_true_iff, Z.eqb_neq. tauto.
  Qed.
  Lemma hit (segm : img Z) j i :
    existsb (fun p => Nat.eqb (fst p) j && Nat.eqb (snd p) i) (labelled segm) = true <-> In (j, i) (labelled segm).
  Proof.
    rewrite existsb_exists. split.
    - intros ((a & b) & H & E). apply andb_prop in E. cbn in E. rewrite !Nat.eqb_eq in E. destruct E as [-> ->]. auto.
    - intros H. exists (j, i). cbn. rewrite !Nat.eqb_refl. auto.
  Qed.

  Lemma segment_residual (segm : img Z) (image : img T) vmin vmax s :
    (forall j i, labelled_at segm j i -> (j < iny image)%nat /\ (i < inx image)%nat) ->
    exists shown, plot_segment_residual segm image vmin vmax s = (Ok tt, adds s [(cv_cur s, Image shown vmin vmax)]) /\
      iny shown = iny image /\ inx shown = inx image /\
      (forall j i, labelled_at segm j i -> px shown j i = n0) /\
      (forall j i, ~ labelled_at segm j i -> px shown j i = px image j i).
  Proof.
    intros H. unfold plot_segment_residual, blank. rewrite bind_gca.
    replace (forallb _ (labelled segm)) with true; cycle 1.
    { symmetry. apply forallb_forall. intros (j & i) Hin. apply in_labelled in Hin. cbn [fst snd].
      destruct (H j i) as [A B]; [exact Hin|]. apply Nat.ltb_lt in A, B. now rewrite A, B. }
    rewrite bind_ok. eexists. split; [reflexivity|]. cbn [iny inx px]. do 2 (split; [reflexivity|]). split.
    - intros j i L. replace (existsb _ (labelled segm)) with true; auto. symmetry. apply hit. now apply in_labelled.
    - intros j i L. replace (existsb _ (labelled segm)) with false; auto. symmetry. apply not_true_is_false.
      intros E. apply L. apply hit in E. now apply in_labelled in E.
  Qed.
  Lemma segment_outside (segm : img Z) (image : img T) vmin vmax s j i :
    labelled_at segm j i -> ~ ((j < iny image)%nat /\ (i < inx image)%nat) ->
    plot_segment_residual segm image vmin vmax s = (Err IndexError, s).
  Proof.
    intros L H. unfold plot_segment_residual, blank. rewrite bind_gca.
    replace (forallb _ (labelled segm)) with false; [reflexivity|].
    symmetry. apply not_true_is_false. rewrite forallb_forall. intros F.
    specialize (F (j, i)). cbn [fst snd] in F. rewrite andb_true_iff, !Nat.ltb_lt in F. apply H, F. now apply in_labelled.
  Qed.

  Lemma segments_run (segm : img Z) (image : option (img T)) vmin vmax title s :
    plot_segments segm image vmin vmax title s =
    (Ok tt, adds s (map (pair (cv_cur s)) (given (option_map (fun m => Image m vmin vmax) image) ++ [Labels segm] ++
       given (option_map Title title) ++ [XLabel "Pixels"; YLabel "Pixels"]))).
  Proof.
    unfold plot_segments. rewrite bind_gca.
    destruct image, title; cbn [option_map given List.app map]; repeat step; rewrite put_last, !add_adds, !adds_adds; reflexivity.
  Qed.

  Lemma for_each_put {A} (l : list A) a (f : A -> cmd (T:=T)) s :
    for_each l (fun x => put a (f x)) s = (Ok tt, adds s (map (fun x => (a, f x)) l)).
  Proof.
    revert s; induction l as [|x xs IH]; intros s; cbn [for_each map].
    - unfold dret. now rewrite adds_nil.
    - rewrite bind_put, IH, add_adds, adds_adds. reflexivity.
  Qed.
  Lemma bind_for {A B} (l : list A) a (f : A -> cmd (T:=T)) (g : unit -> draw (T:=T) B) s :
    dbind (for_each l (fun x => put a (f x))) g s = g tt (adds s (map (fun x => (a, f x)) l)).
  Proof. unfold dbind. now rewrite for_each_put. Qed.

  Lemma apertures_run (image : option (img T)) l vmin vmax s :
    plot_apertures image (Some l) vmin vmax s =
    (Ok tt, adds s (map (pair (cv_cur s)) (given (option_map (fun m => Image m vmin vmax) image) ++
       map (fun a => Ellipse a L_none) l ++ [Title "Apertures"]))).
  Proof.
    unfold plot_apertures. rewrite bind_gca. rewrite !map_app, map_map.
    destruct image; cbn [option_map given List.app map]; repeat step; rewrite bind_for;
    rewrite ?orb_true_r; cbn [when orb]; rewrite put_last, ?add_adds, ?adds_adds; reflexivity.
  Qed.
  Lemma apertures_none (image : option (img T)) vmin vmax s :
    plot_apertures image None vmin vmax s =
    (Err TypeError, adds s (map (pair (cv_cur s)) (given (option_map (fun m => Image m vmin vmax) image)))).
  Proof.
    unfold plot_apertures. rewrite bind_gca. destruct image; cbn [option_map given List.app map]; repeat step.
    - reflexivity.
    - now rewrite adds_nil.
  Qed.
End Images.

Lemma target_window (image : img xr) x y size vmin vmax s side :
  (match size with Some z => z = Fin side | None => side = INR (Nat.max (iny image) (inx image)) end) ->
  exists s' d lx hx ly hy,
    plot_target image (Fin x, Fin y) size vmin vmax s = (Ok tt, s') /\ emitted s s' d /\
    d = [(cv_cur s, Image image vmin vmax); (cv_cur s, Point (Fin x) (Fin y));
         (cv_cur s, XLim (Fin lx) (Some (Fin hx))); (cv_cur s, YLim (Fin ly) (Some (Fin hy)))] /\
    (lx + hx = 2 * x /\ ly + hy = 2 * y /\ hx - lx = side /\ hy - ly = side)%R.
Proof.
  intros H. unfold plot_target. rewrite bind_gca.
  assert (E : match size with None => nofnat (Nat.max (iny image) (inx image)) | Some z => z end = Fin side).
  { destruct size; [exact H|]. rewrite H. unfold nofnat. cbn [nofZ XRnum]. now rewrite <- INR_IZR_INZ. }
  cbv zeta. rewrite E.
  assert (D : (Fin side / n2)%num = Fin (side / 2)).
  { unfold n2. cbn [nofZ ndiv XRnum]. rewrite xdiv_fin; [reflexivity|lra]. }
  rewrite D. repeat step. rewrite put_last, !add_adds, !adds_adds. cbn [nadd nsub XRnum xadd xsub List.app].
  do 2 eexists. exists (x - side / 2)%R, (x + side / 2)%R, (y - side / 2)%R, (y + side / 2)%R.
  split; [reflexivity|]. split; [reflexivity|]. split; [|lra].
  reflexivity.
Qed.

Section Radial.
  Context {T : Type} {N : Num T} {NL : NumLog T}.
  Variable overlap : aperture T -> nat -> nat -> option (nat -> nat -> T).
  Variables (k : flavour) (image : img T) (pos : T * T) (error : option (img T)) (mask : option (img bool)) (elong theta : T).

  Lemma loop_run r_list s :
    fst (radial_loop overlap k image pos error mask elong theta r_list s) =
      mapM (one_radius overlap k image pos error mask elong theta) r_list /\
    exists done rest, r_list = done ++ rest /\
      snd (radial_loop overlap k image pos error mask elong theta r_list s) =
        adds s (map (fun r => (cv_cur s, Ellipse (mkap (fst pos) (snd pos) r (ndiv r elong) theta) L_none)) done) /\
      (exists l, mapM (one_radius overlap k image pos error mask elong theta) done = Ok l) /\
      (forall r tl, rest = r :: tl -> exists e, one_radius overlap k image pos error mask elong theta r = Err e).
  Proof.
    revert s; induction r_list as [|r rs IH]; intros s.
    - split; [reflexivity|]. exists [], []. cbn [radial_loop dret snd map]. rewrite adds_nil.
      split; [reflexivity|]. split; [reflexivity|]. split; [exists []; reflexivity|]. intros; discriminate.
    - cbn [radial_loop mapM].
      destruct (radial_elliptical_aperture k pos r elong theta) as [ap|e] eqn:A.
      2:{ assert (one_radius overlap k image pos error mask elong theta r = Err e) as O by (unfold one_radius; rewrite A; reflexivity).
          rewrite !bind_err, O. cbn [fst snd bind]. split; [reflexivity|]. exists [], (r :: rs). cbn [map]. rewrite adds_nil.
          split; [reflexivity|]. split; [reflexivity|]. split; [exists []; reflexivity|]. intros ? ? [= <- <-]. eauto. }
      rewrite !bind_ok.
      destruct (one_radius overlap k image pos error mask elong theta r) as [t|e] eqn:O.
      2:{ rewrite !bind_err. cbn [fst snd bind]. split; [reflexivity|]. exists [], (r :: rs). cbn [map]. rewrite adds_nil.
          split; [reflexivity|]. split; [reflexivity|]. split; [exists []; reflexivity|]. intros ? ? [= <- <-]. eauto. }
      rewrite !bind_ok, !bind_gca, !bind_put. cbn [bind].
      destruct (IH (add s (cv_cur s) (Ellipse ap L_none))) as (E & dn & rest & R1 & R2 & (l & R3) & R4).
      unfold dbind.
      destruct (radial_loop overlap k image pos error mask elong theta rs (add s (cv_cur s) (Ellipse ap L_none))) as [[v|e] s'].
      + cbn [fst snd] in E, R2 |- *. unfold dret. cbn [fst snd]. rewrite <- E. split; [reflexivity|].
        exists (r :: dn), rest. split; [now rewrite R1|]. split.
        * rewrite R2, add_adds, adds_adds, adds_cur. cbn [map List.app]. f_equal. f_equal. f_equal. f_equal.
          unfold radial_elliptical_aperture, fdiv, EllipticalAperture in A.
          destruct k; [destruct (neqb elong n0)|]; cbn [bind] in A; try discriminate A;
          destruct (_ || _); try discriminate A; injection A as <-; reflexivity.
        * split; [|exact R4]. exists (t :: l). cbn [mapM]. rewrite O. cbn [bind]. now rewrite R3.
      + cbn [fst snd] in E, R2 |- *. rewrite <- E. split; [reflexivity|].
        exists (r :: dn), rest. split; [now rewrite R1|]. split.
        * rewrite R2, add_adds, adds_adds, adds_cur. cbn [map List.app]. f_equal. f_equal. f_equal. f_equal.
          unfold radial_elliptical_aperture, fdiv, EllipticalAperture in A.
          destruct k; [destruct (neqb elong n0)|]; cbn [bind] in A; try discriminate A;
          destruct (_ || _); try discriminate A; injection A as <-; reflexivity.
        * split; [|exact R4]. exists (t :: l). cbn [mapM]. rewrite O. cbn [bind]. now rewrite R3.
  Qed.
End Radial.
