(** Proofs about the drawing code: photometry figures, catalogs, fits, files. *)
From Coq Require Import String.
From Verif Require Import Base Num Numpy M_Utils M_Photometry M_Petrosian M_Correction M_PSF M_Fitting M_Plot S_Correction S_Plot.
From Verif Require Import L_Numpy L_Photometry L_Correction L_Plot L_Plot2 L_Plot3 L_Plot4 L_Plot5 L_Plot6.
From Verif Require M_Segm.
Local Open Scope list_scope.

Section Steps2.
  Context {T : Type} {N : Num T}.
  Lemma bind_subplots {B} n (f : list axes -> draw (T:=T) B) s :
    dbind (subplots n) f s = f (seq (cv_next s) n) (mkcanvas (cv_next s + n - 1)%nat (cv_next s + n)%nat (cv_trace s)).
  Proof. reflexivity. Qed.
  Lemma bind_run {A B} (m : draw (T:=T) A) (f : A -> draw (T:=T) B) s a s' : m s = (Ok a, s') -> dbind m f s = f a s'.
  Proof. intros H. unfold dbind. now rewrite H. Qed.
  Lemma m_put {B} a x (f : unit -> draw (T:=T) B) c n t : dbind (put a x) f (mkcanvas c n t) = f tt (mkcanvas c n (t ++ [(a, x)])).
  Proof. reflexivity. Qed.
  Lemma m_ticks {B} a x (f : unit -> draw (T:=T) B) c n t :
    dbind (mpl_tick_frame (Some a) x) f (mkcanvas c n t) = f tt (mkcanvas c n (t ++ [(a, Ticks x)])).
  Proof. reflexivity. Qed.
  Lemma m_gca {B} (f : axes -> draw (T:=T) B) c n t : dbind gca f (mkcanvas c n t) = f c (mkcanvas c n t).
  Proof. reflexivity. Qed.
  Lemma m_sca {B} a (f : unit -> draw (T:=T) B) c n t : dbind (sca a) f (mkcanvas c n t) = f tt (mkcanvas a n t).
  Proof. reflexivity. Qed.
  Lemma m_sub {B} k (f : list axes -> draw (T:=T) B) c n t :
    dbind (subplots k) f (mkcanvas c n t) = f (seq n k) (mkcanvas (n + k - 1)%nat (n + k)%nat t).
  Proof. reflexivity. Qed.
  Lemma m_for {A B} (l : list A) a (g : A -> cmd (T:=T)) (f : unit -> draw (T:=T) B) c n t :
    dbind (for_each l (fun x => put a (g x))) f (mkcanvas c n t) = f tt (mkcanvas c n (t ++ map (fun x => (a, g x)) l)).
  Proof. apply bind_for. Qed.
End Steps2.
Ltac mstep := first [rewrite m_put | rewrite m_ticks | rewrite m_gca | rewrite m_sca | rewrite m_sub | rewrite m_for
  | rewrite bind_ok | rewrite bind_ret | rewrite bind_err | rewrite bind_assoc]; cbv beta; cbn [nth seq].

Section RadialPlot.
  Context {T : Type} {N : Num T} {NL : NumLog T}.
  Variable overlap : aperture T -> nat -> nat -> option (nat -> nat -> T).
  Variables (k : flavour) (image : img T) (pos : T * T) (error : option (img T)) (mask : option (img bool)) (elong theta : T).
  Let photometry l := radial_photometry overlap k image pos l error mask elong theta.

  Lemma mapM_photometry l v : mapM (one_radius overlap k image pos error (option_map invert mask) elong theta) l = Ok v ->
    exists r, photometry l = Ok r.
  Proof. intros H. unfold photometry, radial_photometry. cbv zeta. rewrite H. cbn. eauto. Qed.

  Lemma radial_plot r_list vmin vmax s :
    fst (radial_photometry_plot overlap k image pos r_list error mask elong theta vmin vmax s) = photometry r_list /\
    exists done rest hi, r_list = done ++ rest /\
      snd (radial_photometry_plot overlap k image pos r_list error mask elong theta vmin vmax s) =
        adds s (map (pair (cv_cur s)) ([Image image vmin (Some hi); Title "Image and Aperture Radii"; XLabel "Pixels"; YLabel "Pixels"] ++
                  map (ring pos elong theta) done)) /\
      hi = match vmax with Some v => v | None => nmul (img_mean image) (nofZ 10) end /\
      (exists v, photometry done = Ok v) /\
      (forall r tl, rest = r :: tl -> exists e, photometry [r] = Err e).
  Proof.
    unfold radial_photometry_plot. rewrite bind_gca, !bind_put. unfold dbind.
    rewrite !add_adds, !adds_adds.
    match goal with |- context [radial_loop _ _ _ _ _ _ _ _ _ ?s1] => set (s' := s1) end.
    destruct (loop_run overlap k image pos error (option_map invert mask) elong theta r_list s') as (E & dn & rest & R1 & R2 & (l & R3) & R4).
    assert (P : fst (match radial_loop overlap k image pos error (option_map invert mask) elong theta r_list s' with
            | (Ok a, s'0) => dret (map (fun t => fst (fst t)) a, map (fun t => snd (fst t)) a, map snd a) s'0
            | (Err e, s'0) => (Err e, s'0)
            end) = photometry r_list /\
            snd (match radial_loop overlap k image pos error (option_map invert mask) elong theta r_list s' with
            | (Ok a, s'0) => dret (map (fun t => fst (fst t)) a, map (fun t => snd (fst t)) a, map snd a) s'0
            | (Err e, s'0) => (Err e, s'0)
            end) = adds s' (map (fun r => (cv_cur s', ring pos elong theta r)) dn)).
    { unfold photometry, radial_photometry. cbv zeta. rewrite <- E.
      destruct (radial_loop overlap k image pos error (option_map invert mask) elong theta r_list s') as [[v|e] s1];
      cbn [fst snd bind dret] in *; split; auto. }
    destruct P as [P1 P2]. split; [exact P1|].
    exists dn, rest, (match vmax with Some v => v | None => nmul (img_mean image) (nofZ 10) end). split; [exact R1|]. split.
    - rewrite P2. unfold s'. rewrite adds_cur, adds_adds. rewrite map_app, map_map. destruct vmax; reflexivity.
    - split; [reflexivity|]. split; [now apply mapM_photometry in R3|].
      intros r tl Hr. destruct (R4 r tl Hr) as (e & He). exists e. unfold photometry, radial_photometry. cbv zeta.
      cbn [mapM]. rewrite He. reflexivity.
  Qed.

  Lemma photometry_prefix done rest v : photometry done = Ok v ->
    (forall r tl, rest = r :: tl -> exists e, photometry [r] = Err e) ->
    forall w, photometry (done ++ rest) = Ok w -> rest = [].
  Proof.
    intros H R w W. destruct rest as [|r tl]; auto. exfalso. destruct (R r tl eq_refl) as (e & He).
    unfold photometry, radial_photometry in *. cbv zeta in *.
    apply bind_Ok in W. destruct W as (l & Hl & _).
    assert (O : exists y, one_radius overlap k image pos error (option_map invert mask) elong theta r = Ok y).
    { clear H He. revert l Hl. induction done as [|x xs IH]; intros l Hl; cbn [List.app mapM] in Hl.
      - apply bind_Ok in Hl. destruct Hl as (y & Hy & _). eauto.
      - apply bind_Ok in Hl. destruct Hl as (y & _ & Hl). apply bind_Ok in Hl. destruct Hl as (ys & Hys & _). eauto. }
    destruct O as (y & O). cbn [mapM] in He. rewrite O in He. discriminate He.
  Qed.

  (** plot=True of source_photometry *)
  Lemma source_failed r_list vmin vmax s e : photometry r_list = Err e ->
    fst (source_plots overlap k image pos r_list error mask elong theta vmin vmax s) = Err e.
  Proof.
    intros H. unfold source_plots. unfold dbind at 1. unfold subplots. unfold dbind at 1. unfold sca. cbn [nth seq].
    match goal with |- context [dbind (radial_photometry_plot _ _ _ _ _ _ _ _ _ _ _) _ ?s1] => set (s' := s1) end.
    destruct (radial_plot r_list vmin vmax s') as (E & _). rewrite H in E. unfold dbind at 1.
    destruct (radial_photometry_plot overlap k image pos r_list error mask elong theta vmin vmax s') as [[?|e'] s1]; [discriminate E|].
    cbn [fst] in E. injection E as ->. reflexivity.
  Qed.

  Definition source_calls r_list (v : list T * list T * list T) vmin hi m (j i : Z) (b : nat) : list (axes * cmd (T:=T)) :=
    map (pair b) ([Image image vmin (Some hi); Title "Image and Aperture Radii"; XLabel "Pixels"; YLabel "Pixels"] ++
                  map (ring pos elong theta) r_list) ++
    map (pair (S b)) (Line r_list (fst (fst v)) :: map (fun r => VLine r L_none) r_list ++
                      [Title "Curve of Growth"; XLabel "Radius in Pixels"; YLabel "Flux Enclosed"; Ticks true]) ++
    map (pair (S (S b))) ([Line (counted (row_of image (Z.to_nat j))) (row_of image (Z.to_nat j)); HLine n0; VLine (fst pos) L_none;
       VLine (nadd (fst pos) m) L_none; VLine (nsub (fst pos) m) L_none; XLabel "Slice Along X [pix]"; YLabel "Pixel Value"; Ticks true]) ++
    map (pair (S (S (S b)))) ([Line (counted (column_of image (Z.to_nat i))) (column_of image (Z.to_nat i)); HLine n0; VLine (fst pos) L_none;
       VLine (nadd (fst pos) m) L_none; VLine (nsub (fst pos) m) L_none; XLabel "Slice Along Y [pix]"; YLabel "Pixel Value"; Ticks true]).

  Lemma source_run r_list vmin vmax s v :
    photometry r_list = Ok v -> 
    match pymax r_list, int_of (snd pos), int_of (fst pos) with
    | Ok m, Ok j, Ok i =>
        source_plots overlap k image pos r_list error mask elong theta vmin vmax s =
        (Ok v, mkcanvas (cv_next s + 3) (cv_next s + 4) (cv_trace s ++
           source_calls r_list v vmin (match vmax with Some x => x | None => nmul (img_mean image) (nofZ 10) end) m j i (cv_next s)))
    | Err e, _, _ | Ok _, Err e, _ | Ok _, Ok _, Err e =>
        fst (source_plots overlap k image pos r_list error mask elong theta vmin vmax s) = Err e
    end.
  Proof.
    intros H. unfold source_plots. rewrite !bind_subplots, !bind_sca. cbn [nth seq].
    match goal with |- context [dbind (radial_photometry_plot _ _ _ _ _ _ _ _ _ _ _) _ ?s1] => set (s' := s1) end.
    destruct (radial_plot r_list vmin vmax s') as (E & dn & rest & hi & R1 & R2 & R3 & (w & R4) & R5).
    rewrite H in E. pose proof H as H'. rewrite R1 in H'. pose proof (photometry_prefix dn rest w R4 R5 v H') as R6.
    rewrite R6, app_nil_r in R1. subst dn rest.
    destruct (radial_photometry_plot overlap k image pos r_list error mask elong theta vmin vmax s') as [r s1] eqn:R.
    cbn [fst snd] in E, R2. subst r. rewrite <- R3. rewrite (bind_run _ _ _ _ _ R). rewrite R2. clear R R2.
    unfold s', adds. cbn [cv_cur cv_next cv_trace]. clear s'. set (b := cv_next s). set (t0 := cv_trace s).
    replace (b + 2)%nat with (S (S b)) by lia. replace (b + 3)%nat with (S (S (S b))) by lia.
    replace (b + 4)%nat with (S (S (S (S b)))) by lia.
    do 8 mstep.
    destruct (pymax r_list) as [m|e]; [|reflexivity]. mstep.
    destruct (int_of (snd pos)) as [j|e]; [|reflexivity]. do 12 mstep.
    destruct (int_of (fst pos)) as [i|e]; [|reflexivity]. repeat mstep.
    replace (S (S b) + 1)%nat with (S (S (S b))) by lia.
    replace (S (S (S b)) + 1)%nat with (S (S (S (S b)))) by lia.
    replace (S (S (S b)) - 1)%nat with (S (S b)) by lia. replace (S (S (S (S b))) - 1)%nat with (S (S (S b))) by lia.
    unfold dret, source_calls. f_equal. f_equal.
    cbn [map]. rewrite !map_app. cbn [map]. rewrite !map_map. rewrite <- !app_assoc. cbn [List.app]. rewrite <- ?app_assoc. cbn [List.app]. reflexivity.
  Qed.
End RadialPlot.
