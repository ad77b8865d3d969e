(** Proofs about the drawing code: catalogs, fits, files. *)
From Coq Require Import String.
From Verif Require Import Base Num Numpy M_Utils M_Photometry M_Petrosian M_Correction M_PSF M_Fitting M_Plot S_Photometry S_PSF S_Correction S_Plot.
From Verif Require Import L_Numpy L_Photometry L_Correction L_Plot L_Plot2 L_Plot3 L_Plot4 L_Plot5 L_Plot6 L_Plot7.
From Verif Require M_Segm L_PSF.
Local Open Scope list_scope.

(** default brightness limit of the photometry figure *)
Lemma mean_nan (image : img xr) j i : (j < iny image)%nat -> (i < inx image)%nat -> px image j i = NaN ->
  nmul (img_mean image) (nofZ 10) = NaN.
Proof.
  intros Hj Hi H. unfold img_mean. rewrite nsum_nan; [reflexivity|].
  unfold img_list. apply in_map_iff. exists (j, i). split; [exact H|]. apply L_Photometry.in_pixels. auto.
Qed.

Section CatalogPlot.
  Context {T : Type} {N : Num T}.
  Variable C : Type.
  Variable detect : img T -> result (option (img Z)).
  Variable deblend_ : img T -> option (img Z) -> result (option (img Z)).
  Variable catalog : img T -> option (img Z) -> result C.
  Let run := make_catalog_plot C detect deblend_ catalog.

  Lemma seg_bind {B} (segm : img Z) (image : option (img T)) vmin vmax title (f : unit -> draw (T:=T) B) s :
    dbind (plot_segments segm image vmin vmax title) f s =
    f tt (adds s (map (pair (cv_cur s)) (given (option_map (fun m => Image m vmin vmax) image) ++ [Labels segm] ++
       given (option_map Title title) ++ [XLabel "Pixels"; YLabel "Pixels"]))).
  Proof. unfold dbind. now rewrite segments_run. Qed.

  Ltac cstep := first [rewrite bind_assoc | rewrite bind_subplots | rewrite bind_sca | rewrite bind_ret | rewrite bind_ok | rewrite seg_bind];
    cbv beta; cbn [when nth seq nth_error bind].

  Lemma catalog_unplotted image deblend vmin vmax s :
    run image deblend false vmin vmax s = (M_Segm.make_catalog _ _ _ detect deblend_ catalog image deblend, s).
  Proof.
    unfold run, make_catalog_plot, M_Segm.make_catalog.
    destruct (detect image) as [segm|e]; [|reflexivity]. rewrite bind_ok. cbn [bind].
    replace (match segm with Some _ => dret [] | None => dret [] end) with (dret (T:=T) (@nil axes)) by (destruct segm; reflexivity).
    rewrite bind_ret. destruct deblend.
    - rewrite bind_assoc. destruct (deblend_ image segm) as [d|e]; [|reflexivity]. rewrite bind_ok. cbn [bind when].
      rewrite bind_assoc. replace (match d with Some _ => dret tt | None => dret tt end) with (dret (T:=T) tt) by (destruct d; reflexivity).
      rewrite !bind_ret. destruct (catalog image d) as [c|e]; reflexivity.
    - rewrite bind_ret. cbn [bind]. destruct (catalog image segm) as [c|e]; reflexivity.
  Qed.

  Lemma catalog_plotted image deblend vmin vmax s :
    (forall x, deblend_ image None <> Ok (Some x)) ->
    fst (run image deblend true vmin vmax s) = M_Segm.make_catalog _ _ _ detect deblend_ catalog image deblend.
  Proof.
    intros Hd. unfold run, make_catalog_plot, M_Segm.make_catalog.
    destruct (detect image) as [[segm|]|e]; [| |reflexivity]; rewrite bind_ok; cbn [bind].
    - destruct deblend.
      + repeat first [rewrite bind_assoc | rewrite bind_subplots]. cbn [when nth seq]. rewrite bind_sca, bind_assoc, seg_bind, bind_ret, bind_assoc.
        destruct (deblend_ image (Some segm)) as [[d|]|e]; [| |reflexivity]; rewrite bind_ok; cbn [bind nth_error when].
        * repeat cstep.
          destruct (catalog image (Some d)) as [c|e]; reflexivity.
        * rewrite bind_assoc, !bind_ret. destruct (catalog image None) as [c|e]; reflexivity.
      + repeat first [rewrite bind_assoc | rewrite bind_subplots]. cbn [when]. rewrite bind_ret, bind_assoc, seg_bind, !bind_ret.
        destruct (catalog image (Some segm)) as [c|e]; reflexivity.
    - rewrite bind_ret. destruct deblend.
      + rewrite bind_assoc. destruct (deblend_ image None) as [[d|]|e] eqn:E; [now elim (Hd d)| |reflexivity].
        rewrite bind_ok. cbn [bind]. rewrite bind_assoc, !bind_ret. destruct (catalog image None) as [c|e]; reflexivity.
      + rewrite bind_ret. cbn [bind]. destruct (catalog image None) as [c|e]; reflexivity.
  Qed.

  Lemma catalog_drawn image vmin vmax s segm :
    detect image = Ok (Some segm) ->
    (exists s', snd (run image false true vmin vmax s) = s' /\
       emitted s s' (map_calls (cv_next s) segm image vmin vmax "Segmentation Map")) /\
    (forall d, deblend_ image (Some segm) = Ok (Some d) ->
       exists s', snd (run image true true vmin vmax s) = s' /\
       emitted s s' (map_calls (cv_next s) segm image vmin vmax "Segmentation Map" ++
                     map_calls (S (cv_next s)) d image vmin vmax "Deblended Segmentation Map")).
  Proof.
    intros H. unfold run, make_catalog_plot. rewrite H, !bind_ok. split; [|intros d Hd; rewrite Hd].
    - repeat first [rewrite bind_assoc | rewrite bind_subplots]. cbn [when]. rewrite bind_ret, bind_assoc, seg_bind, !bind_ret.
      eexists; split; [reflexivity|]. unfold emitted, map_calls.
      replace (cv_next s + 1 - 1)%nat with (cv_next s) by lia.
      destruct (catalog image (Some segm)); [rewrite bind_ok | rewrite bind_err]; reflexivity.
    - repeat first [rewrite bind_assoc | rewrite bind_subplots]. cbn [when nth seq]. rewrite bind_sca, bind_assoc, seg_bind, bind_ret, bind_assoc.
      repeat cstep.
      eexists; split; [reflexivity|]. unfold emitted, map_calls, adds. cbn [cv_cur cv_next cv_trace].
      destruct (catalog image (Some d)); [rewrite bind_ok | rewrite bind_err]; cbn [dret snd cv_trace]; rewrite <- app_assoc; reflexivity.
  Qed.
End CatalogPlot.

Section FitPlot.
  Context {T : Type} {N : Num T}.
  Lemma fit_failed (model : smodel (T:=T)) image m center vmin vmax cbar fl s e :
    plot_fit model image m center = Err e -> plot_fit_draw model image m center vmin vmax cbar fl s = (Err e, s).
  Proof. intros H. unfold plot_fit_draw. now rewrite H. Qed.

  Lemma fit_drawn (model : smodel (T:=T)) image m center vmin vmax cbar fl s mi res :
    plot_fit model image m center = Ok (mi, res) ->
    exists lo hi s' d, let a := cv_next s in
      plot_fit_draw model image m center vmin vmax cbar fl s = (Ok ([a; S a; S (S a)], mi, res), s') /\ emitted s s' d /\
      (forall b x v w, In (b, Image x v w) d <->
         v = Some lo /\ w = Some hi /\ ((b = a /\ x = image) \/ (b = S a /\ x = mi) \/ (b = S (S a) /\ x = res))) /\
      (forall b t, In (b, Title t) d <->
         (b = a /\ t = "Data") \/ (b = S a /\ t = "Model") \/ (b = S (S a) /\ t = "Residual"))%string /\
      (forall b t, In (b, XLabel t) d <-> (b = a \/ b = S a \/ b = S (S a)) /\ t = "Pixels"%string) /\
      (forall b t, In (b, YLabel t) d <-> b = a /\ t = "Pixels"%string) /\
      (forall b t, In (b, Ticks t) d <-> (b = a \/ b = S a \/ b = S (S a)) /\ t = true) /\
      (forall b t, In (b, Colorbar t) d <-> b = a /\ t = fl /\ cbar = true) /\
      (forall v, vmax = Some v -> hi = v) /\ (vmax = None -> hi = nmul (max2 (nanstd image) (nanstd mi)) (nofZ 3)) /\
      (forall v, vmin = Some v -> lo = v) /\ (vmin = None -> lo = nopp hi).
  Proof.
    intros H. unfold plot_fit_draw. rewrite H, bind_ok, bind_subplots. cbn [nth seq].
    set (hi := match vmax with None => nmul (max2 (nanstd image) (nanstd mi)) (nofZ 3) | Some v => v end).
    set (lo := match vmin with None => nopp hi | Some v => v end).
    exists lo, hi. set (a := cv_next s). unfold emitted. destruct cbar; cbn [when]; repeat mstep;
    (do 2 eexists; cbv zeta; split; [reflexivity|]; split; [cbn [cv_trace]; rewrite <- !app_assoc; reflexivity|]);
    cbn [In List.app].
    all: split; [|split; [|split; [|split; [|split; [|split]]]]].
    all: try (intros b x v w; split;
      [intros D; repeat (destruct D as [D|D]; [first [discriminate D | injection D as <- <- <- <-; auto 10] | ]); contradiction
      |intros (-> & -> & [(-> & ->)|[(-> & ->)|(-> & ->)]]); auto 25]).
    all: try (intros b t; split;
      [intros D; repeat (destruct D as [D|D]; [first [discriminate D | injection D as <- <-; auto 10] | ]); contradiction
      |first [intros [(-> & ->)|[(-> & ->)|(-> & ->)]]; auto 25 | intros ([->|[->| ->]] & ->); auto 25
             | intros (-> & -> & E); first [discriminate E | auto 25] | intros (-> & ->); auto 25]]).
    all: split; [intros v E; unfold hi; now rewrite E|]; split; [intros E; unfold hi; now rewrite E|];
         split; [intros v E; unfold lo; now rewrite E|]; intros E; unfold lo; now rewrite E.
  Qed.
End FitPlot.

(** the default limits are three standard deviations *)
Lemma img_rows {T} {N : Num T} (m : img T) : img_list m = flat_map (row_of m) (seq 0 (iny m)).
Proof.
  unfold img_list, pixels, row_of. induction (seq 0 (iny m)) as [|j l IH]; auto.
  cbn [flat_map]. rewrite map_app, IH, map_map. reflexivity.
Qed.
Lemma nanstd_fin (m : img xr) (l : list R) : l <> [] -> real_pixels m l -> nanstd m = Fin (deviation l).
Proof. intros Hl H. unfold nanstd. rewrite img_rows, H. now apply std_fin. Qed.
Lemma default_limits (a b : R) : nmul (max2 (Fin a) (Fin b)) (nofZ 3) = Fin (3 * Rmax a b).
Proof.
  unfold max2. cbn [nltb XRnum xltb nmul nofZ]. unfold Rltb. destruct (Rlt_dec a b);
  cbn [xmul]; f_equal; [rewrite Rmax_right by lra | rewrite Rmax_left by lra]; lra.
Qed.
Lemma fit_default (model : smodel (T:=xr)) image m center cbar fl s mi res l l' :
  plot_fit model image m center = Ok (mi, res) -> l <> [] -> l' <> [] -> real_pixels image l -> real_pixels mi l' ->
  exists s' d, fst (plot_fit_draw model image m center None None cbar fl s) = Ok ([cv_next s; S (cv_next s); S (S (cv_next s))], mi, res) /\
    snd (plot_fit_draw model image m center None None cbar fl s) = s' /\ emitted s s' d /\
    forall b x v w, In (b, Image x v w) d ->
      v = Some (Fin (- (3 * Rmax (deviation l) (deviation l')))) /\ w = Some (Fin (3 * Rmax (deviation l) (deviation l'))).
Proof.
  intros H Hl Hl' P P'.
  destruct (fit_drawn model image m center None None cbar fl s mi res H)
    as (lo & hi & s' & d & E & D & I & _ & _ & _ & _ & _ & _ & Hi & _ & Lo).
  exists s', d. rewrite E. split; [reflexivity|]. split; [reflexivity|]. split; [exact D|].
  intros b x v w Hin. apply I in Hin as (-> & -> & _). rewrite Lo by reflexivity. rewrite Hi by reflexivity.
  rewrite (nanstd_fin _ _ Hl P), (nanstd_fin _ _ Hl' P'), default_limits. split; [|reflexivity]. cbn. do 2 f_equal. ring.
Qed.
(** default brightness limit of the photometry figure: ten times the mean *)
Lemma mean_fin ny nx (g : nat -> nat -> R) : (0 < ny)%nat -> (0 < nx)%nat ->
  nmul (img_mean (rimg ny nx g)) (nofZ 10) = Fin (10 * (sum2 ny nx g / INR (ny * nx))).
Proof.
  intros Hy Hx. unfold img_mean, img_list. cbn [rimg iny inx px].
  rewrite <- (map_map (fun p => g (fst p) (snd p)) Fin), nsum_fin, rsum_pixels, L_PSF.nofnat_xr.
  cbn [ndiv XRnum nmul nofZ]. rewrite xdiv_fin by (apply not_0_INR; nia).
  cbn [xmul]. f_equal. unfold Rdiv. ring.
Qed.

Section FilesP.
  Context {T : Type} {N : Num T} {NL : NumLog T}.
  Variable mk : kind -> list T -> list T -> result (T -> T).
  Lemma lookup_here (fs : files (T:=T)) name t : lookup ((name, t) :: fs) name = Some t.
  Proof. unfold lookup. cbn. now rewrite String.eqb_refl. Qed.
  Lemma lookup_other (fs : files (T:=T)) name other t : other <> name -> lookup ((name, t) :: fs) other = lookup fs other.
  Proof. intros H. unfold lookup. cbn. destruct (String.eqb_spec name other); [congruence|reflexivity]. Qed.

  Lemma write_read (t : table T) e c name (fs : files) :
    PetrosianCorrection_new (GTable t) e = Ok c -> lookup fs name = None ->
    exists fs' c', cor_write c name fs = (Ok tt, fs') /\ cor_read name fs' = Ok c' /\
      c_grid c' = t /\ c_enforce c' = true /\ c_x c' = c_x c /\ c_y c' = c_y c /\ c_z c' = c_z c /\
      (forall other, other <> name -> lookup fs' other = lookup fs other).
  Proof.
    intros H L. unfold cor_write. rewrite L. pose proof (new_any _ _ _ true H) as H'.
    destruct (new_columns _ _ _ H) as (Et & _). rewrite Et.
    do 2 eexists. split; [reflexivity|]. unfold cor_read. rewrite lookup_here, H'. split; [reflexivity|]. cbn [c_grid c_enforce c_x c_y c_z].
    do 5 (split; [reflexivity|]). intros. now apply lookup_other.
  Qed.
  Lemma read_corrects (t : table T) c name (fs fs' : files) c' :
    PetrosianCorrection_new (GTable t) true = Ok c -> cor_write c name fs = (Ok tt, fs') -> cor_read name fs' = Ok c' ->
    forall p, correct mk c' p = correct mk c p /\ estimate_n mk c' p = estimate_n mk c p.
  Proof.
    intros H W R. unfold cor_write in W. destruct (lookup fs name); [discriminate W|]. injection W as <-.
    destruct (new_columns _ _ _ H) as (Et & _).
    unfold cor_read in R. rewrite lookup_here, Et, H in R. injection R as <-. auto.
  Qed.
  Lemma write_exists (c : correction T) name (fs : files) t : lookup fs name = Some t ->
    cor_write c name fs = (Err GenericException, fs).
  Proof. intros H. unfold cor_write. now rewrite H. Qed.
  Lemma read_missing name (fs : files (T:=T)) : lookup fs name = None -> cor_read name fs = Err GenericException.
  Proof. intros H. unfold cor_read. now rewrite H. Qed.
End FilesP.
