(** Property theorems for the other drawing code and for grid files: C84-C91. *)
From Coq Require Import String.
From Verif Require Import Base Num Numpy M_Utils M_Photometry M_Petrosian M_Correction M_PSF M_Fitting M_Plot S_Photometry S_PSF S_Correction S_Plot S_PetroR.
From Verif Require M_Segm L_Plot6 L_Plot7 L_Plot8 L_Plot10 E_Plot E_Plot2.
Local Open Scope list_scope.
Local Notation q := E_Plot.q.

(** C84. *)
Theorem C84_residual : forall T (N : Num T) segm (image : img T) vmin vmax s,
  (forall j i, labelled_at segm j i -> (j < iny image)%nat /\ (i < inx image)%nat) ->
  exists shown, plot_segment_residual segm image vmin vmax s = (Ok tt, adds s [(cv_cur s, Image shown vmin vmax)]) /\
    iny shown = iny image /\ inx shown = inx image /\
    (forall j i, labelled_at segm j i -> px shown j i = n0) /\
    (forall j i, ~ labelled_at segm j i -> px shown j i = px image j i).
Proof. exact @L_Plot6.segment_residual. Qed.
Print Assumptions C84_residual.

Theorem C84_outside : forall T (N : Num T) segm (image : img T) vmin vmax s j i,
  labelled_at segm j i -> ~ ((j < iny image)%nat /\ (i < inx image)%nat) ->
  plot_segment_residual segm image vmin vmax s = (Err IndexError, s).
Proof. exact @L_Plot6.segment_outside. Qed.
Print Assumptions C84_outside.

Theorem C84_segments : forall T segm (image : option (img T)) vmin vmax title s,
  plot_segments segm image vmin vmax title s =
  (Ok tt, adds s (map (pair (cv_cur s))
     (given (option_map (fun m => Image m vmin vmax) image) ++ [Labels segm] ++
      given (option_map Title title) ++ [XLabel "Pixels"; YLabel "Pixels"]%string))).
Proof. exact @L_Plot6.segments_run. Qed.
Print Assumptions C84_segments.

Example C84_example : exists shown,
  plot_segment_residual E_Plot2.seg22 (E_Plot2.im 2 2 (fun j i => 1 + Z.of_nat (2 * j + i))%Z) None None E_Plot.blank_canvas =
    (Ok tt, adds E_Plot.blank_canvas [(7%nat, Image shown None None)]) /\
  (px shown 0 0 = E_Plot.q 0 1 /\ px shown 0 1 = E_Plot.q 2 1 /\ px shown 1 0 = E_Plot.q 3 1 /\ px shown 1 1 = E_Plot.q 0 1) /\
  fst (plot_segment_residual E_Plot2.seg22 (E_Plot2.im 1 2 (fun _ _ => 1%Z)) None None E_Plot.blank_canvas) = Err IndexError.
Proof. exact E_Plot2.residual_example. Qed.

(** C85. *)
Theorem C85_drawn : forall T (image : option (img T)) l vmin vmax s,
  plot_apertures image (Some l) vmin vmax s =
  (Ok tt, adds s (map (pair (cv_cur s))
     (given (option_map (fun m => Image m vmin vmax) image) ++ map (fun a => Ellipse a L_none) l ++ [Title "Apertures"]))).
Proof. exact @L_Plot6.apertures_run. Qed.
Print Assumptions C85_drawn.

Theorem C85_none : forall T (image : option (img T)) vmin vmax s,
  plot_apertures image None vmin vmax s =
  (Err TypeError, adds s (map (pair (cv_cur s)) (given (option_map (fun m => Image m vmin vmax) image)))).
Proof. exact @L_Plot6.apertures_none. Qed.
Print Assumptions C85_none.

Example C85_example :
  let a := mkap (q 1 1) (q 2 1) (q 3 1) (q 4 1) (q 5 1) in let s := E_Plot.blank_canvas in
  plot_apertures (T:=f64) None (Some []) None None s = (Ok tt, adds s [(7%nat, Title "Apertures")]) /\
  plot_apertures (T:=f64) None (Some [a; a]) None None s =
    (Ok tt, adds s [(7%nat, Ellipse a L_none); (7%nat, Ellipse a L_none); (7%nat, Title "Apertures")]).
Proof. exact E_Plot2.apertures_example. Qed.

(** C86. *)
Theorem C86_window : forall (image : img xr) x y size vmin vmax s side,
  match size with Some z => z = Fin side | None => side = INR (Nat.max (iny image) (inx image)) end ->
  exists s' d lx hx ly hy, plot_target image (Fin x, Fin y) size vmin vmax s = (Ok tt, s') /\ emitted s s' d /\
    d = [(cv_cur s, Image image vmin vmax); (cv_cur s, Point (Fin x) (Fin y));
         (cv_cur s, XLim (Fin lx) (Some (Fin hx))); (cv_cur s, YLim (Fin ly) (Some (Fin hy)))] /\
    (lx + hx = 2 * x /\ ly + hy = 2 * y /\ hx - lx = side /\ hy - ly = side)%R.
Proof. exact L_Plot6.target_window. Qed.
Print Assumptions C86_window.

Example C86_example : exists d lx hx ly hy s',
  plot_target (mkimg 3 5 (fun _ _ => Fin 0)) (Fin 2, Fin 1) None None None (mkcanvas 0 1 []) = (Ok tt, s') /\
  cv_trace s' = d /\ d = [(0%nat, Image (mkimg 3 5 (fun _ _ => Fin 0)) None None); (0%nat, Point (Fin 2) (Fin 1));
         (0%nat, XLim (Fin lx) (Some (Fin hx))); (0%nat, YLim (Fin ly) (Some (Fin hy)))] /\
  (lx = -1/2 /\ hx = 9/2 /\ ly = -3/2 /\ hy = 7/2)%R.
Proof. exact E_Plot2.target_example. Qed.

(** C87. *)
Theorem C87_write_read : forall T (N : Num T) (t : table T) e c name fs,
  PetrosianCorrection_new (GTable t) e = Ok c -> lookup fs name = None ->
  exists fs' c', cor_write c name fs = (Ok tt, fs') /\ cor_read name fs' = Ok c' /\
    c_grid c' = t /\ c_enforce c' = true /\ c_x c' = c_x c /\ c_y c' = c_y c /\ c_z c' = c_z c /\
    (forall other, other <> name -> lookup fs' other = lookup fs other).
Proof. exact @L_Plot8.write_read. Qed.
Print Assumptions C87_write_read.

Theorem C87_corrections : forall T (N : Num T) (NL : NumLog T) (mk : kind -> list T -> list T -> result (T -> T))
    t c name fs fs' c',
  PetrosianCorrection_new (GTable t) true = Ok c -> cor_write c name fs = (Ok tt, fs') -> cor_read name fs' = Ok c' ->
  forall p, correct mk c' p = correct mk c p /\ estimate_n mk c' p = estimate_n mk c p.
Proof. exact @L_Plot8.read_corrects. Qed.
Print Assumptions C87_corrections.

Theorem C87_no_overwrite : forall T (c : correction T) name fs t,
  lookup fs name = Some t -> cor_write c name fs = (Err GenericException, fs).
Proof. exact @L_Plot8.write_exists. Qed.
Print Assumptions C87_no_overwrite.

Theorem C87_missing : forall T (N : Num T) name (fs : files (T:=T)),
  lookup fs name = None -> cor_read name fs = Err GenericException.
Proof. exact @L_Plot8.read_missing. Qed.
Print Assumptions C87_missing.

Example C87_example : exists c fs' c',
  PetrosianCorrection_new (GTable E_Plot.gtable) false = Ok c /\ cor_write c "grid.ecsv" [] = (Ok tt, fs') /\
  cor_read "grid.ecsv" fs' = Ok c' /\ c_enforce c = false /\ c_enforce c' = true /\
  cor_write c "grid.ecsv" fs' = (Err GenericException, fs') /\ cor_read (T:=f64) "other.ecsv" fs' = Err GenericException.
Proof. exact E_Plot2.files_example. Qed.

(** C88. *)
Theorem C88_plot : forall T (N : Num T) (overlap : aperture T -> nat -> nat -> option (nat -> nat -> T))
    k image pos error mask elong theta r_list vmin vmax s,
  fst (radial_photometry_plot overlap k image pos r_list error mask elong theta vmin vmax s) =
  radial_photometry overlap k image pos r_list error mask elong theta /\
  exists done rest hi, r_list = done ++ rest /\
    snd (radial_photometry_plot overlap k image pos r_list error mask elong theta vmin vmax s) =
      adds s (map (pair (cv_cur s))
        ([Image image vmin (Some hi); Title "Image and Aperture Radii"; XLabel "Pixels"; YLabel "Pixels"]%string ++
         map (ring pos elong theta) done)) /\
    hi = match vmax with Some v => v | None => nmul (img_mean image) (nofZ 10) end /\
    (exists v, radial_photometry overlap k image pos done error mask elong theta = Ok v) /\
    (forall r tl, rest = r :: tl -> exists e, radial_photometry overlap k image pos [r] error mask elong theta = Err e).
Proof. exact @L_Plot7.radial_plot. Qed.
Print Assumptions C88_plot.

Theorem C88_limit : forall ny nx g, (0 < ny)%nat -> (0 < nx)%nat ->
  nmul (img_mean (rimg ny nx g)) (nofZ 10) = Fin (10 * (sum2 ny nx g / INR (ny * nx))).
Proof. exact L_Plot8.mean_fin. Qed.
Print Assumptions C88_limit.

Theorem C88_limit_nan : forall (image : img xr) j i, (j < iny image)%nat -> (i < inx image)%nat -> px image j i = NaN ->
  nmul (img_mean image) (nofZ 10) = NaN.
Proof. exact L_Plot8.mean_nan. Qed.
Print Assumptions C88_limit_nan.

Example C88_example : let image := E_Plot2.im 2 2 (fun _ _ => 3%Z) in
  let out := radial_photometry_plot E_Plot2.flat NpFloat image (q 1 1, q 1 1) [q 1 1; q 2 1] None None (q 1 1) (q 0 1) None None E_Plot.blank_canvas in
  fst out = Ok ([q 12 1; q 12 1], [q 4 1; q 4 1], [nnan; nnan]) /\
  snd out = adds E_Plot.blank_canvas (map (pair 7%nat)
    ([Image image None (Some (nmul (img_mean image) (nofZ 10))); Title "Image and Aperture Radii"; XLabel "Pixels"; YLabel "Pixels"]%string ++
      map (ring (q 1 1, q 1 1) (q 1 1) (q 0 1)) [q 1 1; q 2 1])) /\ nmul (img_mean image) (nofZ 10) = q 30 1.
Proof. exact E_Plot2.radial_example. Qed.

(** C89. *)
Theorem C89_same : forall overlap sigma_clip clipped_stats M O planar linear opts evalM
    k src image segm (r_list : list xr) error size bg sigma kind mb vmin vmax h s,
  r_list <> [] ->
  fst (source_photometry_plot overlap sigma_clip clipped_stats M O planar linear opts evalM
         k src image segm r_list error size bg sigma kind mb vmin vmax h s) =
  M_Segm.source_photometry overlap sigma_clip clipped_stats M O planar linear opts evalM
    k src image segm r_list error size bg sigma kind mb h.
Proof. exact E_Plot2.source_same. Qed.
Print Assumptions C89_same.

Theorem C89_empty : forall T (N : Num T) overlap sigma_clip clipped_stats M O planar linear opts evalM
    k src image segm error size bg (sigma : T) kind mb vmin vmax h s h' v,
  M_Segm.source_photometry overlap sigma_clip clipped_stats M O planar linear opts evalM
    k src image segm [] error size bg sigma kind mb h = (Ok v, h') ->
  v = ([], [], []) /\
  fst (source_photometry_plot overlap sigma_clip clipped_stats M O planar linear opts evalM
         k src image segm [] error size bg sigma kind mb vmin vmax h s) = (Err ValueError, h').
Proof. exact @L_Plot10.plotted_empty. Qed.
Print Assumptions C89_empty.

Theorem C89_figures : forall T (N : Num T) overlap sigma_clip clipped_stats M O planar linear opts evalM
    k src image segm (r_list : list T) error size bg sigma kind mb vmin vmax h s v h' s',
  source_photometry_plot overlap sigma_clip clipped_stats M O planar linear opts evalM
    k src image segm r_list error size bg sigma kind mb vmin vmax h s = (Ok v, h', s') ->
  exists d, let a := cv_next s in emitted s s' d /\
    (forall b c, In (b, c) d -> (a <= b < a + 4)%nat) /\
    (forall xs ys, In (S a, Line xs ys) d <-> xs = r_list /\ ys = fst (fst v)) /\
    (forall x l, In (S a, VLine x l) d <-> In x r_list /\ l = L_none) /\
    (forall b ap l, In (b, Ellipse ap l) d -> b = a /\ In (ap_a ap) r_list) /\
    (forall r, In r r_list -> exists ap l, In (a, Ellipse ap l) d /\ ap_a ap = r).
Proof. exact @L_Plot10.figures. Qed.
Print Assumptions C89_figures.

(** the two slices through the middle of the cutout that is shown, and the lines marking its centre and the largest radius *)
Theorem C89_slices : forall overlap sigma_clip clipped_stats M O planar linear opts evalM
    k src image segm (rs : list R) rmax error size bg sigma kind mb vmin vmax h s v h' s',
  is_max rs rmax ->
  source_photometry_plot (T:=xr) overlap sigma_clip clipped_stats M O planar linear opts evalM
    k src image segm (map Fin rs) error size bg sigma kind mb vmin vmax h s = (Ok v, h', s') ->
  exists d shown, let a := cv_next s in emitted s s' d /\
    (forall m lo hi, In (a, Image m lo hi) d -> m = shown /\ lo = vmin) /\ (exists hi, In (a, Image shown vmin hi) d) /\
    (forall xs ys, In (a + 2, Line xs ys)%nat d <->
       xs = map (fun i => Fin (INR i)) (seq 0 (inx shown)) /\
       ys = map (fun i => px shown (Nat.div (inx shown) 2) i) (seq 0 (inx shown))) /\
    (forall xs ys, In (a + 3, Line xs ys)%nat d <->
       xs = map (fun j => Fin (INR j)) (seq 0 (iny shown)) /\
       ys = map (fun j => px shown j (Nat.div (iny shown) 2)) (seq 0 (iny shown))) /\
    (forall b x l, b = 2%nat \/ b = 3%nat -> In (a + b, VLine x l)%nat d <-> l = L_none /\
       exists u, x = Fin (INR (iny shown) / 2 + u) /\ (u = 0 \/ u = rmax \/ u = - rmax)%R).
Proof. exact L_Plot10.slices. Qed.
Print Assumptions C89_slices.

Example C89_example : exists v h' s' d,
  let run r_list := source_photometry_plot (T:=f64) E_Plot2.flat (fun s _ => mkimg (iny s) (inx s) (fun _ _ => false))
    (fun _ => (nofZ 0, nofZ 0)) unit unit tt (mkfitter false (fun _ _ _ _ => Err ValueError)) tt (fun _ X Y => Ok X) NpFloat
    (M_Segm.SCat (M_Segm.mkrow 1 2 2 (nofZ 1) (nofZ 0))) 0 E_Plot2.seg44 r_list None (VInt 2) false (nofZ 3) M_Segm.Clip false None None
    [M_Segm.mkarr M_Segm.DFloat E_Plot2.picture64] E_Plot.blank_canvas in
  run [nofZ 1; nofZ 2] = (Ok v, h', s') /\ emitted E_Plot.blank_canvas s' d /\
  In (10%nat, Line [nofZ 1; nofZ 2] (fst (fst v))) d /\ List.length (fst (fst v)) = 2%nat /\
  fst (fst (run [])) = Err ValueError.
Proof. exact E_Plot2.source_example. Qed.

(** the cutout is [[11, 12], [21, 22]]: second row, second column *)
Example C89_slices_example :
  let t := cv_trace (snd (source_photometry_plot (T:=f64) E_Plot2.flat (fun s _ => mkimg (iny s) (inx s) (fun _ _ => false))
    (fun _ => (nofZ 0, nofZ 0)) unit unit tt (mkfitter false (fun _ _ _ _ => Err ValueError)) tt (fun _ X Y => Ok X) NpFloat
    (M_Segm.SCat (M_Segm.mkrow 1 2 2 (nofZ 1) (nofZ 0))) 0 E_Plot2.seg44 [nofZ 1; nofZ 2] None (VInt 2) false (nofZ 3) M_Segm.Clip false None None
    [M_Segm.mkarr M_Segm.DFloat E_Plot2.picture64] E_Plot.blank_canvas)) in
  In (11%nat, Line [nofZ 0; nofZ 1] [nofZ 21; nofZ 22]) t /\ In (12%nat, Line [nofZ 0; nofZ 1] [nofZ 12; nofZ 22]) t.
Proof. exact E_Plot2.slices_example. Qed.

(** C90. *)
Theorem C90_unplotted : forall T C detect deblend_ catalog (image : img T) deblend vmin vmax s,
  make_catalog_plot C detect deblend_ catalog image deblend false vmin vmax s =
  (M_Segm.make_catalog (img T) (img Z) C detect deblend_ catalog image deblend, s).
Proof. exact @L_Plot8.catalog_unplotted. Qed.
Print Assumptions C90_unplotted.

Theorem C90_plotted : forall T C detect deblend_ catalog (image : img T) deblend vmin vmax s,
  (forall x, deblend_ image None <> Ok (Some x)) ->
  fst (make_catalog_plot C detect deblend_ catalog image deblend true vmin vmax s) =
  M_Segm.make_catalog (img T) (img Z) C detect deblend_ catalog image deblend.
Proof. exact @L_Plot8.catalog_plotted. Qed.
Print Assumptions C90_plotted.

Theorem C90_maps : forall T C detect deblend_ catalog (image : img T) vmin vmax s segm,
  detect image = Ok (Some segm) ->
  (exists s', snd (make_catalog_plot C detect deblend_ catalog image false true vmin vmax s) = s' /\
     emitted s s' (map_calls (cv_next s) segm image vmin vmax "Segmentation Map")) /\
  (forall d, deblend_ image (Some segm) = Ok (Some d) ->
     exists s', snd (make_catalog_plot C detect deblend_ catalog image true true vmin vmax s) = s' /\
     emitted s s' (map_calls (cv_next s) segm image vmin vmax "Segmentation Map" ++
                   map_calls (S (cv_next s)) d image vmin vmax "Deblended Segmentation Map")).
Proof. exact @L_Plot8.catalog_drawn. Qed.
Print Assumptions C90_maps.

Example C90_example :
  let run := make_catalog_plot (T:=f64) (option (img Z)) (fun _ => Ok (Some E_Plot2.seg22)) (fun _ s => Ok s) (fun _ s => Ok s) in
  let image := E_Plot2.im 2 2 (fun _ _ => 3%Z) in let m := E_Plot2.seg22 in
  exists s', run image true true None None E_Plot.blank_canvas = (Ok (Some m, Some m, Some m), s') /\
    cv_trace s' = map_calls 9 m image None None "Segmentation Map" ++ map_calls 10 m image None None "Deblended Segmentation Map".
Proof. exact E_Plot2.catalog_example. Qed.

(** C91. *)
Theorem C91_failed : forall T (N : Num T) model (image : img T) m center vmin vmax cbar fl s e,
  plot_fit model image m center = Err e -> plot_fit_draw model image m center vmin vmax cbar fl s = (Err e, s).
Proof. exact @L_Plot8.fit_failed. Qed.
Print Assumptions C91_failed.

Theorem C91_drawn : forall T (N : Num T) model (image : img T) m center vmin vmax cbar fl s mi res,
  plot_fit model image m center = Ok (mi, res) ->
  exists lo hi s' d, let a := cv_next s in
    plot_fit_draw model image m center vmin vmax cbar fl s = (Ok ([a; S a; S (S a)], mi, res), s') /\ emitted s s' d /\
    (forall b x v w, In (b, Image x v w) d <->
       v = Some lo /\ w = Some hi /\ ((b = a /\ x = image) \/ (b = S a /\ x = mi) \/ (b = S (S a) /\ x = res))) /\
    (forall b t, In (b, Title t) d <->
       (b = a /\ t = "Data") \/ (b = S a /\ t = "Model") \/ (b = S (S a) /\ t = "Residual"))%string /\
    (forall b t, In (b, XLabel t) d <-> (b = a \/ b = S a \/ b = S (S a)) /\ t = "Pixels"%string) /\
    (forall b t, In (b, YLabel t) d <-> b = a /\ t = "Pixels"%string) /\
    (forall b t, In (b, Ticks t) d <-> (b = a \/ b = S a \/ b = S (S a)) /\ t = true) /\
    (forall b t, In (b, Colorbar t) d <-> b = a /\ t = fl /\ cbar = true) /\
    (forall v, vmax = Some v -> hi = v) /\ (vmax = None -> hi = nmul (max2 (nanstd image) (nanstd mi)) (nofZ 3)) /\
    (forall v, vmin = Some v -> lo = v) /\ (vmin = None -> lo = nopp hi).
Proof. exact @L_Plot8.fit_drawn. Qed.
Print Assumptions C91_drawn.

(** the default limits, for images with at least one pixel that is not NaN *)
Theorem C91_default : forall (model : smodel (T:=xr)) image m center cbar fl s mi res l l',
  plot_fit model image m center = Ok (mi, res) -> l <> [] -> l' <> [] -> real_pixels image l -> real_pixels mi l' ->
  exists s' d, fst (plot_fit_draw model image m center None None cbar fl s) = Ok ([cv_next s; S (cv_next s); S (S (cv_next s))], mi, res) /\
    snd (plot_fit_draw model image m center None None cbar fl s) = s' /\ emitted s s' d /\
    forall b x v w, In (b, Image x v w) d ->
      v = Some (Fin (- (3 * Rmax (deviation l) (deviation l')))) /\ w = Some (Fin (3 * Rmax (deviation l) (deviation l'))).
Proof. exact L_Plot8.fit_default. Qed.
Print Assumptions C91_default.

Example C91_example : let image := E_Plot2.im 2 2 (fun j i => Z.of_nat (2 * j + i)) in
  exists s' mi res d, plot_fit_draw (fun X Y => Ok X) image Center None None (Some (q 5 1)) true "Flux" E_Plot.blank_canvas
    = (Ok ([9%nat; 10%nat; 11%nat], mi, res), s') /\ emitted E_Plot.blank_canvas s' d /\
  In (9%nat, Image image (Some (nopp (q 5 1))) (Some (q 5 1))) d /\
  In (11%nat, Image res (Some (nopp (q 5 1))) (Some (q 5 1))) d /\ px res 1 0 = q 2 1 /\ px res 0 1 = q 0 1.
Proof. exact E_Plot2.fit_example. Qed.
