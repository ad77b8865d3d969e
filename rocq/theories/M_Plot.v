(** Model of the drawing code of petrofit, as the sequence of drawing calls it makes.

    Axes are numbers.  Every call records the axes it acts on; colours, font sizes, line widths
    and other cosmetic arguments are left out.  The number formatting of legend entries is left
    out too: an entry keeps the values that are formatted. *)
From Coq Require Import String.
From Verif Require Import Base Num Numpy M_Utils M_Photometry M_Petrosian M_Correction M_PSF M_Fitting.
From Verif Require M_Segm.
Local Open Scope list_scope.

Section Plot.
  Context {T : Type} {N : Num T} {NL : NumLog T}.
  Local Open Scope num_scope.

  Definition axes := nat.

  (** legend entries *)
  Inductive legend :=
  | L_none | L_data | L_target
  | L_rp (eta r : T) (unit : string)
  | L_total (percent : Z) (r : T) (unit : string)
  | L_half (r : T) (unit : string)
  | L_name (s : string).

  Inductive cmd :=
  | Errorbar (x y : list T) (yerr : option (list T))
  | Fill (x lo hi : list T)
  | VLine (x : T) (l : legend)
  | HLine (y : T)
  | PointErr (x y xerr : T)
  | Point (x y : T)
  | Scatter (x y c : list T) (vmin vmax : T)
  | Line (x y : list T)
  | Ellipse (a : aperture T) (l : legend)
  | Image (m : img T) (vmin vmax : option T)
  | Labels (m : img Z)
  | Title (s : string) | XLabel (s : string) | YLabel (s : string)
  | XLim (lo : T) (hi : option T) | YLim (lo : T) (hi : option T)
  | Ticks (minor : bool)
  | Legend | Colorbar (label : string) | SupTitle (s : string).

  (** current axes (plt.gca()), number of the next axes to be created, calls so far *)
  Record canvas := mkcanvas { cv_cur : axes; cv_next : nat; cv_trace : list (axes * cmd) }.
  Definition draw (A : Type) := canvas -> result A * canvas.
  Definition dret {A} (a : A) : draw A := fun s => (Ok a, s).
  Definition dlift {A} (m : result A) : draw A := fun s => (m, s).
  Definition dbind {A B} (m : draw A) (f : A -> draw B) : draw B :=
    fun s => match m s with (Ok a, s') => f a s' | (Err e, s') => (Err e, s') end.
  Definition gca : draw axes := fun s => (Ok (cv_cur s), s).
  Definition sca (a : axes) : draw unit := fun s => (Ok tt, mkcanvas a (cv_next s) (cv_trace s)).
  Definition put (a : axes) (c : cmd) : draw unit :=
    fun s => (Ok tt, mkcanvas (cv_cur s) (cv_next s) (cv_trace s ++ [(a, c)])).
  (** plt.subplots with n > 0 panels: the last one becomes current *)
  Definition subplots (n : nat) : draw (list axes) := fun s =>
    (Ok (seq (cv_next s) n), mkcanvas (cv_next s + n - 1)%nat (cv_next s + n)%nat (cv_trace s)).
End Plot.

Notation "'draw!' x := m 'in' f" := (dbind m (fun x => f))
  (at level 200, x name, m at level 100, f at level 200).
Notation "m ;; f" := (dbind m (fun _ => f)) (at level 100, f at level 200, right associativity).

Section Plot2.
  Context {T : Type} {N : Num T} {NL : NumLog T}.
  Local Open Scope num_scope.
  Variable mk : kind -> list T -> list T -> result (T -> T).

  Definition when (b : bool) (m : draw (T:=T) unit) : draw unit := if b then m else dret tt.
  (** for x in l: f x *)
  Fixpoint for_each {A} (l : list A) (f : A -> draw (T:=T) unit) : draw unit :=
    match l with
    | [] => dret tt
    | x :: xs => f x ;; for_each xs f
    end.

  (** ** utils.py *)

  (** utils.py 241-263 *)
  Definition mpl_tick_frame (ax : option axes) (minorticks : bool) : draw (T:=T) unit :=
    draw! ax := match ax with None => gca | Some a => dret a end in
    put ax (Ticks minorticks).

  (** utils.py 169-210; image.shape = (ny, nx) *)
  Definition plot_target (image : img T) (position : T * T) (size : option T) (vmin vmax : option T)
    : draw unit :=
    let size := match size with
                | None => nofnat (Nat.max (iny image) (inx image))
                | Some s => s
                end in
    let '(x, y) := position in
    draw! ax := gca in
    put ax (Image image vmin vmax) ;;
    put ax (Point x y) ;;
    put ax (XLim (x - size / n2) (Some (x + size / n2))) ;;
    put ax (YLim (y - size / n2) (Some (y + size / n2))).

  (** ** photometry.py *)

  (** photometry.py 15-45.  for _ in None raises TypeError. *)
  Definition plot_apertures (image : option (img T)) (apertures : option (list (aperture T)))
      (vmin vmax : option T) : draw unit :=
    draw! ax := gca in
    match image with Some m => put ax (Image m vmin vmax) | None => dret tt end ;;
    match apertures with
    | None => dlift (Err TypeError)
    | Some l => for_each l (fun a => put ax (Ellipse a L_none))
    end ;;
    when (match image with Some _ => true | None => false end ||
          match apertures with Some _ => true | None => false end ||
          match apertures with Some l => Nat.ltb 0 (List.length l) | None => false end)
         (put ax (Title "Apertures")).

  (** image.mean(); 0/0 for an empty image *)
  Definition img_mean (m : img T) : T :=
    nsum (img_list m) / nofnat (iny m * inx m).

  Variable overlap : aperture T -> nat -> nat -> option (nat -> nat -> T).

  (** photometry.py 108-227 with plot=True: [one_radius] with the aperture drawn after the
      NaN test *)
  Fixpoint radial_loop (k : flavour) (image : img T) (pos : T * T) (error : option (img T))
      (mask : option (img bool)) (elong theta : T) (r_list : list T) : draw (list (T * T * T)) :=
    match r_list with
    | [] => dret []
    | r :: rs =>
        draw! ap := dlift (radial_elliptical_aperture k pos r elong theta) in
        draw! t := dlift (one_radius overlap k image pos error mask elong theta r) in
        draw! ax := gca in
        put ax (Ellipse ap L_none) ;;
        draw! l := radial_loop k image pos error mask elong theta rs in
        dret (t :: l)
    end.
  Definition radial_photometry_plot (k : flavour) (image : img T) (pos : T * T) (r_list : list T)
      (error : option (img T)) (mask : option (img bool)) (elong theta : T) (vmin vmax : option T)
    : draw (list T * list T * list T) :=
    draw! ax := gca in
    put ax (Image image vmin (match vmax with None => Some (img_mean image * nofZ 10) | v => v end)) ;;
    put ax (Title "Image and Aperture Radii") ;;
    put ax (XLabel "Pixels") ;;
    put ax (YLabel "Pixels") ;;
    draw! l := radial_loop k image pos error (option_map invert mask) elong theta r_list in
    dret (map (fun t => fst (fst t)) l, map (fun t => snd (fst t)) l, map snd l).

  (** ** petrosian/core.py *)

  (** matplotlib errorbar (3.4 or later) refuses negative errors *)
  Definition negative (e : list T) : bool := existsb (fun x => nltb x n0) e.
  Definition errorbar (ax : axes) (x y : list T) (yerr : option (list T)) : draw unit :=
    if match yerr with None => false | Some e => negative e end then dlift (Err ValueError)
    else put ax (Errorbar x y yerr).
  Definition point_err (ax : axes) (x y xerr : T) : draw unit :=
    if negative [xerr] then dlift (Err ValueError) else put ax (PointErr x y xerr).

  Definition unit_text (u : option string) : string := match u with None => ""%string | Some s => s end.
  Definition nonempty (s : string) : bool := negb (String.eqb s "").
  (** " [{}]".format(s) *)
  Definition bracket (s : string) : string := (" [" ++ s ++ "]")%string.
  (** core.py 1034, 1183: the conditional expression covers the whole sum *)
  Definition radius_label (u : string) : string :=
    if nonempty u then ("Aperture Radius" ++ bracket u)%string else ""%string.
  (** core.py 1188 *)
  Definition flux_label (u : option string) : string :=
    ("$L(\leq r)$" ++ (if nonempty (unit_text u) then bracket (unit_text u) else ""))%string.

  (** [err_alpha is not None and self.has_petrosian_err and err_alpha > 0] *)
  Definition shade (err_alpha : option T) (o : petrosian T) : bool :=
    match err_alpha with
    | None => false
    | Some a => match p_err o with None => false | Some _ => nltb n0 a end
    end.
  (** a - e, a + e with e None: TypeError *)
  Definition fill_between (ax : axes) (x y : list T) (e : option (list T)) : draw unit :=
    match e with
    | None => dlift (Err TypeError)
    | Some e =>
        draw! lo := dlift (np_map2 nsub y e) in
        draw! hi := dlift (np_map2 nadd y e) in
        put ax (Fill x lo hi)
    end.

  Definition obj_r_total_flux (o : petrosian T) : result T :=
    do r <- obj_fraction mk o (s_total_flux_fraction (p_set o)); Ok (fst r).
  (** int(self.total_flux_fraction * 100) *)
  Definition percent (o : petrosian T) : result Z := int_of (s_total_flux_fraction (p_set o) * nofZ 100).

  (** core.py 894-931 *)
  Definition plot_radii (o : petrosian T) (ax : axes) (radius_unit : option string) : draw unit :=
    let u := unit_text radius_unit in
    draw! rp := dlift (obj_r_petrosian mk o) in
    when (negb (nisnan rp)) (put ax (VLine rp (L_rp (s_eta (p_set o)) rp u))) ;;
    draw! rt := dlift (obj_r_total_flux o) in
    when (negb (nisnan rt))
      (draw! pc := dlift (percent o) in put ax (VLine rt (L_total pc rt u))) ;;
    draw! rh := dlift (obj_r_half_light mk o) in
    when (negb (nisnan rh)) (put ax (VLine rh (L_half rh u))).

  (** core.py 933-1049 *)
  Definition plot (o : petrosian T) (plot_r : bool) (title : string) (radius_unit : option string)
      (ax : option axes) (err_alpha : option T) (show_legend : bool) : draw axes :=
    let u := unit_text radius_unit in
    let r := d_r (p_data o) in
    let eta := s_eta (p_set o) in
    draw! ax := match ax with None => gca | Some a => dret a end in
    errorbar ax r (p_list o) (p_err o) ;;
    when (shade err_alpha o) (fill_between ax r (p_list o) (p_err o)) ;;
    draw! rp := dlift (obj_r_petrosian mk o) in
    draw! re := dlift (obj_r_petrosian_err mk o) in
    when plot_r
      (put ax (HLine eta) ;;
       when (negb (nisnan rp))
         (put ax (VLine rp (L_rp eta rp u)) ;;
          (if negb (nisnan re) then point_err ax rp eta re else put ax (Point rp eta)))) ;;
    put ax (HLine n0) ;;
    put ax (Title title) ;;
    put ax (XLabel (radius_label u)) ;;
    put ax (YLabel "Petrosian Index $\eta(r)$") ;;
    mpl_tick_frame None true ;;
    put ax (XLim n0 None) ;;
    when show_legend (put ax Legend) ;;
    dret ax.

  (** one radius of plot_cog: vertical line, horizontal line, marker *)
  Definition cog_mark (ax : axes) (r f : T) (l : legend (T:=T)) : draw unit :=
    put ax (VLine r l) ;; put ax (HLine f) ;; put ax (Point r f).

  (** core.py 1051-1203 *)
  Definition plot_cog (o : petrosian T) (plot_r : bool) (title : string) (radius_unit flux_unit : option string)
      (ax : option axes) (err_alpha : option T) (show_legend : bool) : draw axes :=
    let u := unit_text radius_unit in
    let r := d_r (p_data o) in
    let flux := d_flux (p_data o) in
    let ferr := d_flux_err (p_data o) in
    draw! ax := match ax with None => gca | Some a => dret a end in
    errorbar ax r flux ferr ;;
    when (shade err_alpha o) (fill_between ax r flux ferr) ;;
    when plot_r
      (draw! rh := dlift (obj_r_half_light mk o) in
       draw! hf := dlift (obj_half_flux mk o) in
       when (negb (nisnan rh) && negb (nisnan hf)) (cog_mark ax rh hf (L_half rh u)) ;;
       draw! rt := dlift (obj_r_total_flux o) in
       draw! tf := dlift (obj_total_flux mk o) in
       when (negb (nisnan rt) && negb (nisnan tf))
         (draw! pc := dlift (percent o) in cog_mark ax rt tf (L_total pc rt u))) ;;
    put ax (Title title) ;;
    put ax (XLabel (radius_label u)) ;;
    put ax (YLabel (flux_label flux_unit)) ;;
    mpl_tick_frame None true ;;
    put ax (XLim n0 None) ;;
    put ax (YLim n0 None) ;;
    when show_legend (put ax Legend) ;;
    dret ax.

  (** core.py 1205-1249.  The radii are numpy floats or Python nan; [k] is the kind of the
      quotient r / elong (numpy as soon as r is). *)
  Definition imshow (k : flavour) (o : petrosian T) (position : T * T) (elong theta : T) : draw unit :=
    draw! rh := dlift (obj_r_half_light mk o) in
    draw! rt := dlift (obj_r_total_flux o) in
    draw! r20 := dlift (obj_fraction mk o (nlit 1 5)) in
    draw! r80 := dlift (obj_fraction mk o (nlit 4 5)) in
    for_each [("r_half_light"%string, rh); ("r_total_flux"%string, rt);
              ("r_20"%string, fst r20); ("r_80"%string, fst r80)]
      (fun lr => when (negb (nisnan (snd lr)) && nltb n0 (snd lr))
         (draw! a := dlift (radial_elliptical_aperture k position (snd lr) elong theta) in
          draw! ax := gca in
          put ax (Ellipse a (L_name (fst lr))))) ;;
    draw! ax := gca in
    put ax (Point (fst position) (snd position)).

  (** ** petrosian/correction.py *)

  (** builtin max of a column; NaN entries follow the builtin's comparison *)
  Definition py_max (l : list T) : result T := pymax l.

  (** correction.py 506-624.  [target] is Some (x0, y0, z0) when none of the three is None. *)
  Definition plot_grid (c : correction T) (target : option (T * T * T)) (cmap_key : string)
      (colorbar_label suptitle : option string) (axs : option (list axes)) : draw (list axes) :=
    draw! axs := match axs with
                 | None => subplots 3
                 | Some l => if Nat.eqb (List.length l) 3 then dret l else dlift (Err AssertionError)
                 end in
    let ax i := nth i axs 0%nat in
    draw! v := dlift (column (c_grid c) cmap_key) in
    let panel i x y (xl yl : string) :=
      draw! m := dlift (py_max v) in
      put (ax i) (Scatter x y v n0 (m + n1)) ;;
      put (ax i) (XLabel xl) ;;
      put (ax i) (YLabel yl) ;;
      mpl_tick_frame (Some (ax i)) false in
    panel 0%nat (c_x c) (c_y c) "$r_{{p}}(\eta=0.2)$"%string "$r_{{50}}$"%string ;;
    panel 1%nat (c_x c) (c_z c) "$r_{{p}}(\eta=0.2)$"%string "$C_{2080}$"%string ;;
    panel 2%nat (c_y c) (c_z c) "$r_{{50}}$"%string "$C_{2080}$"%string ;;
    match target with
    | None => dret tt
    | Some (x0, y0, z0) =>
        draw! i := dlift (match argmin (dr c x0 y0 z0) with None => Err ValueError | Some i => Ok i end) in
        draw! cx := dlift (index (c_x c) i) in
        draw! cy := dlift (index (c_y c) i) in
        draw! cz := dlift (index (c_z c) i) in
        put (ax 0%nat) (Point x0 y0) ;; put (ax 1%nat) (Point x0 z0) ;; put (ax 2%nat) (Point y0 z0) ;;
        put (ax 0%nat) (Line [x0; cx] [y0; cy]) ;;
        put (ax 1%nat) (Line [x0; cx] [z0; cz]) ;;
        put (ax 2%nat) (Line [y0; cy] [z0; cz])
    end ;;
    put (ax 0%nat) (Colorbar (match colorbar_label with
                              | Some s => if nonempty s then s else cmap_key
                              | None => cmap_key end)) ;;
    put (ax 0%nat) (SupTitle (match suptitle with
                              | Some s => if nonempty s then s else "Petrosian Correction Grid"%string
                              | None => "Petrosian Correction Grid"%string end)) ;;
    dret axs.

  (** correction.py 626-674: x0, y0, z0 are numbers (possibly NaN), never None *)
  Definition plot_correction (c : correction T) (p : petrosian T) (cmap_key : string)
      (colorbar_label suptitle : option string) (axs : option (list axes)) : draw (list axes) :=
    draw! t := dlift (get_xyz_from_p mk p) in
    plot_grid c (Some t) cmap_key colorbar_label suptitle axs.

  (** ** segmentation.py *)

  (** segmentation.py 37-53 (the colours of the labels are random) *)
  Definition plot_segments (segm : img Z) (image : option (img T)) (vmin vmax : option T) (title : option string)
    : draw unit :=
    draw! ax := gca in
    match image with Some m => put ax (Image m vmin vmax) | None => dret tt end ;;
    put ax (Labels segm) ;;
    match title with Some s => put ax (Title s) | None => dret tt end ;;
    put ax (XLabel "Pixels") ;;
    put ax (YLabel "Pixels").

  (** temp[np.where(segm != 0)] = 0.0: IndexError when a labelled pixel is outside the image *)
  Definition labelled (segm : img Z) : list (nat * nat) :=
    filter (fun p => negb (px segm (fst p) (snd p) =? 0)%Z) (pixels (iny segm) (inx segm)).
  Definition blank (segm : img Z) (image : img T) : result (img T) :=
    if forallb (fun p => Nat.ltb (fst p) (iny image) && Nat.ltb (snd p) (inx image)) (labelled segm)
    then Ok (mkimg (iny image) (inx image) (fun j i =>
           if existsb (fun p => Nat.eqb (fst p) j && Nat.eqb (snd p) i) (labelled segm) then n0
           else px image j i))
    else Err IndexError.
  (** segmentation.py 56-62; the copy is written, not the image *)
  Definition plot_segment_residual (segm : img Z) (image : img T) (vmin vmax : option T) : draw unit :=
    draw! ax := gca in
    draw! temp := dlift (blank segm image) in
    put ax (Image temp vmin vmax).

  (** segmentation.py 372-485.  A SegmentationImage is true as soon as it is not None. *)
  Section CatalogPlot.
    Variable C : Type.
    Variable detect : img T -> result (option (img Z)).
    Variable deblend_ : img T -> option (img Z) -> result (option (img Z)).
    Variable catalog : img T -> option (img Z) -> result C.
    Definition make_catalog_plot (image : img T) (deblend plot : bool) (vmin vmax : option T)
      : draw (C * option (img Z) * option (img Z)) :=
      draw! segm := dlift (detect image) in
      draw! ax := match segm with
                  | Some s =>
                      if plot then
                        draw! ax := (if deblend then subplots 2 else subplots 1) in
                        when deblend (sca (nth 0 ax 0%nat)) ;;
                        plot_segments s (Some image) vmin vmax (Some "Segmentation Map"%string) ;;
                        dret ax
                      else dret []
                  | None => dret []
                  end in
      draw! segm_deblend :=
        (if deblend then
           draw! d := dlift (deblend_ image segm) in
           match d with
           | Some s =>
               when plot
                 (draw! a := dlift (match nth_error ax 1 with Some a => Ok a | None => Err GenericException end) in
                  sca a ;;
                  plot_segments s (Some image) vmin vmax (Some "Deblended Segmentation Map"%string))
           | None => dret tt
           end ;; dret d
         else dret None) in
      draw! cat := dlift (catalog image (if deblend then segm_deblend else segm)) in
      dret (cat, segm, segm_deblend).
  End CatalogPlot.

  (** segmentation.py 687-743: figures drawn around the photometry of the final cutout.  The row and
      column shown exist, since the cutout is square and not empty (M_Segm.cutout), so no IndexError. *)
  Definition source_plots (k : flavour) (final : img T) (pos : T * T) (r_list : list T)
      (err : option (img T)) (mask : option (img bool)) (elong theta : T) (vmin vmax : option T)
    : draw (list T * list T * list T) :=
    draw! ax := subplots 2 in
    sca (nth 0 ax 0%nat) ;;
    draw! res := radial_photometry_plot k final pos r_list err mask elong theta vmin vmax in
    sca (nth 1 ax 0%nat) ;;
    draw! a := gca in
    put a (Line r_list (fst (fst res))) ;;
    for_each r_list (fun r => put a (VLine r L_none)) ;;
    put a (Title "Curve of Growth") ;;
    put a (XLabel "Radius in Pixels") ;;
    put a (YLabel "Flux Enclosed") ;;
    mpl_tick_frame (Some (nth 1 ax 0%nat)) true ;;
    draw! r := dlift (pymax r_list) in
    let slice (values : list T) (label : string) :=
      draw! ax := subplots 1 in
      draw! a := gca in
      put a (Line (map nofnat (seq 0 (List.length values))) values) ;;
      put a (HLine n0) ;;
      put a (VLine (fst pos) L_none) ;;
      put a (VLine (fst pos + r) L_none) ;;
      put a (VLine (fst pos - r) L_none) ;;
      put a (XLabel label) ;;
      put a (YLabel "Pixel Value") ;;
      mpl_tick_frame (Some (nth 0 ax 0%nat)) true in
    draw! j := dlift (int_of (snd pos)) in
    slice (map (fun i => px final (Z.to_nat j) i) (seq 0 (inx final))) "Slice Along X [pix]"%string ;;
    draw! i := dlift (int_of (fst pos)) in
    slice (map (fun j => px final j (Z.to_nat i)) (seq 0 (iny final))) "Slice Along Y [pix]"%string ;;
    dret res.

  (** source_photometry(..., plot=True), segmentation.py:488-743.  print(source.label) needs a
      catalog entry; other sources have raised by then. *)
  Section SourcePlot.
    Variable sigma_clip : img T -> T -> img bool.
    Variable clipped_stats : img T -> T * T.
    Variables M O : Type.
    Variable planar : M.
    Variable linear : fitter (T:=T) M O.
    Variable opts : O.
    Variable evalM : M -> smodel (T:=T).
    Definition source_photometry_plot (k : flavour) (src : M_Segm.source T) (image : M_Segm.ref) (segm : img Z)
        (r_list : list T) (error : option M_Segm.ref) (cutout_size : pyv T) (bg_sub : bool) (sigma : T)
        (sigma_type : M_Segm.sigma_kind) (mask_background : bool) (vmin vmax : option T)
        (h : M_Segm.heap T) (s : canvas) : result (list T * list T * list T) * M_Segm.heap T * canvas :=
      match M_Segm.source_cutout sigma_clip clipped_stats M O planar linear opts evalM src image segm r_list error
              cutout_size bg_sub sigma sigma_type mask_background
              (fun c final err => M_Segm.ret
                 (source_plots k final (nofnat (iny final) / n2, nofnat (inx final) / n2) r_list err
                    (Some (M_Segm.not_nan final)) (M_Segm.c_elong c) (M_Segm.c_theta c) vmin vmax)) h with
      | (Ok figures, h') => let (r, s') := figures s in (r, h', s')
      | (Err e, h') => (Err e, h', s)
      end.
  End SourcePlot.

  (** ** modeling/fitting.py *)

  (** np.nanstd *)
  Definition nanstd (m : img T) : T := std (filter (fun x => negb (nisnan x)) (img_list m)).
  (** builtin max of two numbers *)
  Definition max2 (a b : T) : T := if nltb a b then b else a.

  (** fitting.py 330-476.  Returns the axes, model image and residual. *)
  Definition plot_fit_draw (model : smodel (T:=T)) (image : img T) (m : dmode) (center : option (pyv T))
      (vmin vmax : option T) (cbar : bool) (flux_label : string) : draw (list axes * img T * img T) :=
    draw! r := dlift (plot_fit model image m center) in
    let '(model_image, residual_image) := r in
    draw! axs := subplots 3 in
    let vmax := match vmax with None => max2 (nanstd image) (nanstd model_image) * nofZ 3 | Some v => v end in
    let vmin := match vmin with None => nopp vmax | Some v => v end in
    let ax i := nth i axs 0%nat in
    put (ax 0%nat) (Image image (Some vmin) (Some vmax)) ;;
    put (ax 0%nat) (Title "Data") ;;
    put (ax 0%nat) (XLabel "Pixels") ;;
    put (ax 0%nat) (YLabel "Pixels") ;;
    mpl_tick_frame (Some (ax 0%nat)) true ;;
    put (ax 1%nat) (Image model_image (Some vmin) (Some vmax)) ;;
    put (ax 1%nat) (Title "Model") ;;
    put (ax 1%nat) (XLabel "Pixels") ;;
    mpl_tick_frame (Some (ax 1%nat)) true ;;
    put (ax 2%nat) (Image residual_image (Some vmin) (Some vmax)) ;;
    put (ax 2%nat) (Title "Residual") ;;
    put (ax 2%nat) (XLabel "Pixels") ;;
    mpl_tick_frame (Some (ax 2%nat)) true ;;
    when cbar (put (ax 0%nat) (Colorbar flux_label)) ;;
    dret (axs, model_image, residual_image).
End Plot2.

(** ** Grid files, correction.py 396-410

    A file system maps names to tables; Table.write refuses to overwrite and Table.read needs
    the file.  The formats that keep every double are meant (ECSV, FITS, HDF5). *)
Section Files.
  Context {T : Type} {N : Num T}.
  Definition files := list (string * table T).
  Definition lookup (fs : files) (name : string) : option (table T) :=
    option_map snd (find (fun e => String.eqb (fst e) name) fs).
  Definition cor_write (c : correction T) (name : string) (fs : files) : result unit * files :=
    match lookup fs name with
    | Some _ => (Err GenericException, fs)     (* OSError *)
    | None => (Ok tt, (name, c_grid c) :: fs)
    end.
  Definition cor_read (name : string) (fs : files) : result (correction T) :=
    match lookup fs name with
    | None => Err GenericException             (* FileNotFoundError *)
    | Some t => PetrosianCorrection_new (GTable t) true
    end.
End Files.
