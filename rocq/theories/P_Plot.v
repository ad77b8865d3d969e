(** Property theorems for the drawing methods of Petrosian and PetrosianCorrection: C79-C83. *)
From Coq Require Import String.
From Verif Require Import Base Num Numpy M_Utils M_Photometry M_Petrosian M_Correction M_PSF M_Fitting M_Interp M_Plot S_Correction S_Plot.
From Verif Require L_Plot2 L_Plot3 L_Plot5 L_Plot9 E_CorEx E_Plot E_Plot2.
Local Open Scope list_scope.

(** C79. *)
Theorem C79_drawn : forall T (N : Num T) (NL : NumLog T) (mk : kind -> list T -> list T -> result (T -> T))
    o plot_r title unit ax ea lg s a s',
  built o -> plot mk o plot_r title unit ax ea lg s = (Ok a, s') ->
  let eta := s_eta (p_set o) in
  exists rp re d,
    read mk o A_r_petrosian = Ok (VNum rp) /\ read mk o A_r_petrosian_err = Ok (VNum re) /\
    emitted s s' d /\ a = on ax s /\ cv_cur s' = cv_cur s /\
    (forall b c, In (b, c) d -> b = a \/ b = cv_cur s /\ c = Ticks true) /\
    (forall b m, In (b, Ticks m) d <-> b = cv_cur s /\ m = true) /\
    (forall x y e, In (a, Errorbar x y e) d <-> x = d_r (p_data o) /\ y = p_list o /\ e = p_err o) /\
    (forall x l, In (a, VLine x l) d <-> plot_r = true /\ nisnan rp = false /\ x = rp /\
       l = L_rp eta rp (match unit with Some u => u | None => ""%string end)) /\
    (forall y, In (a, HLine y) d <-> y = n0 \/ plot_r = true /\ y = eta) /\
    (forall x y e, In (a, PointErr x y e) d <->
       plot_r = true /\ nisnan rp = false /\ nisnan re = false /\ x = rp /\ y = eta /\ e = re) /\
    (forall x y, In (a, Point x y) d <->
       plot_r = true /\ nisnan rp = false /\ nisnan re = true /\ x = rp /\ y = eta) /\
    (forall x lo hi, In (a, Fill x lo hi) d <-> shaded ea /\
       exists e, p_err o = Some e /\ x = d_r (p_data o) /\ lo = map2 nsub (p_list o) e /\ hi = map2 nadd (p_list o) e) /\
    (forall t, In (a, XLabel t) d <-> t = radius_axis unit) /\
    (forall t, In (a, Title t) d <-> t = title) /\ (In (a, Legend) d <-> lg = true).
Proof. exact @E_Plot.plot_drawn. Qed.
Print Assumptions C79_drawn.

Theorem C79_outcome : forall (mk : kind -> list xr -> list xr -> result (xr -> xr)) o plot_r title unit ax ea lg s,
  built o ->
  (forall rp re, read mk o A_r_petrosian = Ok (VNum rp) -> read mk o A_r_petrosian_err = Ok (VNum re) ->
     (plot_r = true /\ nisnan rp = false /\ nltb re n0 = true ->
      fst (plot mk o plot_r title unit ax ea lg s) = Err ValueError) /\
     (~ (plot_r = true /\ nisnan rp = false /\ nltb re n0 = true) ->
      fst (plot mk o plot_r title unit ax ea lg s) = Ok (on ax s))) /\
  (forall e, read mk o A_r_petrosian = Err e -> fst (plot mk o plot_r title unit ax ea lg s) = Err e).
Proof. exact E_Plot.plot_outcome. Qed.
Print Assumptions C79_outcome.

(** a Petrosian radius is not enough for plot() to succeed *)
Theorem C79_total_refuted : ~ forall (mk : kind -> list f64 -> list f64 -> result (f64 -> f64)) o s,
  built o -> (forall x y, mk KLinear x y = mk_linear KLinear x y) ->
  (exists rp, obj_r_petrosian mk o = Ok rp) -> exists a s', plot mk o true "" None None None false s = (Ok a, s').
Proof. exact E_Plot2.plot_total_refuted. Qed.
Print Assumptions C79_total_refuted.

Example C79_example : exists o s', Petrosian_new E_Plot.pl_data E_Plot.pl_set = Ok o /\
  plot mk_linear o true "T" None (Some 3%nat) None false E_Plot.blank_canvas = (Ok 3%nat, s') /\
  In (3%nat, XLabel "") (cv_trace s') /\ In (7%nat, Ticks true) (cv_trace s') /\
  obj_r_petrosian mk_linear o = Ok (E_Plot.q 3 1) /\
  In (3%nat, VLine (E_Plot.q 3 1) (L_rp (E_Plot.q 1 5) (E_Plot.q 3 1) "")) (cv_trace s').
Proof. exact E_Plot.plot_example. Qed.

(** C80. *)
Theorem C80_drawn : forall T (N : Num T) (NL : NumLog T) (mk : kind -> list T -> list T -> result (T -> T))
    o plot_r title unit funit ax ea lg s a s',
  built o -> plot_cog mk o plot_r title unit funit ax ea lg s = (Ok a, s') ->
  let u := match unit with Some u => u | None => ""%string end in
  exists d, emitted s s' d /\ a = on ax s /\ cv_cur s' = cv_cur s /\
    (forall b c, In (b, c) d -> b = a \/ b = cv_cur s /\ c = Ticks true) /\
    (forall b m, In (b, Ticks m) d <-> b = cv_cur s /\ m = true) /\
    (forall x y e, In (a, Errorbar x y e) d <->
       x = d_r (p_data o) /\ y = d_flux (p_data o) /\ e = d_flux_err (p_data o)) /\
    (forall x lo hi, In (a, Fill x lo hi) d <-> shaded ea /\
       exists e, d_flux_err (p_data o) = Some e /\ x = d_r (p_data o) /\
         lo = map2 nsub (d_flux (p_data o)) e /\ hi = map2 nadd (d_flux (p_data o)) e) /\
    (forall x l, In (a, VLine x l) d <-> plot_r = true /\
       ((exists y, half_point mk o x y) /\ l = L_half x u \/
        (exists y, total_point mk o x y) /\ (exists z, whole_percent o z /\ l = L_total z x u))) /\
    (forall y, In (a, HLine y) d <-> plot_r = true /\
       ((exists x, half_point mk o x y) \/ (exists x z, total_point mk o x y /\ whole_percent o z))) /\
    (forall x y, In (a, Point x y) d <-> plot_r = true /\
       (half_point mk o x y \/ (exists z, total_point mk o x y /\ whole_percent o z))) /\
    (forall t, In (a, XLabel t) d <-> t = radius_axis unit) /\
    (forall t, In (a, Title t) d <-> t = title) /\ (In (a, Legend) d <-> lg = true).
Proof. exact @L_Plot2.cog_drawn. Qed.
Print Assumptions C80_drawn.

Theorem C80_outcome : forall (mk : kind -> list xr -> list xr -> result (xr -> xr)) o plot_r title unit funit ax ea lg s,
  built o -> (plot_r = true -> cog_ok mk o) ->
  (forall e, d_flux_err (p_data o) = Some e -> existsb (fun x => nltb x n0) e = true ->
     plot_cog mk o plot_r title unit funit ax ea lg s = (Err ValueError, s)) /\
  (forall e, d_flux_err (p_data o) = Some e -> existsb (fun x => nltb x n0) e = false ->
     fst (plot_cog mk o plot_r title unit funit ax ea lg s) = Ok (on ax s)) /\
  (d_flux_err (p_data o) = None -> d_area_err (p_data o) <> None -> shaded ea ->
     fst (plot_cog mk o plot_r title unit funit ax ea lg s) = Err TypeError) /\
  (d_flux_err (p_data o) = None -> d_area_err (p_data o) = None \/ ~ shaded ea ->
     fst (plot_cog mk o plot_r title unit funit ax ea lg s) = Ok (on ax s)).
Proof. exact L_Plot3.cog_outcome. Qed.
Print Assumptions C80_outcome.

Example C80_example : let s := E_Plot.blank_canvas in let band := Some (E_Plot.q 1 5) in
  exists o o' o'' s' s'', Petrosian_new E_Plot.pl_data E_Plot.pl_set = Ok o /\ Petrosian_new E_Plot.area_data E_Plot.pl_set = Ok o' /\
  Petrosian_new E_Plot.bare_data E_Plot.pl_set = Ok o'' /\
  plot_cog mk_linear o false "T" None None None band false s = (Ok 7%nat, s') /\
  In (7%nat, Fill (d_r E_Plot.pl_data) (map nofZ [99;179;189;194]%Z) (map nofZ [101;181;191;196]%Z)) (cv_trace s') /\
  fst (plot_cog mk_linear o' true "T" None None None band false s) = Err TypeError /\
  plot_cog mk_linear o'' true "T" None None None band false s = (Ok 7%nat, s'') /\
  exists r, In (7%nat, VLine r (L_total 28 r "")) (cv_trace s'').
Proof. exact E_Plot.cog_example. Qed.

(** C81. *)
Theorem C81_percent : forall (o : petrosian xr) f,
  s_total_flux_fraction (p_set o) = Fin f -> (0 <= f)%R -> whole_percent o (Int_part (f * 100)).
Proof. exact L_Plot3.percent_floor. Qed.
Print Assumptions C81_percent.

Theorem C81_percent_f64 : forall (o : petrosian f64) k, (1 <= k <= 99)%Z ->
  s_total_flux_fraction (p_set o) = nlit k 100 ->
  whole_percent o (if existsb (Z.eqb k) odd_percents then (k - 1)%Z else k).
Proof. exact L_Plot3.percent_f64. Qed.
Print Assumptions C81_percent_f64.

Theorem C81_radii : forall T (N : Num T) (NL : NumLog T) (mk : kind -> list T -> list T -> result (T -> T)) o ax unit s s',
  plot_radii mk o ax unit s = (Ok tt, s') ->
  let u := match unit with Some u => u | None => ""%string end in
  exists d, emitted s s' d /\ cv_cur s' = cv_cur s /\
    (forall a c, In (a, c) d -> a = ax /\ exists x l, c = VLine x l) /\
    (forall x l, In (ax, VLine x l) d <->
       measured mk o A_r_petrosian x /\ l = L_rp (s_eta (p_set o)) x u \/
       (exists z, measured mk o A_r_total_flux x /\ whole_percent o z /\ l = L_total z x u) \/
       measured mk o A_r_half_light x /\ l = L_half x u).
Proof. exact @L_Plot9.radii_drawn. Qed.
Print Assumptions C81_radii.

Example C81_example : exists o s', Petrosian_new E_Plot.bare_data E_Plot.pl_set = Ok o /\
  plot_radii mk_linear o 2 (Some "arcsec"%string) E_Plot.blank_canvas = (Ok tt, s') /\ List.length (cv_trace s') = 3%nat /\
  In (2%nat, VLine (E_Plot.q 3 1) (L_rp (E_Plot.q 1 5) (E_Plot.q 3 1) "arcsec")) (cv_trace s').
Proof. exact E_Plot.radii_example. Qed.

(** C82. *)
Theorem C82_drawn : forall T (N : Num T) (NL : NumLog T) (mk : kind -> list T -> list T -> result (T -> T))
    k o pos elong theta s s',
  imshow mk k o pos elong theta s = (Ok tt, s') ->
  exists d, emitted s s' d /\ cv_cur s' = cv_cur s /\
    (forall a c, In (a, c) d -> a = cv_cur s) /\
    (forall ap l, In (cv_cur s, Ellipse ap l) d <-> exists name r, l = L_name name /\ named_radius mk o name r /\
       nisnan r = false /\ nltb n0 r = true /\ radial_elliptical_aperture k pos r elong theta = Ok ap) /\
    (forall x y, In (cv_cur s, Point x y) d <-> (x, y) = pos).
Proof. exact @L_Plot3.imshow_drawn. Qed.
Print Assumptions C82_drawn.

Theorem C82_total : forall (mk : kind -> list xr -> list xr -> result (xr -> xr)) k o pos e theta s,
  (0 < e)%R ->
  (exists rh rt ra rb, read mk o A_r_half_light = Ok (VNum rh) /\ read mk o A_r_total_flux = Ok (VNum rt) /\
     read mk o (A_fraction_to_r (nlit 1 5)) = Ok (VNum ra) /\ read mk o (A_fraction_to_r (nlit 4 5)) = Ok (VNum rb)) ->
  exists s' d, imshow mk k o pos (Fin e) theta s = (Ok tt, s') /\ emitted s s' d /\
    forall ap l, In (cv_cur s, Ellipse ap l) d <-> exists name r, l = L_name name /\ named_radius mk o name r /\
      xltb (Fin 0) r = true /\ ap = mkap (fst pos) (snd pos) r (xdiv r (Fin e)) theta.
Proof. exact L_Plot3.imshow_total. Qed.
Print Assumptions C82_total.

Example C82_example : exists o s' r, Petrosian_new E_Plot.bare_data E_Plot.pl_set = Ok o /\
  imshow mk_linear NpFloat o (E_Plot.q 10 1, E_Plot.q 20 1) (E_Plot.q 2 1) (E_Plot.q 0 1) E_Plot.blank_canvas = (Ok tt, s') /\
  obj_r_half_light mk_linear o = Ok r /\
  In (7%nat, Ellipse (mkap (E_Plot.q 10 1) (E_Plot.q 20 1) r (ndiv r (E_Plot.q 2 1)) (E_Plot.q 0 1)) (L_name "r_half_light")) (cv_trace s').
Proof. exact E_Plot.imshow_example. Qed.

(** C83. *)
Theorem C83_drawn : forall T (N : Num T) (NL : NumLog T) (mk : kind -> list T -> list T -> result (T -> T))
    t e c c0 p key cl st axs s x0 y0 z0,
  PetrosianCorrection_new (GTable t) e = Ok c -> PetrosianCorrection_new (GTable t) false = Ok c0 ->
  t_rows t <> [] -> In key (t_names t) -> (forall l, axs = Some l -> List.length l = 3%nat) ->
  get_xyz_from_p mk p = Ok (x0, y0, z0) ->
  exists i cx cy cz a0 a1 a2 s' d,
    plot_correction mk c p key cl st axs s = (Ok [a0; a1; a2], s') /\ emitted s s' d /\
    match axs with
    | Some l => l = [a0; a1; a2]
    | None => a0 = cv_next s /\ a1 = S a0 /\ a2 = S a1 /\ cv_next s' = S a2
    end /\
    get_corrected_row mk c0 p = Ok i /\
    cell t i "p02" = Ok cx /\ cell t i "u_r_50" = Ok cy /\ cell t i "u_c2080" = Ok cz /\
    (forall a x y, In (a, Point x y) d <->
       (a = a0 /\ x = x0 /\ y = y0) \/ (a = a1 /\ x = x0 /\ y = z0) \/ (a = a2 /\ x = y0 /\ y = z0)) /\
    (forall a xs ys, In (a, Line xs ys) d <->
       (a = a0 /\ xs = [x0; cx] /\ ys = [y0; cy]) \/ (a = a1 /\ xs = [x0; cx] /\ ys = [z0; cz]) \/
       (a = a2 /\ xs = [y0; cy] /\ ys = [z0; cz])) /\
    (forall a xs ys v lo hi, In (a, Scatter xs ys v lo hi) d ->
       column t key = Ok v /\ lo = n0 /\
       ((a = a0 /\ column t "p02" = Ok xs /\ column t "u_r_50" = Ok ys) \/
        (a = a1 /\ column t "p02" = Ok xs /\ column t "u_c2080" = Ok ys) \/
        (a = a2 /\ column t "u_r_50" = Ok xs /\ column t "u_c2080" = Ok ys))) /\
    (forall a, In a [a0; a1; a2] -> exists xs ys v lo hi, In (a, Scatter xs ys v lo hi) d).
Proof. exact @L_Plot5.correction_drawn. Qed.
Print Assumptions C83_drawn.

(** whenever the range check lets a source through, it is the row the corrections use *)
Theorem C83_same_row : forall T (N : Num T) (NL : NumLog T) (mk : kind -> list T -> list T -> result (T -> T)) t e c c0 p j,
  PetrosianCorrection_new (GTable t) e = Ok c -> PetrosianCorrection_new (GTable t) false = Ok c0 ->
  get_corrected_row mk c p = Ok j -> get_corrected_row mk c0 p = Ok j.
Proof. exact @L_Plot5.same_row. Qed.
Print Assumptions C83_same_row.

Theorem C83_errors : forall T (N : Num T) (NL : NumLog T) (mk : kind -> list T -> list T -> result (T -> T)) c p key cl st axs s,
  (forall e, get_xyz_from_p mk p = Err e -> plot_correction mk c p key cl st axs s = (Err e, s)) /\
  (forall l m, get_xyz_from_p mk p = Ok m -> axs = Some l -> List.length l <> 3%nat ->
     plot_correction mk c p key cl st axs s = (Err AssertionError, s)) /\
  (forall l m, get_xyz_from_p mk p = Ok m -> axs = Some l -> List.length l = 3%nat -> ~ In key (t_names (c_grid c)) ->
     plot_correction mk c p key cl st axs s = (Err KeyError, s)).
Proof. exact @L_Plot5.correction_errors. Qed.
Print Assumptions C83_errors.

Example C83_example : exists a c s' d, (2 <= a)%R /\
  get_xyz_from_p E_CorEx.mk_ex E_CorEx.ex_p = Ok (Fin a, Fin 1, Fin 0) /\
  PetrosianCorrection_new (GTable (E_Plot2.far_grid a)) true = Ok c /\
  get_corrected_row E_CorEx.mk_ex c E_CorEx.ex_p = Err AssertionError /\
  plot_correction E_CorEx.mk_ex c E_CorEx.ex_p "n" None None None (mkcanvas 7 9 []) = (Ok [9%nat; 10%nat; 11%nat], s') /\
  emitted (mkcanvas 7 9 []) s' d /\
  In (9%nat, Line [Fin a; Fin (a + 1)] [Fin 1; Fin 2]) d /\ In (11%nat, Line [Fin 1; Fin 2] [Fin 0; Fin 1]) d.
Proof. exact E_Plot2.grid_example. Qed.
