(** Small specifications for the drawing code. *)
From Coq Require Import String.
From Verif Require Import Base Num Numpy M_Utils M_Photometry M_Petrosian M_Plot.
Local Open Scope list_scope.

Section SPlot.
  Context {T : Type} {N : Num T}.
  (** between s and s' exactly the calls d were made, in this order *)
  Definition emitted (s s' : canvas (T:=T)) (d : list (axes * cmd (T:=T))) : Prop :=
    cv_trace s' = cv_trace s ++ d.
  (** the axes drawn on: the given ones, else the current ones *)
  Definition on (ax : option axes) (s : canvas (T:=T)) : axes :=
    match ax with Some a => a | None => cv_cur s end.
  Definition has_errors (o : petrosian T) : Prop := p_err o <> None.
  (** label of the radius axis *)
  Definition radius_axis (u : option string) : string :=
    match u with
    | None => ""
    | Some u => if String.eqb u "" then "" else "Aperture Radius [" ++ u ++ "]"
    end%string.
  (** err_alpha asks for a shaded band *)
  Definition shaded (a : option T) : Prop := exists x, a = Some x /\ nltb n0 x = true.
  (** made by Petrosian(...); settings may have been assigned since *)
  Definition built (o : petrosian T) : Prop := exists d st o0,
    Petrosian_new d st = Ok o0 /\ p_data o = p_data o0 /\ p_list o = p_list o0 /\ p_err o = p_err o0.

  Section Marks.
    Context {NL : NumLog T}.
    Variable mk : kind -> list T -> list T -> result (T -> T).
    (** o.<attribute> is the number x, and not NaN *)
    Definition measured (o : petrosian T) (a : attr) (x : T) : Prop :=
      read mk o a = Ok (VNum x) /\ nisnan x = false.
    (** (r_half_light, half_flux) and (r_total_flux, total_flux) *)
    Definition half_point (o : petrosian T) (x y : T) : Prop :=
      measured o A_r_half_light x /\ measured o A_half_flux y.
    Definition total_point (o : petrosian T) (x y : T) : Prop :=
      measured o A_r_total_flux x /\ measured o A_total_flux y.
    (** the four radii imshow draws, with their names *)
    Definition named_radius (o : petrosian T) (name : string) (r : T) : Prop :=
      (name = "r_half_light"%string /\ read mk o A_r_half_light = Ok (VNum r)) \/
      (name = "r_total_flux"%string /\ read mk o A_r_total_flux = Ok (VNum r)) \/
      (name = "r_20"%string /\ read mk o (A_fraction_to_r (nlit 1 5)) = Ok (VNum r)) \/
      (name = "r_80"%string /\ read mk o (A_fraction_to_r (nlit 4 5)) = Ok (VNum r)).
  End Marks.
  (** int(total_flux_fraction * 100) *)
  Definition whole_percent (o : petrosian T) (z : Z) : Prop :=
    ntrunc (nmul (s_total_flux_fraction (p_set o)) (nofZ 100)) = Some z.
End SPlot.

(** pixel (j, i) carries a label *)
Definition labelled_at (segm : img Z) (j i : nat) : Prop :=
  (j < iny segm)%nat /\ (i < inx segm)%nat /\ px segm j i <> 0%Z.
(** the optional call, if any *)
Definition given {A} (o : option A) : list A := match o with Some x => [x] | None => [] end.
(** outline of the elliptical aperture of semi-major radius r *)
Definition ring {T} {N : Num T} (pos : T * T) (elong theta r : T) : cmd (T:=T) :=
  Ellipse (M_Photometry.mkap (fst pos) (snd pos) r (ndiv r elong) theta) L_none.
(** row j and column i of an image, against the pixel number *)
Definition counted {T} {N : Num T} (l : list T) : list T := map nofnat (seq 0 (List.length l)).
Definition row_of {T} (m : img T) (j : nat) : list T := map (px m j) (seq 0 (inx m)).
Definition column_of {T} (m : img T) (i : nat) : list T := map (fun j => px m j i) (seq 0 (iny m)).
(** the canvas after the further calls d, made on existing axes *)
Definition adds {T} (s : canvas (T:=T)) (d : list (axes * cmd (T:=T))) : canvas :=
  mkcanvas (cv_cur s) (cv_next s) (cv_trace s ++ d).
(** the radii and fluxes plot_cog marks can be computed *)
Definition cog_ok {T} {N : Num T} {NL : NumLog T} (mk : kind -> list T -> list T -> result (T -> T)) (o : petrosian T) : Prop :=
  exists rh hf rt tf z, read mk o A_r_half_light = Ok (VNum rh) /\ read mk o A_half_flux = Ok (VNum hf) /\
    read mk o A_r_total_flux = Ok (VNum rt) /\ read mk o A_total_flux = Ok (VNum tf) /\ whole_percent o z.
(** percentages whose product with 100 rounds below the whole number *)
Definition odd_percents : list Z := [29; 57; 58]%Z.
(** one segmentation map over its image *)
Definition map_calls {T} (a : axes) (m : img Z) (image : img T) (vmin vmax : option T) (title : string)
  : list (axes * cmd (T:=T)) :=
  map (pair a) [Image image vmin vmax; Labels m; Title title; XLabel "Pixels"; YLabel "Pixels"]%string.
(** l lists the pixels of m that are not NaN, row by row, all finite *)
Definition real_pixels (m : img xr) (l : list R) : Prop :=
  filter (fun x => negb (nisnan x)) (flat_map (row_of m) (seq 0 (iny m))) = map Fin l.
