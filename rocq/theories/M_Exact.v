(** Model of the overlap rules behind the argument [method] of radial_photometry (photometry.py 119, 205, 208):
    photutils ApertureMask weights for 'exact', 'subpixel' and 'center'.  Exact reals. *)
From Coq Require Import String.
From Verif Require Import Base Num Numpy M_Utils M_Photometry.
From Verif Require M_Ellipse.
Local Open Scope R_scope.

(** photutils BoundingBox.from_float and get_overlap_slices: does the box miss the image? (as in [center_overlap]) *)
Definition box_misses (x y a b t : R) (ny nx : nat) : bool :=
  let ex := extent_x a b t in
  let ey := extent_y a b t in
  ((Z.of_nat nx <=? Rfloor (x - ex + 1/2)) || (Z.of_nat ny <=? Rfloor (y - ey + 1/2))
   || (Rceil (x + ex + 1/2) <=? 0) || (Rceil (y + ey + 1/2) <=? 0))%Z%bool.

(** photutils elliptical_overlap_grid, use_exact=1: area of the intersection of pixel and ellipse *)
Definition exact_overlap (ap : aperture xr) (ny nx : nat) : option (nat -> nat -> xr) :=
  match ap with
  | mkap (Fin x) (Fin y) (Fin a) (Fin b) (Fin t) =>
      if box_misses x y a b t ny nx then None else Some (fun j i => Fin (M_Ellipse.pixel_area x y a b t j i))
  | _ => None
  end.

(** the s x s centres of the subpixels of pixel (j, i) *)
Definition subpoints (s : nat) (j i : nat) : list (R * R) :=
  map (fun p => (INR i - 1/2 + (INR (snd p) + 1/2) / INR s, INR j - 1/2 + (INR (fst p) + 1/2) / INR s)) (pixels s s).

(** photutils elliptical_overlap_grid, use_exact=0: share of the subpixels whose centre is strictly inside *)
Definition subpixel_overlap (s : nat) (ap : aperture xr) (ny nx : nat) : option (nat -> nat -> xr) :=
  match ap with
  | mkap (Fin x) (Fin y) (Fin a) (Fin b) (Fin t) =>
      if box_misses x y a b t ny nx then None
      else Some (fun j i => Fin (INR (List.length (filter (fun p => in_ellipse a b t (fst p - x) (snd p - y)) (subpoints s j i))) / (INR s * INR s)))
  | _ => None
  end.

(** photutils Aperture._translate_mask_mode, with subpixels at its default of 5; None: ValueError *)
Definition overlap_of (method : string) : option (aperture xr -> nat -> nat -> option (nat -> nat -> xr)) :=
  if String.eqb method "exact" then Some exact_overlap
  else if String.eqb method "center" then Some center_overlap
  else if String.eqb method "subpixel" then Some (subpixel_overlap 5)
  else None.

(** photometry.py 108-227 with plot=False and the argument [method]; an unknown method is noticed by do_photometry *)
Definition radial_photometry_method (method : string) (k : flavour) (image : img xr) (pos : xr * xr) (r_list : list xr)
    (error : option (img xr)) (mask : option (img bool)) (elong theta : xr) : result (list xr * list xr * list xr) :=
  match overlap_of method with
  | Some ov => radial_photometry ov k image pos r_list error mask elong theta
  | None =>
      do _ <- mapM (fun r => do _ <- radial_elliptical_aperture k pos r elong theta; Err (A := xr) ValueError) r_list;
      Ok ([], [], [])
  end.
