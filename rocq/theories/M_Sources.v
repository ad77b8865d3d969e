(** Parts of petrofit that combine other modelled functions: radii in arcsec of a Petrosian object,
    the getters of a source, arguments of make_catalog, the two one-line models.

    Oracles: interpolation, source detection, deblending, catalog construction. *)
From Coq Require Import String.
From Verif Require Import Base Num Numpy M_Utils M_Petrosian M_Sersic.
Local Open Scope list_scope.

(** ** Radii in arcsec *)
Section Arcsec.
  Variable mk : kind -> list xr -> list xr -> result (xr -> xr).

  (** petrosian/core.py:866-873 and 875-882, after reading the radius *)
  Definition to_arcsec (r : xr) (w : wcs) : result xr :=
    if negb (nisnan r) then do q <- pixel_to_angular r w; Ok (qval q) else Ok NaN.
  (** petrosian/core.py:866-873 *)
  Definition r_half_light_arcsec (o : petrosian xr) (w : wcs) : result xr :=
    do r <- obj_fraction mk o half; to_arcsec (fst r) w.
  (** petrosian/core.py:875-882 *)
  Definition r_total_flux_arcsec (o : petrosian xr) (w : wcs) : result xr :=
    do r <- obj_fraction mk o (s_total_flux_fraction (p_set o)); to_arcsec (fst r) w.
End Arcsec.

(** ** Getters of a source *)

(** a cell of a catalog table: a whole number, a number, or a Quantity (QTable) *)
Inductive cell := CInt (z : Z) | CNum (x : xr) | CQty (q : quantity).

(** A SourceCatalog of one source, a row of its table, or anything that cannot be indexed by a
    name (a label, a list). *)
Inductive gsource :=
| GCat (x y : Z) (elongation ellipticity : xr) (orientation : quantity)
| GRow (cells : list (string * cell))
| GOther.

(** row[name]; an unknown column is a KeyError *)
Fixpoint column (cells : list (string * cell)) (name : string) : result cell :=
  match cells with
  | [] => Err KeyError
  | (n, c) :: rest => if String.eqb n name then Ok c else column rest name
  end.
Definition get_cell (s : gsource) (name : string) : result cell :=
  match s with GRow cells => column cells name | _ => Err TypeError end.

(** units as sizes in degrees, see M_Utils.quantity *)
Definition degree : xr := Fin 1.
Definition radian : xr := xdiv (Fin 180) xpi.

(** segmentation.py:65-71 *)
Definition get_source_position (s : gsource) : result (cell * cell) :=
  match s with
  | GCat x y _ _ _ => Ok (CInt x, CInt y)
  | _ => do x <- get_cell s "maxval_xindex"; do y <- get_cell s "maxval_yindex"; Ok (x, y)
  end.
(** segmentation.py:74-80 *)
Definition get_source_elong (s : gsource) : result cell :=
  match s with GCat _ _ e _ _ => Ok (CNum e) | _ => get_cell s "elongation" end.
(** segmentation.py:83-89 *)
Definition get_source_ellip (s : gsource) : result cell :=
  match s with GCat _ _ _ e _ => Ok (CNum e) | _ => get_cell s "ellipticity" end.

(** np.deg2rad; of an angle with a unit it is the angle in radians, as a Quantity *)
Definition deg2rad (c : cell) : cell :=
  let f x := xmul x (xdiv xpi (Fin 180)) in
  match c with
  | CInt z => CNum (f (nofZ z))
  | CNum x => CNum (f x)
  | CQty q => CQty {| qval := f (q_to q degree); qunit := radian |}
  end.
(** segmentation.py:92-98 *)
Definition get_source_theta (s : gsource) : result cell :=
  match s with
  | GCat _ _ _ _ o => Ok (CNum (q_to o radian))
  | _ => do c <- get_cell s "orientation"; Ok (deg2rad c)
  end.

(** ** Arguments of make_catalog *)
Section CatalogArgs.
  Variables I S C Thr Wcs T : Type.
  Variable detect_sources : I -> Thr -> option Z -> result (option S).
  Variable deblend_sources : I -> option S -> option Z -> Z -> T -> result (option S).
  Variable SourceCatalog : I -> option S -> option Wcs -> result C.

  (** an array, or a CCDData / Cutout2D around one *)
  Inductive image_arg := Bare (i : I) | Holder (i : I).
  Definition data (a : image_arg) : I := match a with Bare i | Holder i => i end.

  (** segmentation.py:289-318 *)
  Definition make_segments (image : I) (npixels : option Z) (threshold : Thr) : result (option S) :=
    detect_sources image threshold npixels.
  (** segmentation.py:321-368 *)
  Definition deblend_segments (image : I) (segm : option S) (npixels : option Z) (nlevels : Z) (contrast : T)
    : result (option S) := deblend_sources image segm npixels nlevels contrast.

  (** segmentation.py:371-485 with plot=False *)
  Definition make_catalog_args (image : image_arg) (threshold : Thr) (wcs : option Wcs) (deblend : bool)
      (npixels : option Z) (nlevels : Z) (contrast : T) : result (C * option S * option S) :=
    let image := data image in
    do segm <- make_segments image npixels threshold;
    do segm_deblend <- (if deblend then deblend_segments image segm npixels nlevels contrast else Ok None);
    do cat <- SourceCatalog image (if deblend then segm_deblend else segm) wcs;
    Ok (cat, segm, segm_deblend).
End CatalogArgs.

(** ** One-line models: call with the parameters given, defaults otherwise *)
Definition or_default {A} (d : A) (o : option A) : A := match o with Some a => a | None => d end.

(** modeling/models.py:689-692 *)
Definition sersic_enclosed_model (amplitude r_eff n ellip : option xr) (x : xr) : xr :=
  sersic_enclosed x (or_default (nofZ 1000) amplitude) (or_default (nofZ 30) r_eff)
    (or_default (nofZ 2) n) (or_default (nofZ 0) ellip).
(** modeling/models.py:706-709 *)
Definition petrosian_model (r_eff n : option xr) (x : xr) : xr :=
  petrosian_profile x (or_default (nofZ 1) r_eff) (or_default (nofZ 4) n).
