(** Model of petrofit/photometry.py and of the photutils calls it makes. *)
From Verif Require Import Base Num Numpy M_Utils.

Section Photometry.
  Context {T : Type} {N : Num T}.
  Local Open Scope num_scope.

  (** photutils EllipticalAperture: a and b must not be <= 0 *)
  Record aperture := mkap { ap_x : T; ap_y : T; ap_a : T; ap_b : T; ap_theta : T }.
  Definition EllipticalAperture (x y a b theta : T) : result aperture :=
    if nleb a n0 || nleb b n0 then Err ValueError else Ok (mkap x y a b theta).

  (** photutils EllipticalAnnulus with b_in left at its default *)
  Record annulus := mkan { an_x : T; an_y : T; an_a_in : T; an_a_out : T; an_b_in : T;
                           an_b_out : T; an_theta : T }.
  Definition EllipticalAnnulus (x y a_in a_out b_out theta : T) : result annulus :=
    if negb (nltb a_in a_out) then Err ValueError
    else if nleb a_in n0 || nleb a_out n0 || nleb b_out n0 then Err ValueError
    else let b_in := b_out * a_in / a_out in
         if nleb b_in n0 then Err ValueError
         else Ok (mkan x y a_in a_out b_in b_out theta).

  (** photometry.py 48-72.  [k] says whether r, elong are Python or numpy numbers. *)
  Definition radial_elliptical_aperture (k : flavour) (pos : T * T) (r elong theta : T)
    : result aperture :=
    do b <- fdiv k r elong;
    EllipticalAperture (fst pos) (snd pos) r b theta.

  (** photometry.py 75-105 *)
  Definition radial_elliptical_annulus (k : flavour) (pos : T * T) (r dr elong theta : T)
    : result annulus :=
    do _ <- fdiv k r elong;
    do b_out <- fdiv k (r + dr) elong;
    EllipticalAnnulus (fst pos) (snd pos) r (r + dr) b_out theta.

  (** The overlap of an aperture with the pixels of an ny x nx image; None when the
      aperture's bounding box misses the image.  Arbitrary: any photutils method. *)
  Variable overlap : aperture -> nat -> nat -> option (nat -> nat -> T).

  (** pixels in row-major order *)
  Definition pixels (ny nx : nat) : list (nat * nat) :=
    flat_map (fun j => map (fun i => (j, i)) (seq 0 nx)) (seq 0 ny).

  Definition same_shape {A B} (a : img A) (b : img B) : bool :=
    Nat.eqb (iny a) (iny b) && Nat.eqb (inx a) (inx b).

  (** the pixels do_photometry sums: positive weight and not masked (mask True = ignore) *)
  Definition used (w : nat -> nat -> T) (mask : option (img bool)) (p : nat * nat) : bool :=
    nltb n0 (w (fst p) (snd p)) &&
    match mask with None => true | Some m => negb (px m (fst p) (snd p)) end.

  (** photutils PixelAperture.do_photometry for a scalar aperture.  The error is None
      when the returned error array is empty. *)
  Definition do_photometry (ap : aperture) (data : img T) (error : option (img T))
      (mask : option (img bool)) : result (T * option T) :=
    if match error with None => true | Some e => same_shape e data end then
    if match mask with None => true | Some m => same_shape m data end then
      match overlap ap (iny data) (inx data) with
      | None => Ok (nnan, Some nnan)
      | Some w =>
          let l := filter (used w mask) (pixels (iny data) (inx data)) in
          let total f := nsum (map (fun p => f (fst p) (snd p) * w (fst p) (snd p)) l) in
          Ok (total (px data),
              match error with
              | None => None
              | Some e => Some (nsqrt (total (fun j i => px e j i * px e j i)))
              end)
      end
    else Err ValueError
    else Err ValueError.

  Definition ones_like (a : img T) : img T := mkimg (iny a) (inx a) (fun _ _ => n1).

  (** photometry.py 200: ~mask of a boolean array *)
  Definition invert (m : img bool) : img bool :=
    mkimg (iny m) (inx m) (fun j i => negb (px m j i)).

  (** photometry.py 202-226: one pass of the loop *)
  Definition one_radius (k : flavour) (image : img T) (pos : T * T) (error : option (img T))
      (mask : option (img bool)) (elong theta : T) (r : T) : result (T * T * T) :=
    do ap <- radial_elliptical_aperture k pos r elong theta;
    do ph <- do_photometry ap image error mask;
    do ar <- do_photometry ap (ones_like image) None mask;
    let area := nround6 (fst ar) in
    let flux := nround6 (fst ph) in
    let err := match snd ph with None => nnan | Some e => nround6 e end in
    if nisnan flux then Err GenericException else Ok (flux, area, err).

  (** photometry.py 108-227 with plot=False.  Returns flux, area and error arrays. *)
  Definition radial_photometry (k : flavour) (image : img T) (pos : T * T) (r_list : list T)
      (error : option (img T)) (mask : option (img bool)) (elong theta : T)
    : result (list T * list T * list T) :=
    let mask := option_map invert mask in
    do l <- mapM (one_radius k image pos error mask elong theta) r_list;
    Ok (map (fun t => fst (fst t)) l, map (fun t => snd (fst t)) l, map snd l).
End Photometry.
Arguments aperture : clear implicits.
Arguments annulus : clear implicits.

(** ** The 'center' overlap method, exact reals

    photutils geometry.elliptical_overlap_grid with subpixels=1: a pixel counts when its
    centre, rotated into the ellipse frame, lies strictly inside; BoundingBox.from_float and
    get_overlap_slices decide whether the aperture overlaps the image at all. *)
Definition Rfloor (x : R) : Z := Int_part x.
Definition Rceil (x : R) : Z := (- Int_part (- x))%Z.

Definition in_ellipse (a b theta dx dy : R) : bool :=
  let u := (dx * cos theta + dy * sin theta)%R in
  let v := (- dx * sin theta + dy * cos theta)%R in
  Rltb ((u / a) * (u / a) + (v / b) * (v / b)) 1.

(** half-widths of the bounding box *)
Definition extent_x (a b theta : R) : R :=
  sqrt (a * cos theta * (a * cos theta) + b * sin theta * (b * sin theta)).
Definition extent_y (a b theta : R) : R :=
  sqrt (a * sin theta * (a * sin theta) + b * cos theta * (b * cos theta)).

Definition center_overlap (ap : aperture xr) (ny nx : nat) : option (nat -> nat -> xr) :=
  match ap with
  | mkap (Fin x) (Fin y) (Fin a) (Fin b) (Fin t) =>
      let ex := extent_x a b t in
      let ey := extent_y a b t in
      let ixmin := Rfloor (x - ex + 1/2)%R in
      let ixmax := Rceil (x + ex + 1/2)%R in
      let iymin := Rfloor (y - ey + 1/2)%R in
      let iymax := Rceil (y + ey + 1/2)%R in
      if ((Z.of_nat nx <=? ixmin) || (Z.of_nat ny <=? iymin) || (ixmax <=? 0) || (iymax <=? 0))%Z%bool
      then None
      else Some (fun j i => if in_ellipse a b t (INR i - x) (INR j - y) then Fin 1 else Fin 0)
  | _ => None
  end.
