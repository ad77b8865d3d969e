(** Specifications for the photometry of arbitrary images in double precision. *)
From Verif Require Import Base Num Numpy M_Utils M_Photometry S_Photometry S_Double S_Sums S_Counts.
Local Open Scope R_scope.

(** what a quantity loses in [n] relative rounding errors and one rounding to six decimals *)
Definition loss (n : nat) (size : R) : R := ((1 + u64) ^ n - 1) * size + (/ 2000000 + 3 * u64 / 1000000).
(** the aperture of radius [r] has weights [w r] over the image; pixels, errors and weights it takes are of moderate size *)
Definition gauged (overlap : aperture f64 -> nat -> nat -> option (nat -> nat -> f64)) (k : flavour) (image error : img f64) (pos : f64 * f64)
    (mask : option (img bool)) (elong theta : f64) (w : f64 -> nat -> nat -> f64) (r : f64) : Prop :=
  let P := taken (iny image) (inx image) (fun j i => dval (w r j i)) mask in
  (exists ap, radial_elliptical_aperture k pos r elong theta = Ok ap /\ overlap ap (iny image) (inx image) = Some (w r)) /\
  (forall j i, (j < iny image)%nat -> (i < inx image)%nat -> double (w r j i)) /\
  (forall j i, In (j, i) P -> moderate (dval (w r j i)) /\ double (px image j i) /\ fair (dval (px image j i)) /\
     double (px error j i) /\ fair (dval (px error j i) * dval (px error j i))) /\
  INR (S (S (length P))) * u64 <= / 2.

(** flux, area and error of a list of radii, up to those losses *)
Definition near_flux (image : img f64) (mask : option (img bool)) (w : f64 -> nat -> nat -> f64) (r f : f64) : Prop :=
  let P := taken (iny image) (inx image) (fun j i => dval (w r j i)) mask in
  double f /\ Rabs (dval f - over P (fun j i => dval (px image j i) * dval (w r j i)))
    <= loss (length P + 4) (over P (fun j i => Rabs (dval (px image j i) * dval (w r j i)))).
Definition near_area (image : img f64) (mask : option (img bool)) (w : f64 -> nat -> nat -> f64) (r a : f64) : Prop :=
  let P := taken (iny image) (inx image) (fun j i => dval (w r j i)) mask in
  double a /\ Rabs (dval a - over P (fun j i => dval (w r j i))) <= loss (length P + 4) (over P (fun j i => dval (w r j i))).
Definition near_err (image error : img f64) (mask : option (img bool)) (w : f64 -> nat -> nat -> f64) (r e : f64) : Prop :=
  let P := taken (iny image) (inx image) (fun j i => dval (w r j i)) mask in
  let V := over P (fun j i => dval (px error j i) * dval (px error j i) * dval (w r j i)) in
  double e /\ Rabs (dval e - sqrt V) <= loss (length P + 6) (sqrt V).
