(** Small specifications for fitting.py. *)
From Coq Require Import String.
From Verif Require Import Base Num Numpy S_Photometry M_PSF S_PSF M_Fitting.
Local Open Scope list_scope.
Local Open Scope R_scope.

(** a Python int or float with the whole value z *)
Definition whole_number (v : pyv xr) (z : Z) : Prop := v = VInt z \/ v = VFloat (Fin (IZR z)).
(** a Python int or float with the real value r *)
Definition real_number (v : pyv xr) (r : R) : Prop := (exists z, v = VInt z /\ r = IZR z) \/ v = VFloat (Fin r).

(** what a size argument means; the flag says that it is a Python bool *)
Inductive size_means : pyv xr -> bool -> Z -> Z -> Prop :=
| size_one v z : whole_number v z -> size_means v false z z
| size_two a b x y flag : whole_number a x -> whole_number b y -> size_means (VSeq [a; b]) flag x y.

(** first pixel of n pixels centred on c: c minus floor(n/2) *)
Definition starts (c : R) (n : Z) (o : R) : Prop :=
  exists h : Z, (2 * h <= n < 2 * h + 2)%Z /\ o = c - IZR h.

Definition origin_is (center : option (pyv xr)) (nx ny : Z) (x0 y0 : R) : Prop :=
  match center with
  | None => x0 = 0 /\ y0 = 0
  | Some (VSeq [a; b]) => exists cx cy, real_number a cx /\ real_number b cy /\ starts cx nx x0 /\ starts cy ny y0
  | Some _ => False
  end.

(** f computes the real function g at finite arguments *)
Definition real_function (f : xr -> xr -> xr) (g : R -> R -> R) : Prop :=
  forall x y, f (Fin x) (Fin y) = Fin (g x y).

(** m has the given shape and finite pixels *)
Definition image_of (m : img xr) (ny nx : nat) (v : nat -> nat -> R) : Prop :=
  iny m = ny /\ inx m = nx /\ forall j i, (j < ny)%nat -> (i < nx)%nat -> px m j i = Fin (v j i).

(** row-major order of (row, column) pairs *)
Definition before (p q : nat * nat) : Prop :=
  (fst p < fst q)%nat \/ (fst p = fst q /\ (snd p < snd q)%nat).
(** the list of all pairs with property P, in that order *)
Definition row_major (P : nat -> nat -> Prop) (l : list (nat * nat)) : Prop :=
  (forall a b p q, nth_error l a = Some p -> nth_error l b = Some q -> ((a < b)%nat <-> before p q)) /\
  (forall j i, In (j, i) l <-> P j i).

(** same shape, same NaN pixels, equal elsewhere *)
Definition same_data (a b : img xr) : Prop :=
  iny a = iny b /\ inx a = inx b /\
  forall j i, (j < iny a)%nat -> (i < inx a)%nat -> px a j i = px b j i.

(** equal at the pixels where [image] is not NaN *)
Definition same_where_good (image : img xr) (a b : option (img xr)) : Prop :=
  match a, b with
  | None, None => True
  | Some a, Some b =>
      iny a = iny b /\ inx a = inx b /\
      forall j i, (j < iny image)%nat -> (i < inx image)%nat -> px image j i <> NaN -> px a j i = px b j i
  | _, _ => False
  end.

(** astropy's Gaussian2D at (x, y) *)
Definition gauss2d (a x0 y0 sx sy t : R) (x y : R) : R :=
  let u := cos t * (x - x0) + sin t * (y - y0) in
  let v := - sin t * (x - x0) + cos t * (y - y0) in
  a * exp (- (u * u / (2 * (sx * sx)) + v * v / (2 * (sy * sy)))).
(** the same in the form of astropy's source *)
Definition gauss2d_astropy (A x0 y0 sx sy t : R) (x y : R) : R :=
  let a := 1/2 * (cos t * cos t / (sx * sx) + sin t * sin t / (sy * sy)) in
  let b := 1/2 * (sin (2 * t) / (sx * sx) - sin (2 * t) / (sy * sy)) in
  let c := 1/2 * (sin t * sin t / (sx * sx) + cos t * cos t / (sy * sy)) in
  A * exp (- (a * ((x - x0) * (x - x0)) + b * (x - x0) * (y - y0) + c * ((y - y0) * (y - y0)))).

(** 2 sqrt(2 ln 2) *)
Definition fwhm_factor : R := 2 * sqrt (2 * ln 2).
