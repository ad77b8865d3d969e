(** Small specifications for aperture photometry. *)
From Verif Require Import Base Num Numpy M_Photometry.
Local Open Scope R_scope.

(** sum over the pixels of an ny x nx grid *)
Fixpoint sum_to (n : nat) (f : nat -> R) : R :=
  match n with O => 0 | S m => sum_to m f + f m end.
Definition sum2 (ny nx : nat) (f : nat -> nat -> R) : R :=
  sum_to ny (fun j => sum_to nx (fun i => f j i)).

(** weighted sum over the pixels with positive weight that [use] selects *)
Definition weighted (ny nx : nat) (w : nat -> nat -> R) (use : nat -> nat -> bool)
    (v : nat -> nat -> R) : R :=
  sum2 ny nx (fun j i => if Rltb 0 (w j i) then if use j i then v j i * w j i else 0 else 0).

(** which pixels a mask argument selects: True = use the pixel *)
Definition selects (mask : option (img bool)) (j i : nat) : bool :=
  match mask with None => true | Some m => px m j i end.

(** [z] is an integer nearest to [x], the even one on ties *)
Definition nearest_even (x : R) (z : Z) : Prop :=
  Rabs (IZR z - x) < 1/2 \/ (Rabs (IZR z - x) = 1/2 /\ Z.even z = true).
(** [y] is [x] rounded to 6 decimals *)
Definition rounded6 (x y : R) : Prop :=
  exists z : Z, nearest_even (x * 1000000) z /\ y = IZR z / 1000000.

Definition fits {A B} (m : option (img A)) (image : img B) : Prop :=
  match m with None => True | Some m => iny m = iny image /\ inx m = inx image end.

(** same shape, and equal wherever the mask is True *)
Definition agree {T} (m : img bool) (a b : img T) : Prop :=
  iny a = iny b /\ inx a = inx b /\
  forall j i, (j < iny a)%nat -> (i < inx a)%nat -> px m j i = true -> px a j i = px b j i.

(** all pixels finite, with values [v] *)
Definition finite_img (a : img xr) (v : nat -> nat -> R) : Prop :=
  forall j i, (j < iny a)%nat -> (i < inx a)%nat -> px a j i = Fin (v j i).

(** area of an ellipse *)
Definition ellipse_area (a b : R) : R := PI * a * b.

(** the aperture of radius r used for given centre, elongation and angle *)
Definition ap_of (x y theta : xr) (elong r : R) : aperture xr :=
  mkap x y (Fin r) (Fin (r / elong)) theta.

(** overlaps grow with the radius on ny x nx images *)
Definition grows (overlap : aperture xr -> nat -> nat -> option (nat -> nat -> xr))
    (x y theta : xr) (elong : R) (ny nx : nat) : Prop :=
  forall r1 r2 w1, 0 < r1 <= r2 -> overlap (ap_of x y theta elong r1) ny nx = Some w1 ->
    exists w2, overlap (ap_of x y theta elong r2) ny nx = Some w2 /\
      forall j i, (j < ny)%nat -> (i < nx)%nat ->
        exists a b, w1 j i = Fin a /\ w2 j i = Fin b /\ 0 <= a <= b.
