(** Specifications for turned, mirrored and cropped images. *)
From Verif Require Import Base Num Numpy M_Photometry S_Center.

(** rows and columns exchanged *)
Definition transposed {A} (a : img A) : img A := mkimg (inx a) (iny a) (fun j i => px a i j).
(** columns in reverse order *)
Definition mirrored {A} (a : img A) : img A := mkimg (iny a) (inx a) (fun j i => px a j (inx a - 1 - i)).
(** rows in reverse order *)
Definition upended {A} (a : img A) : img A := mkimg (iny a) (inx a) (fun j i => px a (iny a - 1 - j) i).
(** the ny x nx pixels starting at row y0, column x0 *)
Definition window {A} (y0 x0 ny nx : nat) (a : img A) : img A := mkimg ny nx (fun j i => px a (y0 + j) (x0 + i)).

(** how overlap weights of apertures that can be built (positive axes) follow the image: both none, or the
    same pixel by pixel *)
Definition follow (ny nx : nat) (move : nat -> nat -> nat * nat) (w w' : option (nat -> nat -> xr)) : Prop :=
  match w, w' with
  | None, None => True
  | Some f, Some f' => forall j i, (j < ny)%nat -> (i < nx)%nat -> f' j i = f (fst (move j i)) (snd (move j i))
  | _, _ => False
  end.
Definition transposes (overlap : aperture xr -> nat -> nat -> option (nat -> nat -> xr)) : Prop :=
  forall x y a b t ny nx, nleb a n0 = false -> nleb b n0 = false -> follow nx ny (fun j i => (i, j))
    (overlap (mkap x y a b t) ny nx) (overlap (mkap y x a b (nsub (Fin (PI / 2)) t)) nx ny).
Definition mirrors (overlap : aperture xr -> nat -> nat -> option (nat -> nat -> xr)) : Prop :=
  forall x y a b t ny nx, nleb a n0 = false -> nleb b n0 = false -> follow ny nx (fun j i => (j, (nx - 1 - i)%nat))
    (overlap (mkap x y a b t) ny nx) (overlap (mkap (nsub (Fin (INR nx - 1)) x) y a b (nopp t)) ny nx).
Definition upends (overlap : aperture xr -> nat -> nat -> option (nat -> nat -> xr)) : Prop :=
  forall x y a b t ny nx, nleb a n0 = false -> nleb b n0 = false -> follow ny nx (fun j i => ((ny - 1 - j)%nat, i))
    (overlap (mkap x y a b t) ny nx) (overlap (mkap x (nsub (Fin (INR ny - 1)) y) a b (nopp t)) ny nx).
