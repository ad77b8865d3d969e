(** Specification of the galaxy images of the correction grid. *)
From Coq Require Import String.
From Verif Require Import Base Num Numpy S_Photometry M_PSF S_PSF M_Sersic.
Local Open Scope list_scope.

(** [oversample] makes the code take k j i by k j i samples of pixel (j, i) of an image of 2*half x 2*half pixels
    centred on pixel (half, half) *)
Inductive sampled (half : Z) : pyv xr -> (nat -> nat -> nat) -> Prop :=
| no_oversampling : sampled half VNone (fun _ _ => 1%nat)
| whole_image f : (0 < f)%Z -> sampled half (VInt f) (fun _ _ => Z.to_nat f)
| centre_window s f : (1 < f)%Z -> (0 < s)%Z -> (s / 2 <= half)%Z -> (half - s / 2 + s <= 2 * half)%Z ->
    sampled half (VSeq [VStr "x_0"; VStr "y_0"; VInt s; VInt f])
      (fun j i => if insideb (half - s / 2) s (Z.of_nat i) && insideb (half - s / 2) s (Z.of_nat j) then Z.to_nat f else 1%nat).

(** correction.py 190: the default of the argument oversample *)
Definition default_oversample : pyv xr := VSeq [VStr "x_0"; VStr "y_0"; VInt 10; VInt 50].

Local Open Scope R_scope.
(** the largest radius wanted for a galaxy with half-light radius re, index n and 99% radius r99 *)
Definition largest_radius (re n r99 : R) : R :=
  if Rlt_dec n 1 then (if Rlt_dec re 7 then 50 * r99 else 3 * r99) else if Rlt_dec n 2 then 3 * r99 else 13/10 * r99.

(** F and Ar are a flux and an area for a circle of radius r around pixel (x0, x0) of an image of 2*x0 x 2*x0 pixels that
    shows a round Sersic galaxy with central brightness 100: close to flux and area of the galaxy within r, except for
    r = x0, where the image ends before the circle does *)
Definition measured_ok (A re n : R) (x0 r : Z) (F Ar : R) : Prop :=
  ((r < x0)%Z -> exists L, sersic_enclosed (Fin (IZR r)) (Fin A) (Fin re) (Fin n) (Fin 0) = Fin L /\
     Rabs (F - L) <= 200 * sqrt 2 * PI * IZR r + 5 / 10000000 /\ Rabs (Ar - PI * IZR r * IZR r) <= 5 / 10000000) /\
  (r = x0 -> exists L L', sersic_enclosed (Fin (IZR r)) (Fin A) (Fin re) (Fin n) (Fin 0) = Fin L /\
     sersic_enclosed (Fin (IZR r - 1/2)) (Fin A) (Fin re) (Fin n) (Fin 0) = Fin L' /\
     L' - 200 * sqrt 2 * PI * (IZR r - 1/2) - 5 / 10000000 <= F <= L + 200 * sqrt 2 * PI * IZR r + 5 / 10000000 /\
     PI * (IZR r - 1/2) * (IZR r - 1/2) - 5 / 10000000 <= Ar <= PI * IZR r * IZR r - 1/4 + 5 / 10000000).
