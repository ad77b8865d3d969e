(** Specification of rendered images, in any mode. *)
From Coq Require Import String.
From Verif Require Import Base Num Numpy S_Photometry M_PSF S_PSF M_Fitting S_Fitting M_Integrate S_Integrate.
Local Open Scope R_scope.

(** m is an image of the function f drawn by model_to_image in one of its four modes *)
Inductive rendered (dblquad : (xr -> xr -> xr) -> xr -> xr -> xr -> xr -> xr) (f : xr -> xr -> xr)
    (size : pyv xr) (flag : bool) (factor : Z) (center : option (pyv xr)) (m : img xr) : Prop :=
| in_mode mode : mode <> OtherMode -> model_to_image (pointwise f) size flag mode factor center = Ok m ->
    rendered dblquad f size flag factor center m
| in_integrate : model_to_image_integrate dblquad f size flag center = Ok m -> rendered dblquad f size flag factor center m.
