(** Specifications for a change of the unit of length. *)
From Verif Require Import Base Num M_Petrosian S_PetObj.
From Verif Require M_Utils.

(** radii in a unit [c] times smaller; areas and their uncertainties times [k] *)
Definition zoomed_data (c k : R) (d : pdata xr) : pdata xr :=
  {| d_dtype := d_dtype d; d_r := map (scale c) (d_r d); d_area := map (scale k) (d_area d);
     d_flux := d_flux d; d_area_err := option_map (map (scale k)) (d_area_err d); d_flux_err := d_flux_err d |}.

(** the interpolant through stretched abscissae takes the old values at the stretched places *)
Definition stretch_equivariant (mk : kind -> list xr -> list xr -> result (xr -> xr)) : Prop :=
  forall c k xs ys, (0 < c)%R ->
    match mk k xs ys with
    | Err e => mk k (map (scale c) xs) ys = Err e
    | Ok f => exists g, mk k (map (scale c) xs) ys = Ok g /\ forall q, g (scale c q) = f q
    end.

(** attributes measured in the unit of length *)
Definition is_length (a : attr (T:=xr)) : Prop :=
  match a with
  | A_r_petrosian | A_r_petrosian_err | A_r_epsilon | A_r_total_flux | A_r_total_flux_err
  | A_r_half_light | A_r_half_light_err | A_fraction_to_r _ | A_fraction_to_r_err _ => True
  | _ => False
  end.
(** attributes without unit, or measured in the unit of flux *)
Definition is_unitless (a : attr (T:=xr)) : Prop :=
  match a with
  | A_petrosian_list | A_petrosian_err | A_eta | A_epsilon | A_epsilon_fraction | A_total_flux_fraction
  | A_r_epsilon_in_range | A_total_flux | A_half_flux | A_c2080 | A_c5090 => True
  | _ => False
  end.
Definition scale_val (c : R) (v : result (val (T:=xr))) : result (val (T:=xr)) :=
  match v with Ok (VNum x) => Ok (VNum (scale c x)) | _ => v end.
(** square pixels of the side [p], in a unit of [u] degrees *)
Definition square_wcs (p u : R) : M_Utils.wcs := {| M_Utils.scale0 := Fin p; M_Utils.scale1 := Fin p; M_Utils.cunit := Fin u |}.
