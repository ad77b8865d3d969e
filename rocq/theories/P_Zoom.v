(** Property theorems: a change of the unit of length (C102). *)
From Verif Require Import Base Num Numpy M_Utils M_Petrosian M_Sources M_Interp S_PetObj S_Zoom S_Robust.
From Verif Require L_Zoom E_Zoom E_Robust.

(** C102: every radius is multiplied, every flux, share and concentration stays. *)
Theorem C102_zoom : forall mk c k d s, stretch_equivariant mk -> (0 < c)%R -> (0 < k)%R -> d_dtype d = DFloat ->
  match Petrosian_new d s with
  | Err e => Petrosian_new (zoomed_data c k d) s = Err e
  | Ok o => exists o', Petrosian_new (zoomed_data c k d) s = Ok o' /\
      (forall a, is_length a -> read mk o' a = scale_val c (read mk o a)) /\
      (forall a, is_unitless a -> read mk o' a = read mk o a) /\
      forall f1 f2, read mk o' (A_concentration f1 f2) =
        match read mk o (A_concentration f1 f2) with
        | Ok (VTriple r1 r2 x) => Ok (VTriple (scale c r1) (scale c r2) x)
        | v => v
        end
  end.
Proof. exact L_Zoom.zoom_spec. Qed.
Print Assumptions C102_zoom.

Theorem C102_arcsec : forall mk c k d s p u o o', stretch_equivariant mk -> (0 < c)%R -> (0 < k)%R -> d_dtype d = DFloat ->
  Petrosian_new d s = Ok o -> Petrosian_new (zoomed_data c k d) s = Ok o' ->
  r_half_light_arcsec mk o' (square_wcs (p / c) u) = r_half_light_arcsec mk o (square_wcs p u) /\
  r_total_flux_arcsec mk o' (square_wcs (p / c) u) = r_total_flux_arcsec mk o (square_wcs p u).
Proof. exact L_Zoom.zoom_arcsec. Qed.
Print Assumptions C102_arcsec.

Example C102_example : stretch_equivariant mk_linear /\
  exists o o', Petrosian_new (plain E_Robust.rsR E_Robust.AR E_Robust.LR) E_Robust.setR = Ok o /\
    read mk_linear o A_r_petrosian = Ok (VNum (Fin 3)) /\
    Petrosian_new (zoomed_data 2 4 (plain E_Robust.rsR E_Robust.AR E_Robust.LR)) E_Robust.setR = Ok o' /\
    read mk_linear o' A_r_petrosian = Ok (VNum (Fin 6)).
Proof. exact E_Zoom.C102_ex. Qed.
