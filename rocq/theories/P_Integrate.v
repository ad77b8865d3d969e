(** Property theorems: mode 'integrate' of model_to_image (C114, C115). *)
From Coq Require Import String.
From Verif Require Import Base Num Numpy S_Photometry M_PSF S_PSF M_Fitting S_Fitting M_Integrate S_Integrate.
From Verif Require L_Integrate E_Integrate.
Local Open Scope list_scope.
Local Open Scope R_scope.

(** C114: pixels are integrals over the pixels *)
Theorem C114_pixels : forall dblquad f g size flag center nx ny x0 y0, integrates dblquad -> real_function f g -> continuous2 g ->
  size_means size flag nx ny -> origin_is center nx ny x0 y0 -> (0 <= nx)%Z -> (0 <= ny)%Z ->
  exists m v, model_to_image_integrate dblquad f size flag center = Ok m /\ image_of m (Z.to_nat ny) (Z.to_nat nx) v /\
    forall j i, integral2 g (x0 + INR i - 1/2) (x0 + INR i + 1/2) (y0 + INR j - 1/2) (y0 + INR j + 1/2) (v j i).
Proof. exact L_Integrate.integrate_pixels. Qed.
Print Assumptions C114_pixels.

Theorem C114_total : forall dblquad f g size flag center nx ny x0 y0 F, integrates dblquad -> real_function f g -> continuous2 g ->
  size_means size flag nx ny -> origin_is center nx ny x0 y0 -> (0 <= nx)%Z -> (0 <= ny)%Z ->
  integral2 g (x0 - 1/2) (x0 + IZR nx - 1/2) (y0 - 1/2) (y0 + IZR ny - 1/2) F ->
  exists m v, model_to_image_integrate dblquad f size flag center = Ok m /\ image_of m (Z.to_nat ny) (Z.to_nat nx) v /\
    sum2 (Z.to_nat ny) (Z.to_nat nx) v = F.
Proof. exact L_Integrate.integrate_total. Qed.
Print Assumptions C114_total.

Theorem C114_negative : forall dblquad (f : xr -> xr -> xr) size flag center nx ny x0 y0,
  size_means size flag nx ny -> origin_is center nx ny x0 y0 -> (nx < 0)%Z \/ (ny < 0)%Z ->
  model_to_image_integrate dblquad f size flag center = Err ValueError.
Proof. exact L_Integrate.integrate_negative. Qed.
Print Assumptions C114_negative.

Example C114_example : integrates E_Integrate.quad /\ continuous2 (fun x _ => x * x) /\
  exists m, model_to_image_integrate E_Integrate.quad (fun x _ : xr => (x * x)%num) (VInt 1) false None = Ok m /\
    iny m = 1%nat /\ inx m = 1%nat /\ px m 0 0 = Fin (1/12).
Proof. exact (conj E_Integrate.quad_ok (conj E_Integrate.square_continuous E_Integrate.square_pixel)). Qed.

(** C115: the other modes approximate the integral *)
Theorem C115_modes : forall dblquad f g L size flag center k nx ny x0 y0, integrates dblquad -> real_function f g -> slope_at_most L g -> 0 <= L ->
  size_means size flag nx ny -> origin_is center nx ny x0 y0 -> (0 <= nx)%Z -> (0 <= ny)%Z -> (0 < k)%Z ->
  exists m c l o, model_to_image_integrate dblquad f size flag center = Ok m /\
    model_to_image (pointwise f) size flag Center k center = Ok c /\
    model_to_image (pointwise f) size flag LinearInterp k center = Ok l /\
    model_to_image (pointwise f) size flag Oversample k center = Ok o /\
    forall j i, (j < Z.to_nat ny)%nat -> (i < Z.to_nat nx)%nat -> exists vm vc vl vo,
      px m j i = Fin vm /\ px c j i = Fin vc /\ px l j i = Fin vl /\ px o j i = Fin vo /\
      Rabs (vc - vm) <= L /\ Rabs (vl - vm) <= L /\ Rabs (vo - vm) <= L / IZR k.
Proof. exact L_Integrate.modes_close. Qed.
Print Assumptions C115_modes.

Theorem C115_affine : forall dblquad f p q r size flag center nx ny x0 y0, integrates dblquad ->
  real_function f (fun x y => p + q * x + r * y) -> size_means size flag nx ny -> origin_is center nx ny x0 y0 ->
  (0 <= nx)%Z -> (0 <= ny)%Z ->
  exists m, model_to_image_integrate dblquad f size flag center = Ok m /\
    image_of m (Z.to_nat ny) (Z.to_nat nx) (fun j i => p + q * (x0 + INR i) + r * (y0 + INR j)).
Proof. exact L_Integrate.integrate_affine. Qed.
Print Assumptions C115_affine.

Theorem C115_bounds : forall dblquad f g size flag center nx ny x0 y0 lo hi, integrates dblquad -> real_function f g -> continuous2 g ->
  size_means size flag nx ny -> origin_is center nx ny x0 y0 -> (0 <= nx)%Z -> (0 <= ny)%Z ->
  exists m v, model_to_image_integrate dblquad f size flag center = Ok m /\ image_of m (Z.to_nat ny) (Z.to_nat nx) v /\
    forall j i, (forall x y, Rabs (x - (x0 + INR i)) < 1/2 -> Rabs (y - (y0 + INR j)) < 1/2 -> lo <= g x y <= hi) -> lo <= v j i <= hi.
Proof. exact L_Integrate.integrate_bounds. Qed.
Print Assumptions C115_bounds.

Example C115_example : slope_at_most 3 (fun x y => 3 * x - 2 * y).
Proof. exact E_Integrate.slope_ex. Qed.
