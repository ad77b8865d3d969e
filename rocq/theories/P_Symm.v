(** Property theorems: turned, mirrored and cropped images (C104-C106). *)
From Verif Require Import Base Num Numpy M_Utils M_Photometry S_Photometry S_Center S_Symm.
From Verif Require L_Symm E_Symm.
Local Open Scope R_scope.

(** C104: photometry of a transposed or mirrored image, for any overlap rule with this symmetry *)
Theorem C104_transposed : forall ov k image error mask x y elong theta rs, transposes ov ->
  radial_photometry ov k (transposed image) (y, x) rs (option_map transposed error) (option_map transposed mask) elong (nsub (Fin (PI / 2)) theta)
  = radial_photometry ov k image (x, y) rs error mask elong theta.
Proof. exact L_Symm.radial_transposed. Qed.
Print Assumptions C104_transposed.

Theorem C104_mirrored : forall ov k image error mask x y elong theta rs, mirrors ov ->
  radial_photometry ov k (mirrored image) (nsub (Fin (INR (inx image) - 1)) x, y) rs (option_map mirrored error) (option_map mirrored mask) elong (nopp theta)
  = radial_photometry ov k image (x, y) rs error mask elong theta.
Proof. exact L_Symm.radial_mirrored. Qed.
Print Assumptions C104_mirrored.

Theorem C104_upended : forall ov k image error mask x y elong theta rs, upends ov ->
  radial_photometry ov k (upended image) (x, nsub (Fin (INR (iny image) - 1)) y) rs (option_map upended error) (option_map upended mask) elong (nopp theta)
  = radial_photometry ov k image (x, y) rs error mask elong theta.
Proof. exact L_Symm.radial_upended. Qed.
Print Assumptions C104_upended.

(** and the 'center' rule has all of them *)
Theorem C104_center_transposes : transposes center_overlap.
Proof. exact L_Symm.center_transposes. Qed.
Print Assumptions C104_center_transposes.
Theorem C104_center_mirrors : mirrors center_overlap.
Proof. exact L_Symm.center_mirrors. Qed.
Print Assumptions C104_center_mirrors.
Theorem C104_center_upends : upends center_overlap.
Proof. exact L_Symm.center_upends. Qed.
Print Assumptions C104_center_upends.

Example C104_example : forall k, exists f a, rounded6 7 f /\ rounded6 4 a /\
  radial_photometry center_overlap k (transposed E_Symm.count9) (Fin 0, Fin 1) [Fin (6/5)] None None (Fin 1) (Fin 0) = Ok ([Fin f], [Fin a], [NaN]) /\
  radial_photometry center_overlap k (upended E_Symm.count9) (Fin 1, Fin 2) [Fin (6/5)] None None (Fin 1) (Fin 0) = Ok ([Fin f], [Fin a], [NaN]).
Proof. exact E_Symm.C104_ex. Qed.

(** C105: cropping away pixels the apertures do not use changes nothing *)
Theorem C105_window : forall y0 x0 ny nx k image x y rs error mask elong t,
  (y0 + ny <= iny image)%nat -> (x0 + nx <= inx image)%nat -> fits error image -> fits mask image ->
  0 < elong -> (forall r, In r rs -> 0 < r) ->
  INR x0 <= x <= INR x0 + INR nx - 1 -> INR y0 <= y <= INR y0 + INR ny - 1 ->
  (forall r j i, In r rs -> (j < iny image)%nat -> (i < inx image)%nat -> inside_ellipse x y r (r / elong) t (INR i) (INR j) ->
     selects mask j i = true -> (y0 <= j < y0 + ny)%nat /\ (x0 <= i < x0 + nx)%nat) ->
  radial_photometry center_overlap k (window y0 x0 ny nx image) (Fin (x - INR x0), Fin (y - INR y0)) (map Fin rs)
    (option_map (window y0 x0 ny nx) error) (option_map (window y0 x0 ny nx) mask) (Fin elong) (Fin t) =
  radial_photometry center_overlap k image (Fin x, Fin y) (map Fin rs) error mask (Fin elong) (Fin t).
Proof. exact L_Symm.radial_window. Qed.
Print Assumptions C105_window.

Example C105_example : forall k, exists f a, rounded6 7 f /\ rounded6 4 a /\
  radial_photometry center_overlap k E_Symm.count9 (Fin 1, Fin 0) [Fin (6/5)] None None (Fin 1) (Fin 0) = Ok ([Fin f], [Fin a], [NaN]) /\
  radial_photometry center_overlap k (window 0 0 2 3 E_Symm.count9) (Fin 1, Fin 0) [Fin (6/5)] None None (Fin 1) (Fin 0) = Ok ([Fin f], [Fin a], [NaN]).
Proof. exact E_Symm.C105_ex. Qed.

(** C106: theta counts modulo half a turn, and not at all for circles *)
Theorem C106_half_turn : forall k image pos rs error mask elong t,
  radial_photometry center_overlap k image pos rs error mask elong (Fin (t + PI)) =
  radial_photometry center_overlap k image pos rs error mask elong (Fin t).
Proof. exact L_Symm.radial_half_turn. Qed.
Print Assumptions C106_half_turn.

Theorem C106_circle : forall k image pos rs error mask t t',
  radial_photometry center_overlap k image pos rs error mask (Fin 1) (Fin t) =
  radial_photometry center_overlap k image pos rs error mask (Fin 1) (Fin t').
Proof. exact L_Symm.radial_circle. Qed.
Print Assumptions C106_circle.

Example C106_example : forall k, exists f a, rounded6 7 f /\ rounded6 4 a /\
  radial_photometry center_overlap k E_Symm.count9 (Fin 1, Fin 0) [Fin (6/5)] None None (Fin 1) (Fin (1 / 3)) = Ok ([Fin f], [Fin a], [NaN]).
Proof. exact E_Symm.C106_ex. Qed.
