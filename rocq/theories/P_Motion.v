(** C130: moving a model moves its image, and the photometry of the image follows. *)
From Coq Require Import String.
From Verif Require Import Base Num Numpy M_Utils M_Photometry S_Photometry S_Center S_Symm M_PSF S_PSF M_Fitting S_Fitting M_Sersic S_Motion.
From Verif Require L_Motion L_Motion2 L_Motion3 E_Motion.
Local Open Scope R_scope.

(** the models depend on the position and orientation of a point relative to the galaxy only *)
Theorem C130_gen_sersic : forall s phi u v x y A re n x0 y0 e t c, s = 1 \/ s = -1 ->
  gen_sersic2d (Fin (move_x s phi u x y)) (Fin (move_y s phi v x y)) A re n
    (Fin (move_x s phi u x0 y0)) (Fin (move_y s phi v x0 y0)) e (Fin (move_angle s phi t)) c
  = gen_sersic2d (Fin x) (Fin y) A re n (Fin x0) (Fin y0) e (Fin t) c.
Proof. exact L_Motion.gen_moved. Qed.
Print Assumptions C130_gen_sersic.

Theorem C130_core_sersic : forall s phi u v x y A re rb n x0 y0 al ga e t, s = 1 \/ s = -1 ->
  core_sersic2d (Fin (move_x s phi u x y)) (Fin (move_y s phi v x y)) A re rb n
    (Fin (move_x s phi u x0 y0)) (Fin (move_y s phi v x0 y0)) al ga e (Fin (move_angle s phi t))
  = core_sersic2d (Fin x) (Fin y) A re rb n (Fin x0) (Fin y0) al ga e (Fin t).
Proof. exact L_Motion.core_moved. Qed.
Print Assumptions C130_core_sersic.

Theorem C130_nuker : forall s phi u v x y A rb x0 y0 al be ga, s = 1 \/ s = -1 ->
  nuker2d (Fin (move_x s phi u x y)) (Fin (move_y s phi v x y)) A rb
    (Fin (move_x s phi u x0 y0)) (Fin (move_y s phi v x0 y0)) al be ga
  = nuker2d (Fin x) (Fin y) A rb (Fin x0) (Fin y0) al be ga.
Proof. exact L_Motion.nuker_moved. Qed.
Print Assumptions C130_nuker.

(** images of any element-wise model, in the modes center, linear_interp and oversample *)
Theorem C130_transposed : forall f f' g g' m k size size' flag flag' center center' nx ny x0 y0,
  m <> OtherMode -> (0 < k)%Z -> (0 <= nx)%Z -> (0 <= ny)%Z -> real_function f g -> real_function f' g' ->
  size_means size flag nx ny -> origin_is center nx ny x0 y0 ->
  size_means size' flag' ny nx -> origin_is center' ny nx y0 x0 ->
  (forall x y, g' y x = g x y) ->
  exists im im', model_to_image (pointwise f) size flag m k center = Ok im /\
    model_to_image (pointwise f') size' flag' m k center' = Ok im' /\ same_data im' (transposed im).
Proof. exact L_Motion2.image_transposed. Qed.
Print Assumptions C130_transposed.

Theorem C130_mirrored : forall f f' g g' m k size size' flag flag' center center' nx ny x0 y0,
  m <> OtherMode -> (0 < k)%Z -> (0 <= nx)%Z -> (0 <= ny)%Z -> real_function f g -> real_function f' g' ->
  size_means size flag nx ny -> origin_is center nx ny x0 y0 ->
  size_means size' flag' nx ny -> origin_is center' nx ny x0 y0 ->
  (forall x y, g' (2 * x0 + IZR nx - 1 - x) y = g x y) ->
  exists im im', model_to_image (pointwise f) size flag m k center = Ok im /\
    model_to_image (pointwise f') size' flag' m k center' = Ok im' /\ same_data im' (mirrored im).
Proof. exact L_Motion2.image_mirrored. Qed.
Print Assumptions C130_mirrored.

Theorem C130_upended : forall f f' g g' m k size size' flag flag' center center' nx ny x0 y0,
  m <> OtherMode -> (0 < k)%Z -> (0 <= nx)%Z -> (0 <= ny)%Z -> real_function f g -> real_function f' g' ->
  size_means size flag nx ny -> origin_is center nx ny x0 y0 ->
  size_means size' flag' nx ny -> origin_is center' nx ny x0 y0 ->
  (forall x y, g' x (2 * y0 + IZR ny - 1 - y) = g x y) ->
  exists im im', model_to_image (pointwise f) size flag m k center = Ok im /\
    model_to_image (pointwise f') size' flag' m k center' = Ok im' /\ same_data im' (upended im).
Proof. exact L_Motion2.image_upended. Qed.
Print Assumptions C130_upended.

Theorem C130_shifted : forall f f' g g' m k size size' flag flag' center center' nx ny x0 y0,
  m <> OtherMode -> (0 < k)%Z -> (0 <= nx)%Z -> (0 <= ny)%Z -> real_function f g -> real_function f' g' ->
  size_means size flag nx ny -> origin_is center nx ny x0 y0 -> forall u v,
  size_means size' flag' nx ny -> origin_is center' nx ny (x0 + u) (y0 + v) ->
  (forall x y, g' (x + u) (y + v) = g x y) ->
  exists im im', model_to_image (pointwise f) size flag m k center = Ok im /\
    model_to_image (pointwise f') size' flag' m k center' = Ok im' /\ same_data im' im.
Proof. exact L_Motion2.image_shifted. Qed.
Print Assumptions C130_shifted.

Theorem C130_scaled : forall f f' g g' m k size size' flag flag' center center' nx ny x0 y0,
  m <> OtherMode -> (0 < k)%Z -> (0 <= nx)%Z -> (0 <= ny)%Z -> real_function f g -> real_function f' g' ->
  size_means size flag nx ny -> origin_is center nx ny x0 y0 -> forall c,
  size_means size' flag' nx ny -> origin_is center' nx ny x0 y0 ->
  (forall x y, g' x y = c * g x y) ->
  exists im im', model_to_image (pointwise f) size flag m k center = Ok im /\
    model_to_image (pointwise f') size' flag' m k center' = Ok im' /\
    iny im' = iny im /\ inx im' = inx im /\
    forall j i, (j < iny im)%nat -> (i < inx im)%nat -> px im' j i = nmul (Fin c) (px im j i).
Proof. exact L_Motion2.image_scaled. Qed.
Print Assumptions C130_scaled.

(** a turned GenSersic2D galaxy gives the same fluxes, areas and errors in the turned apertures *)
Theorem C130_galaxy_transposed : forall A re n e c m f nx ny, 0 < re -> 0 < n -> e < 1 -> -2 < c ->
  m <> OtherMode -> (0 < f)%Z -> (0 <= nx)%Z -> (0 <= ny)%Z ->
  let gal x0 y0 t : smodel := pointwise (fun x y =>
    gen_sersic2d x y (Fin A) (Fin re) (Fin n) (Fin x0) (Fin y0) (Fin e) (Fin t) (Fin c)) in
  forall ov k x0 y0 t rs elong, transposes ov ->
  exists im im', model_to_image (gal x0 y0 t) (VSeq [VInt nx; VInt ny]) false m f None = Ok im /\
    model_to_image (gal y0 x0 (PI / 2 - t)) (VSeq [VInt ny; VInt nx]) false m f None = Ok im' /\
    same_data im' (transposed im) /\
    radial_photometry ov k im' (Fin y0, Fin x0) rs None None elong (Fin (PI / 2 - t)) =
    radial_photometry ov k im (Fin x0, Fin y0) rs None None elong (Fin t).
Proof. exact L_Motion3.galaxy_transposed. Qed.
Print Assumptions C130_galaxy_transposed.

Theorem C130_galaxy_mirrored : forall A re n e c m f nx ny, 0 < re -> 0 < n -> e < 1 -> -2 < c ->
  m <> OtherMode -> (0 < f)%Z -> (0 <= nx)%Z -> (0 <= ny)%Z ->
  let gal x0 y0 t : smodel := pointwise (fun x y =>
    gen_sersic2d x y (Fin A) (Fin re) (Fin n) (Fin x0) (Fin y0) (Fin e) (Fin t) (Fin c)) in
  forall ov k x0 y0 t rs elong, mirrors ov ->
  exists im im', model_to_image (gal x0 y0 t) (VSeq [VInt nx; VInt ny]) false m f None = Ok im /\
    model_to_image (gal (IZR nx - 1 - x0) y0 (- t)) (VSeq [VInt nx; VInt ny]) false m f None = Ok im' /\
    same_data im' (mirrored im) /\
    radial_photometry ov k im' (Fin (IZR nx - 1 - x0), Fin y0) rs None None elong (Fin (- t)) =
    radial_photometry ov k im (Fin x0, Fin y0) rs None None elong (Fin t).
Proof. exact L_Motion3.galaxy_mirrored. Qed.
Print Assumptions C130_galaxy_mirrored.

Theorem C130_galaxy_upended : forall A re n e c m f nx ny, 0 < re -> 0 < n -> e < 1 -> -2 < c ->
  m <> OtherMode -> (0 < f)%Z -> (0 <= nx)%Z -> (0 <= ny)%Z ->
  let gal x0 y0 t : smodel := pointwise (fun x y =>
    gen_sersic2d x y (Fin A) (Fin re) (Fin n) (Fin x0) (Fin y0) (Fin e) (Fin t) (Fin c)) in
  forall ov k x0 y0 t rs elong, upends ov ->
  exists im im', model_to_image (gal x0 y0 t) (VSeq [VInt nx; VInt ny]) false m f None = Ok im /\
    model_to_image (gal x0 (IZR ny - 1 - y0) (- t)) (VSeq [VInt nx; VInt ny]) false m f None = Ok im' /\
    same_data im' (upended im) /\
    radial_photometry ov k im' (Fin x0, Fin (IZR ny - 1 - y0)) rs None None elong (Fin (- t)) =
    radial_photometry ov k im (Fin x0, Fin y0) rs None None elong (Fin t).
Proof. exact L_Motion3.galaxy_upended. Qed.
Print Assumptions C130_galaxy_upended.

Theorem C130_galaxy_shifted : forall A re n e c m f nx ny center center' x0 y0 t ox oy u v,
  0 < re -> 0 < n -> e < 1 -> -2 < c -> m <> OtherMode -> (0 < f)%Z -> (0 <= nx)%Z -> (0 <= ny)%Z ->
  origin_is center nx ny ox oy -> origin_is center' nx ny (ox + u) (oy + v) ->
  exists im im',
    model_to_image (pointwise (fun x y => gen_sersic2d x y (Fin A) (Fin re) (Fin n) (Fin x0) (Fin y0) (Fin e) (Fin t) (Fin c)))
      (VSeq [VInt nx; VInt ny]) false m f center = Ok im /\
    model_to_image (pointwise (fun x y => gen_sersic2d x y (Fin A) (Fin re) (Fin n) (Fin (x0 + u)) (Fin (y0 + v)) (Fin e) (Fin t) (Fin c)))
      (VSeq [VInt nx; VInt ny]) false m f center' = Ok im' /\ same_data im' im.
Proof. exact L_Motion3.galaxy_shifted. Qed.
Print Assumptions C130_galaxy_shifted.

(** an upright galaxy on 9 columns and 8 rows; the pixels (7, 5) and (5, 7) differ *)
Example C130_example : exists im im' v,
  model_to_image (E_Motion.gal (PI / 2)) (VSeq [VInt 9; VInt 8]) false Center 1 None = Ok im /\
  model_to_image (E_Motion.gal (PI / 2 - PI / 2)) (VSeq [VInt 8; VInt 9]) false Center 1 None = Ok im' /\
  px im 7 5 = Fin 3 /\ px im' 5 7 = Fin 3 /\ v < 3 /\ px im 5 7 = Fin v /\ px im' 7 5 = Fin v /\
  (forall k rs elong, radial_photometry center_overlap k im' (Fin 5, Fin 5) rs None None elong (Fin (PI / 2 - PI / 2)) =
     radial_photometry center_overlap k im (Fin 5, Fin 5) rs None None elong (Fin (PI / 2))).
Proof. exact E_Motion.motion_example. Qed.
