(** Property theorems for the simulated galaxies of the correction grid: C122-C124. *)
From Coq Require Import String.
From Verif Require Import Base Num Numpy M_Utils S_Photometry M_Petrosian S_Petrosian M_PSF S_PSF S_Fitting Gamma M_Sersic S_Sersic M_Correction M_Worker S_Worker.
From Verif Require L_Worker L_Worker3 E_Sersic E_Worker.
Local Open Scope list_scope.
Local Open Scope R_scope.

(** C122: every pixel is the mean of samples of the Sersic law with amplitude 100 / exp b, centred on pixel (h, h) *)
Theorem C122_pixels : forall rotate h re n b over k, (0 < h)%Z -> 0 < re -> 0 < n -> half_light n b -> sampled h over k ->
  exists m, worker_image rotate None over VNone (Fin re) (Fin n) (2 * h) h = Ok m /\
    image_of m (Z.to_nat (2 * h)) (Z.to_nat (2 * h))
      (fun j i => mean_samples (sersic2d b (100 / exp b) re n (IZR h) (IZR h) 0 0) (k j i) (INR i) (INR j)).
Proof. exact L_Worker3.image_ok. Qed.
Print Assumptions C122_pixels.

(** an oversampled window that is not inside the image *)
Theorem C122_window : forall rotate h re n s f, (0 < h)%Z -> 0 < re -> 0 < n -> (1 < s)%Z -> (1 < f)%Z ->
  ~ (s / 2 <= h /\ h - s / 2 + s <= 2 * h)%Z ->
  worker_image rotate None (VSeq [VStr "x_0"; VStr "y_0"; VInt s; VInt f]) VNone (Fin re) (Fin n) (2 * h) h = Err ValueError.
Proof. exact L_Worker3.image_not_ok. Qed.
Print Assumptions C122_window.

Example C122_example : forall rotate, exists m, worker_image rotate None VNone VNone (Fin 1) (Fin (1/2)) 2 1 = Ok m /\ iny m = 2%nat /\ inx m = 2%nat /\
  px m 1 1 = Fin 100 /\ px m 1 0 = Fin 50 /\ px m 0 0 = Fin 25.
Proof. exact E_Worker.C122_ex. Qed.
Example C122_example_window : (exists k, sampled 5 default_oversample k /\ k 5%nat 5%nat = 50%nat /\ k 0%nat 9%nat = 50%nat) /\
  (exists k, sampled 7 default_oversample k /\ k 7%nat 7%nat = 50%nat /\ k 1%nat 7%nat = 1%nat /\ k 2%nat 11%nat = 50%nat) /\
  forall rotate, worker_image rotate None default_oversample VNone (Fin 1) (Fin (1/2)) 8 4 = Err ValueError.
Proof. exact E_Worker.C122_window_ex. Qed.

(** C123: the photometry of the image at the radii the code chooses *)
Theorem C123_photometry : forall rotate over k re n b x m radii size x0, 0 < re -> 0 < n -> half_light n b ->
  int_of (Fin x) = Ok m -> sim_geometry (nleb (nofZ 200) (Fin x)) m = Ok (radii, size, x0) -> sampled x0 over k ->
  exists F Ar, worker_photometry rotate None over VNone (Fin re) (Fin n) radii size x0 = Ok (map Fin F, map Fin Ar) /\
    List.length F = List.length radii /\ List.length Ar = List.length radii /\
    forall i r, nth_error radii i = Some r -> measured_ok (100 / exp b) re n x0 r (at_ F i) (at_ Ar i).
Proof. exact L_Worker3.photometry_ok. Qed.
Print Assumptions C123_photometry.

Example C123_example : half_light (1/2) (ln 2) /\ int_of (Fin 5) = Ok 5%Z /\
  sim_geometry (nleb (nofZ 200) (Fin 5)) 5 = Ok ([1; 3; 5]%Z, 10%Z, 5%Z) /\ exists k, sampled 5 default_oversample k.
Proof. exact E_Worker.C123_ex. Qed.

(** C124: the fluxes and radii of the model that the row is compared with *)
Theorem C124_input : forall re n b, 0 < re -> 0 < n -> half_light n b ->
  exists L, worker_total (Fin re) (Fin n) = Fin L /\ 0 < L /\
    sersic_enclosed PInf (Fin (100 / exp b)) (Fin re) (Fin n) (Fin 0) = Fin L /\
    forall p, 0 <= p < 1 -> exists r, 0 <= r /\ worker_radius (Fin re) (Fin n) (Fin (p * L)) = Fin r /\
      sersic_enclosed (Fin r) (Fin (100 / exp b)) (Fin re) (Fin n) (Fin 0) = Fin (p * L).
Proof. exact L_Worker3.input_radii. Qed.
Print Assumptions C124_input.

(** no row for small galaxies with the default oversampling *)
Theorem C124_small : forall rotate mk re n b L r99, 0 < re -> 0 < n -> half_light n b ->
  sersic_enclosed PInf (Fin (100 / exp b)) (Fin re) (Fin n) (Fin 0) = Fin L ->
  0 <= r99 -> sersic_enclosed (Fin r99) (Fin (100 / exp b)) (Fin re) (Fin n) (Fin 0) = Fin (99/100 * L) ->
  largest_radius re n r99 < 4 ->
  worker rotate None default_oversample VNone mk (Fin re) (Fin n) = Err ValueError.
Proof. exact L_Worker3.small_rejected. Qed.
Print Assumptions C124_small.

Example C124_example : exists L r99, half_light (1/2) (ln 2) /\
  sersic_enclosed PInf (Fin (100 / exp (ln 2))) (Fin (1/100)) (Fin (1/2)) (Fin 0) = Fin L /\ 0 <= r99 /\
  sersic_enclosed (Fin r99) (Fin (100 / exp (ln 2))) (Fin (1/100)) (Fin (1/2)) (Fin 0) = Fin (99/100 * L) /\
  largest_radius (1/100) (1/2) r99 < 4.
Proof. exact E_Worker.C124_ex. Qed.
