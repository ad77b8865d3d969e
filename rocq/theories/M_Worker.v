(** Model of the simulated galaxy inside _generate_petrosian_correction (petrosian/correction.py 24-97,
    plot=False), the function that computes one row of the correction grid.

    M_Correction.generate_row leaves the galaxy open; here it is the one the code makes: an astropy
    Sersic2D in a PSFConvolvedModel2D, drawn by model_to_image and measured by radial_photometry.
    Exact reals.  Integers of the code (radii, image size, centre) are numpy ints; x_0 and y_0 become the
    float parameters of the model. *)
From Coq Require Import String.
From Verif Require Import Base Num Numpy M_Utils M_Photometry M_Petrosian M_Sersic M_PSF M_Fitting M_Exact M_Correction.
Local Open Scope list_scope.
Local Open Scope num_scope.

(** correction.py 32: 100 / np.exp(gammaincinv(2.0 * n, 0.5)) *)
Definition worker_amplitude (n : xr) : xr := nofZ 100 / xexp (bn_of n).

(** correction.py 35; ellip has its default 0 *)
Definition worker_total (r_eff n : xr) : xr := sersic_enclosed PInf (worker_amplitude n) r_eff n n0.

(** correction.py 39-44 *)
Definition worker_radius (r_eff n f : xr) : xr := sersic_enclosed_inv f (worker_amplitude n) r_eff n n0.

(** astropy.modeling.functional_models.Sersic2D.evaluate (library) *)
Definition astropy_sersic2d (x y amplitude r_eff n x_0 y_0 ellip theta : xr) : xr :=
  let bn := bn_of n in
  let a := r_eff in
  let b := (n1 - ellip) * r_eff in
  let cos_theta := xcos theta in
  let sin_theta := xsin theta in
  let x_maj := (x - x_0) * cos_theta + (y - y_0) * sin_theta in
  let x_min := nopp (x - x_0) * sin_theta + (y - y_0) * cos_theta in
  let z := nsqrt (xpow (x_maj / a) n2 + xpow (x_min / b) n2) in
  amplitude * xexp (nopp bn * (xpow z (n1 / n) - n1)).

(** Sersic2D as the wrapped model of M_PSF: parameter names in astropy's order *)
Definition sersic_sub : submodel xr :=
  mksm ["amplitude"; "r_eff"; "n"; "x_0"; "y_0"; "ellip"; "theta"]%string
    (Fresh (fun ps x y => match ps with
                          | [amplitude; r_eff; n; x_0; y_0; ellip; theta] =>
                              astropy_sersic2d x y amplitude r_eff n x_0 y_0 ellip theta
                          | _ => NaN
                          end)).

(** elements of an array in row-major order *)
Definition flat {T} (m : img T) : list T := flat_map (fun j => map (px m j) (seq 0 (inx m))) (seq 0 (iny m)).

(** a PSFConvolvedModel2D called on coordinate arrays of equal shape: evaluate works element by element on
    its indices, models.py:382-383 and 538, so the result has the shape of the arguments *)
Definition psf_model (rotate : img xr -> xr -> img xr) (sm : submodel xr) (st : pst xr) (params : list xr) (psf_pa : xr)
  : smodel (T:=xr) :=
  fun X Y => do l <- fst (evaluate rotate sm st (flat X) (flat Y) params psf_pa);
             Ok (mkimg (iny X) (inx X) (fun j i => nth (j * inx X + i) l NaN)).

Section Worker.
  Variable rotate : img xr -> xr -> img xr.
  Variable psf : option (img xr).
  Variables oversample psf_oversample : pyv xr.

  (** correction.py 68-85: the model image; psf_pa has its default 0 *)
  Definition worker_image (r_eff n : xr) (size x0 : Z) : result (img xr) :=
    do st <- new psf oversample psf_oversample;
    model_to_image
      (psf_model rotate sersic_sub st [worker_amplitude n; r_eff; n; nofZ x0; nofZ x0; n0; n0] n0)
      (VInt size) false Center 1 (Some (VSeq [VInt x0; VInt x0])).

  (** correction.py 68-90: flux and area arrays *)
  Definition worker_photometry (r_eff n : xr) (radii : list Z) (size x0 : Z) : result (list xr * list xr) :=
    do m <- worker_image r_eff n size x0;
    do l <- radial_photometry exact_overlap NpFloat m (nofZ x0, nofZ x0) (map nofZ radii) None None n1 n0;
    Ok (fst (fst l), snd (fst l)).

  (** correction.py 24-184 with plot=False *)
  Definition worker (mk : kind -> list xr -> list xr -> result (xr -> xr)) (r_eff n : xr) : result (list xr) :=
    generate_row mk worker_total worker_radius worker_photometry r_eff n.
End Worker.
