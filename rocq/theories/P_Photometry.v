(** Property theorems for petrofit/photometry.py: C11-C14. *)
From Verif Require Import Base Num Numpy M_Utils M_Photometry S_Petrosian S_Photometry.
From Verif Require L_Photometry E_Photometry.

(** C11. *)
Theorem C11_aperture_axes : forall k (pos : xr * xr) r elong theta,
  (0 < r -> 0 < elong ->
   radial_elliptical_aperture k pos (Fin r) (Fin elong) theta
   = Ok (mkap (fst pos) (snd pos) (Fin r) (Fin (r / elong)) theta))%R /\
  (r <= 0 -> elong <> 0 ->
   radial_elliptical_aperture k pos (Fin r) (Fin elong) theta = Err ValueError)%R.
Proof. exact E_Photometry.aperture_axes. Qed.
Print Assumptions C11_aperture_axes.

Theorem C11_annulus_axes : forall k (pos : xr * xr) r dr elong theta,
  (0 < r -> 0 < dr -> 0 < elong ->
   exists b_in b_out,
   radial_elliptical_annulus k pos (Fin r) (Fin dr) (Fin elong) theta
   = Ok (mkan (fst pos) (snd pos) (Fin r) (Fin (r + dr)) (Fin b_in) (Fin b_out) theta) /\
   b_out = (r + dr) / elong /\ b_in = r / elong /\
   ellipse_area (r + dr) b_out - ellipse_area r b_in
   = ellipse_area (r + dr) ((r + dr) / elong) - ellipse_area r (r / elong) /\
   ellipse_area (r + dr) b_out - ellipse_area r b_in = PI * dr * (2 * r + dr) / elong)%R /\
  (elong <> 0 -> r <= 0 \/ dr <= 0 ->
   radial_elliptical_annulus k pos (Fin r) (Fin dr) (Fin elong) theta = Err ValueError)%R.
Proof. exact E_Photometry.annulus_axes. Qed.
Print Assumptions C11_annulus_axes.

Example C11_example :
  radial_elliptical_aperture PyFloat (Fin 1, Fin 2) (Fin 3) (Fin 2) (Fin 0)
  = Ok (mkap (Fin 1) (Fin 2) (Fin 3) (Fin (3/2)) (Fin 0)).
Proof. exact E_Photometry.C11_ex. Qed.

(** C12: any number type, any overlap function. *)
Theorem C12_one_entry_per_radius : forall (T : Type) (N : Num T) overlap k (image : img T) pos
    error mask elong theta rs F A E,
  radial_photometry overlap k image pos rs error mask elong theta = Ok (F, A, E) <->
  length F = length rs /\ length A = length rs /\ length E = length rs /\
  forall i r, nth_error rs i = Some r ->
    exists f a e, radial_photometry overlap k image pos [r] error mask elong theta
        = Ok ([f], [a], [e]) /\
      nth_error F i = Some f /\ nth_error A i = Some a /\ nth_error E i = Some e.
Proof. exact @L_Photometry.rp_Ok. Qed.
Print Assumptions C12_one_entry_per_radius.

Theorem C12_raises_at_first_bad_radius : forall (T : Type) (N : Num T) overlap k (image : img T) pos
    error mask elong theta rs e,
  radial_photometry overlap k image pos rs error mask elong theta = Err e <->
  exists i r, nth_error rs i = Some r /\
    radial_photometry overlap k image pos [r] error mask elong theta = Err e /\
    forall j r', j < i -> nth_error rs j = Some r' ->
      is_ok (radial_photometry overlap k image pos [r'] error mask elong theta) = true.
Proof. exact @L_Photometry.rp_Err. Qed.
Print Assumptions C12_raises_at_first_bad_radius.

Theorem C12_values : forall overlap k image v x y r error mask elong theta wr w,
  (0 < r)%R -> (0 < elong)%R -> fits error image -> fits mask image ->
  overlap (mkap x y (Fin r) (Fin (r / elong)) theta) (iny image) (inx image) = Some w ->
  (forall j i, j < iny image -> i < inx image -> w j i = Fin (wr j i)) ->
  (forall j i, j < iny image -> i < inx image -> (0 < wr j i)%R -> selects mask j i = true ->
     px image j i = Fin (v j i)) ->
  (forall e, error = Some e -> exists ev, finite_img e ev) ->
  exists f a e,
    radial_photometry overlap k image (x, y) [Fin r] error mask (Fin elong) theta
      = Ok ([Fin f], [Fin a], [e]) /\
    rounded6 (weighted (iny image) (inx image) wr (selects mask) v) f /\
    rounded6 (weighted (iny image) (inx image) wr (selects mask) (fun _ _ => 1%R)) a /\
    (error = None -> e = NaN) /\
    (forall em ev, error = Some em -> finite_img em ev ->
       exists s, e = Fin s /\
         rounded6 (sqrt (weighted (iny image) (inx image) wr (selects mask)
                           (fun j i => ev j i * ev j i)%R)) s).
Proof. exact L_Photometry.rp_value. Qed.
Print Assumptions C12_values.

Theorem C12_raises_iff_nan : forall overlap k image x y r error mask elong theta,
  (0 < r)%R -> (0 < elong)%R -> fits error image -> fits mask image ->
  (forall j i, j < iny image -> i < inx image -> px image j i = NaN \/ exists v, px image j i = Fin v) ->
  (forall w, overlap (ap_of x y theta elong r) (iny image) (inx image) = Some w ->
     forall j i, j < iny image -> i < inx image -> exists a, w j i = Fin a) ->
  (forall ex, radial_photometry overlap k image (x, y) [Fin r] error mask (Fin elong) theta = Err ex ->
     ex = GenericException) /\
  (radial_photometry overlap k image (x, y) [Fin r] error mask (Fin elong) theta = Err GenericException <->
   overlap (ap_of x y theta elong r) (iny image) (inx image) = None \/
   exists w j i a, overlap (ap_of x y theta elong r) (iny image) (inx image) = Some w /\
     j < iny image /\ i < inx image /\ w j i = Fin a /\ (0 < a)%R /\ selects mask j i = true /\
     px image j i = NaN).
Proof. exact E_Photometry.rp_raises. Qed.
Print Assumptions C12_raises_iff_nan.

Example C12_example : exists e,
  radial_photometry center_overlap PyFloat E_Photometry.ex_img (Fin 1, Fin 1) [Fin (3/2)] None
    (Some E_Photometry.ex_mask) (Fin (3/2)) (Fin 0) = Ok ([Fin 21], [Fin 2], [e]).
Proof. exact E_Photometry.C12_ex. Qed.

(** C13: any number type, any overlap function. *)
Theorem C13_masked_pixels_ignored : forall (T : Type) (N : Num T) overlap k pos rs m
    (a b : img T) ea eb elong theta,
  agree m a b ->
  match ea, eb with
  | None, None => True
  | Some x, Some y => agree m x y /\ iny x = iny a /\ inx x = inx a
  | _, _ => False
  end ->
  radial_photometry overlap k a pos rs ea (Some m) elong theta
  = radial_photometry overlap k b pos rs eb (Some m) elong theta.
Proof. exact @L_Photometry.rp_agree. Qed.
Print Assumptions C13_masked_pixels_ignored.

Example C13_example :
  agree E_Photometry.ex_mask E_Photometry.ex_img
    (mkimg 3 3 (fun j i => if (i =? 2) then NaN else Fin (INR (10 * j + i)))) /\
  px E_Photometry.ex_img 0 2 <> NaN.
Proof. exact E_Photometry.C13_ex. Qed.

(** C14. *)
Theorem C14_accuracy : forall overlap k image v x y r mask elong theta wr w,
  (0 < r)%R -> (0 < elong)%R -> fits mask image -> finite_img image v ->
  overlap (ap_of x y theta elong r) (iny image) (inx image) = Some w ->
  (forall j i, j < iny image -> i < inx image -> w j i = Fin (wr j i)) ->
  let total u := weighted (iny image) (inx image) wr (selects mask) u in
  exists f a, radial_photometry overlap k image (x, y) [Fin r] None mask (Fin elong) theta
      = Ok ([Fin f], [Fin a], [NaN]) /\
    (Rabs (f - total v) <= 5 / 10000000)%R /\
    (Rabs (a - total (fun _ _ => 1%R)) <= 5 / 10000000)%R /\
    (forall c, (forall j i, j < iny image -> i < inx image -> v j i = c) ->
       (Rabs (f - c * total (fun _ _ => 1%R)) <= 5 / 10000000)%R).
Proof. exact E_Photometry.rp_accuracy. Qed.
Print Assumptions C14_accuracy.

Theorem C14_monotone : forall overlap k image v x y rs mask elong theta,
  (0 < elong)%R -> fits mask image -> finite_img image v ->
  (forall j i, j < iny image -> i < inx image -> (0 <= v j i)%R) ->
  nondecreasing rs -> (forall i, i < length rs -> (0 < at_ rs i)%R) ->
  (0 < length rs -> overlap (ap_of x y theta elong (at_ rs 0)) (iny image) (inx image) <> None) ->
  grows overlap x y theta elong (iny image) (inx image) ->
  exists F A, radial_photometry overlap k image (x, y) (map Fin rs) None mask (Fin elong) theta
      = Ok (map Fin F, map Fin A, map (fun _ => NaN) rs) /\
    length F = length rs /\ length A = length rs /\
    nondecreasing F /\ nondecreasing A /\
    forall i, i < length rs -> (0 <= at_ F i)%R /\ (0 <= at_ A i)%R.
Proof. exact E_Photometry.rp_monotone. Qed.
Print Assumptions C14_monotone.

(** the 'center' method: overlaps do grow, so nothing is assumed *)
Theorem C14_monotone_center : forall k image v x y t rs mask elong,
  (0 < elong)%R -> fits mask image -> finite_img image v ->
  (forall j i, j < iny image -> i < inx image -> (0 <= v j i)%R) ->
  nondecreasing rs -> (forall i, i < length rs -> (0 < at_ rs i)%R) ->
  (0 < length rs ->
   center_overlap (ap_of (Fin x) (Fin y) (Fin t) elong (at_ rs 0)) (iny image) (inx image) <> None) ->
  exists F A, radial_photometry center_overlap k image (Fin x, Fin y) (map Fin rs) None mask
      (Fin elong) (Fin t)
      = Ok (map Fin F, map Fin A, map (fun _ => NaN) rs) /\
    length F = length rs /\ length A = length rs /\
    nondecreasing F /\ nondecreasing A /\
    forall i, i < length rs -> (0 <= at_ F i)%R /\ (0 <= at_ A i)%R.
Proof. exact E_Photometry.center_monotone. Qed.
Print Assumptions C14_monotone_center.

Example C14_example :
  nondecreasing [3/2; 2; 5/2]%R /\
  center_overlap (ap_of (Fin 1) (Fin 1) (Fin 0) (3/2) (at_ [3/2; 2; 5/2]%R 0)) 3 3 <> None /\
  finite_img E_Photometry.ex_img (fun j i => INR (10 * j + i)) /\
  forall j i, (0 <= INR (10 * j + i))%R.
Proof. exact E_Photometry.C14_ex. Qed.
