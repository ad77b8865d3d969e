(** Least-squares fits and what they leave (C125, C126). *)
From Coq Require Import String.
From Verif Require Import Base Num Numpy M_Utils M_Photometry S_Photometry S_Petrosian M_PSF M_Fitting S_Fitting M_Segm S_Segm S_LSQ.
From Verif Require E_Segm L_LSQ3 L_LSQ4 E_LSQ.
Local Open Scope list_scope.

(** C125. *)
Theorem C125_exact_fit : forall M O (f : fitter (T:=xr) M O) model evalM family, finds_exact f model evalM family ->
  forall (image : img xr) weights calc (opts : O) g0, fits weights image -> nonzero_weights weights image -> family g0 ->
  (forall j i, good image j i -> px image j i = Fin (g0 (INR i) (INR j))) ->
  exists m fx g, fit_model M O (image, None) model weights f calc opts = Ok (m, f) /\ evalM m = pointwise fx /\ real_function fx g /\ family g /\
    forall j i, good image j i -> g (INR i) (INR j) = g0 (INR i) (INR j).
Proof. exact L_LSQ4.fit_exact. Qed.
Print Assumptions C125_exact_fit.

Theorem C125_residual : forall M O (f : fitter (T:=xr) M O) model evalM family, finds_exact f model evalM family ->
  forall (image : img xr) weights calc (opts : O) g0, fits weights image -> nonzero_weights weights image -> family g0 ->
  (forall j i, good image j i -> px image j i = Fin (g0 (INR i) (INR j))) ->
  exists m mi r, fit_model M O (image, None) model weights f calc opts = Ok (m, f) /\ plot_fit (evalM m) image Center None = Ok (mi, r) /\
    iny r = iny image /\ inx r = inx image /\
    forall j i, (j < iny image)%nat -> (i < inx image)%nat -> px r j i = match px image j i with NaN => NaN | _ => Fin 0 end.
Proof. exact L_LSQ4.fit_residual. Qed.
Print Assumptions C125_residual.

Theorem C125_rendered : forall M O (f : fitter (T:=xr) M O) model evalM family, finds_exact f model evalM family ->
  forall f0 g0 size flag k nx ny calc (opts : O) image, real_function f0 g0 -> family g0 -> size_means size flag nx ny ->
  model_to_image (pointwise f0) size flag Center k None = Ok image ->
  exists m drawn, fit_model M O (image, None) model None f calc opts = Ok (m, f) /\
    model_to_image (evalM m) size flag Center k None = Ok drawn /\ same_data image drawn.
Proof. exact L_LSQ4.fit_rendered. Qed.
Print Assumptions C125_rendered.

Theorem C125_background : forall M O planar (linear : fitter (T:=xr) M O) evalM sigma_clip obeys, fits_planes linear planar evalM obeys ->
  forall (image : img xr) sigma calc (opts : O) a b c,
  (forall j i, good image j i -> px image j i = Fin (plane a b c (INR i) (INR j))) -> spread_on (remaining sigma_clip obeys image sigma) ->
  exists m f, fit_background M O sigma_clip image planar sigma linear calc opts = Ok (m, linear) /\ evalM m = pointwise f /\ real_function f (plane a b c).
Proof. exact L_LSQ4.background_exact. Qed.
Print Assumptions C125_background.

(** amplitude 3 found again from amplitude 1, one pixel missing *)
Example C125_example : finds_exact (E_LSQ.ratio_fitter E_LSQ.bump) 1%R (E_LSQ.scaledM E_LSQ.bump) (E_LSQ.scaled E_LSQ.bump) /\
  exists r, fit_model R unit (E_LSQ.bump_image, None) 1%R None (E_LSQ.ratio_fitter E_LSQ.bump) false tt = Ok (r, E_LSQ.ratio_fitter E_LSQ.bump) /\ r = 3%R.
Proof. exact E_LSQ.bump_example. Qed.

Example C125_example_plane : (forall j i, good E_LSQ.slab j i -> px E_LSQ.slab j i = Fin (plane 2 3 7 (INR i) (INR j))) /\
  spread_on (remaining (fun s _ => mkimg 3 2 (fun j i => Nat.eqb j 2)) true E_LSQ.slab (Some (Fin 3))).
Proof. exact E_LSQ.slab_example. Qed.

(** C126. *)
Theorem C126_plane_removed : forall overlap sigma_clip clipped_stats M O planar linear opts evalM
    k c image image' segm r_list error cs sigma mb (h : heap xr) size a b d obeys,
  usable h image (c_x c) (c_y c) size -> usable h image' (c_x c) (c_y c) size ->
  (forall e, error = Some e -> usable h e (c_x c) (c_y c) size) ->
  iny segm = iny (a_img (deref h image)) -> inx segm = inx (a_img (deref h image)) ->
  cutout_side cs r_list = Ok size -> (0 < size)%Z ->
  fits_planes linear planar evalM obeys ->
  plus_plane a b d (a_img (deref h image)) (a_img (deref h image')) ->
  (forall s s', background h image segm (c_x c) (c_y c) size s -> background h image' segm (c_x c) (c_y c) size s' ->
     many_background s /\ (forall j i, good s j i -> px s j i = Fin 0) /\ spread_on (unmasked obeys s' (sigma_clip s' sigma))) ->
  fst (source_photometry overlap sigma_clip clipped_stats M O planar linear opts evalM
         k (SCat c) image' segm r_list error cs true sigma Clip mb h) =
  fst (source_photometry overlap sigma_clip clipped_stats M O planar linear opts evalM
         k (SCat c) image segm r_list error cs false sigma Clip mb h).
Proof. exact L_LSQ3.flat_clip. Qed.
Print Assumptions C126_plane_removed.

Theorem C126_plane_added : forall overlap sigma_clip clipped_stats M O planar linear opts evalM
    k c image image' segm r_list error cs sigma mb (h : heap xr) size a b d obeys,
  usable h image (c_x c) (c_y c) size -> usable h image' (c_x c) (c_y c) size ->
  (forall e, error = Some e -> usable h e (c_x c) (c_y c) size) ->
  iny segm = iny (a_img (deref h image)) -> inx segm = inx (a_img (deref h image)) ->
  cutout_side cs r_list = Ok size -> (0 < size)%Z ->
  fits_planes linear planar evalM obeys ->
  plus_plane a b d (a_img (deref h image)) (a_img (deref h image')) ->
  (forall s s', background h image segm (c_x c) (c_y c) size s -> background h image' segm (c_x c) (c_y c) size s' ->
     many_background s /\ no_infinity s /\ spread_on (unmasked obeys s (sigma_clip s sigma)) /\
     (obeys = true -> clips_alike (fun s => sigma_clip s sigma) s s')) ->
  fst (source_photometry overlap sigma_clip clipped_stats M O planar linear opts evalM
         k (SCat c) image' segm r_list error cs true sigma Clip mb h) =
  fst (source_photometry overlap sigma_clip clipped_stats M O planar linear opts evalM
         k (SCat c) image segm r_list error cs true sigma Clip mb h).
Proof. exact L_LSQ3.tilt_clip. Qed.
Print Assumptions C126_plane_added.

Theorem C126_bound_removed : forall overlap sigma_clip clipped_stats M O planar linear opts evalM
    k c image image' segm r_list error cs sg mb (h : heap xr) size a b d obeys,
  usable h image (c_x c) (c_y c) size -> usable h image' (c_x c) (c_y c) size ->
  (forall e, error = Some e -> usable h e (c_x c) (c_y c) size) ->
  iny segm = iny (a_img (deref h image)) -> inx segm = inx (a_img (deref h image)) ->
  cutout_side cs r_list = Ok size -> (0 < size)%Z ->
  fits_planes linear planar evalM obeys ->
  plus_plane a b d (a_img (deref h image)) (a_img (deref h image')) ->
  (forall s s', background h image segm (c_x c) (c_y c) size s -> background h image' segm (c_x c) (c_y c) size s' ->
     many_background s /\ (forall j i, good s j i -> px s j i = Fin 0) /\
     exists mean std, clipped_stats s' = (Fin mean, Fin std) /\ spread_on (inside s' mean std sg)) ->
  (forall j i, (j < iny segm)%nat -> (i < inx segm)%nat -> wanted (c_label c) mb (px segm j i) ->
     match px (a_img (deref h image)) j i with Fin v => (- sg <= v)%R | NInf => False | _ => True end) ->
  fst (source_photometry overlap sigma_clip clipped_stats M O planar linear opts evalM
         k (SCat c) image' segm r_list error cs true (Fin sg) Bound mb h) =
  fst (source_photometry overlap sigma_clip clipped_stats M O planar linear opts evalM
         k (SCat c) image segm r_list error cs false (Fin sg) Bound mb h).
Proof. exact L_LSQ3.flat_bound. Qed.
Print Assumptions C126_bound_removed.

Theorem C126_bound_offset : forall overlap sigma_clip clipped_stats M O planar linear opts evalM
    k c image image' segm r_list error cs sg mb (h : heap xr) size d obeys,
  usable h image (c_x c) (c_y c) size -> usable h image' (c_x c) (c_y c) size ->
  (forall e, error = Some e -> usable h e (c_x c) (c_y c) size) ->
  iny segm = iny (a_img (deref h image)) -> inx segm = inx (a_img (deref h image)) ->
  cutout_side cs r_list = Ok size -> (0 < size)%Z ->
  fits_planes linear planar evalM obeys ->
  plus_plane 0 0 d (a_img (deref h image)) (a_img (deref h image')) ->
  (forall s s', background h image segm (c_x c) (c_y c) size s -> background h image' segm (c_x c) (c_y c) size s' ->
     many_background s /\ exists mean std, clipped_stats s = (Fin mean, Fin std) /\ clipped_stats s' = (Fin (mean + d), Fin std) /\
     spread_on (inside s mean std sg)) ->
  fst (source_photometry overlap sigma_clip clipped_stats M O planar linear opts evalM
         k (SCat c) image' segm r_list error cs true (Fin sg) Bound mb h) =
  fst (source_photometry overlap sigma_clip clipped_stats M O planar linear opts evalM
         k (SCat c) image segm r_list error cs true (Fin sg) Bound mb h).
Proof. exact L_LSQ3.offset_bound. Qed.
Print Assumptions C126_bound_offset.

(** the least-squares fitter exists; three source pixels (0, 1 and 10) on the sky 2 x + 3 y + 7, the fitter leaves out a clipped pixel *)
Example C126_example : forall clipped_stats k,
  fits_planes (E_LSQ.lsq true) (0, 0, 0)%R E_LSQ.planeM true /\
  let run image bg_sub := fst (source_photometry center_overlap E_LSQ.one_clipped clipped_stats (R * R * R) unit (0, 0, 0)%R (E_LSQ.lsq true) tt E_LSQ.planeM
    k (SCat E_Segm.one) image E_Segm.labels [Fin (1/2); Fin (5/2)] None VNone bg_sub (Fin 3) Clip true E_LSQ.skies) in
  run 1%nat true = run 0%nat false /\
  exists f0 f1 a0 a1, run 1%nat true = Ok ([Fin f0; Fin f1], [Fin a0; Fin a1], [NaN; NaN]) /\
    rounded6 0 f0 /\ rounded6 1 a0 /\ rounded6 11 f1 /\ rounded6 3 a1.
Proof. exact E_LSQ.sky_example. Qed.

Example C126_example_tilt : plus_plane 2 3 7 (a_img (deref E_LSQ.skies 0)) (a_img (deref E_LSQ.skies 1)).
Proof. exact E_LSQ.tilted_is. Qed.
