(** C50 and C71 for images given as arrays or inside a CCDData or Cutout2D, and the arguments
    get_amplitude_at_r passes to the isophote fit. *)
From Coq Require Import String.
From Verif Require Import Base Num Numpy M_PSF M_Fitting M_Segm M_Utils M_Petrosian M_Sersic M_Sources M_Args S_Fitting.
From Verif Require L_Args.
Local Open Scope list_scope.

(** C71. *)
Theorem C71_arguments : forall I G E S (geo : xr -> xr -> xr -> xr -> xr -> result G) (ell : I -> G -> result E)
    (fit : E -> xr -> result S) (intens : S -> xr) i a r x x0 y0 ellip theta,
  a = Bare I i \/ a = Holder I i ->
  r = VFloat x \/ (exists z, r = VInt z /\ x = Fin (IZR z)) ->
  (forall g e s, geo x0 y0 (Fin 1) ellip theta = Ok g -> ell i g = Ok e -> fit e x = Ok s ->
     get_amplitude_at_r_args I G E S geo ell fit intens r a x0 y0 ellip theta = Ok (intens s)) /\
  ((forall g e s, geo x0 y0 (Fin 1) ellip theta = Ok g -> ell i g = Ok e -> fit e x <> Ok s) ->
     get_amplitude_at_r_args I G E S geo ell fit intens r a x0 y0 ellip theta = Ok NaN).
Proof. exact L_Args.amplitude_args. Qed.
Print Assumptions C71_arguments.

(** an isophote whose intensity tells the arguments, and one that fails for r < 1 *)
Example C71_arguments_example :
  get_amplitude_at_r_args nat (xr * xr) (nat * (xr * xr)) xr
    (fun x0 y0 sma ellip theta => Ok (x0, theta)) (fun i g => Ok (i, g))
    (fun e r => if (r <? Fin 1)%num then Err ValueError else Ok (snd (snd e))) (fun s => s)
    (VFloat PInf) (Holder nat 7) (Fin 3) (Fin 4) (Fin 0) (Fin 2) = Ok (Fin 2) /\
  get_amplitude_at_r_args nat (xr * xr) (nat * (xr * xr)) xr
    (fun x0 y0 sma ellip theta => Ok (x0, theta)) (fun i g => Ok (i, g))
    (fun e r => if (r <? Fin 1)%num then Err ValueError else Ok (snd (snd e))) (fun s => s)
    (VFloat NInf) (Bare nat 7) (Fin 3) (Fin 4) (Fin 0) (Fin 2) = Ok NaN.
Proof. exact (conj eq_refl eq_refl). Qed.

(** C50. *)
Theorem C50_holder : forall f g (image : img xr) a center x0 y0,
  a = Bare (img xr) image \/ a = Holder (img xr) image ->
  real_function f g -> origin_is center (Z.of_nat (inx image)) (Z.of_nat (iny image)) x0 y0 ->
  exists mi r, plot_fit_args (pointwise f) a Center center = Ok (mi, r) /\
    image_of mi (iny image) (inx image) (fun j i => g (x0 + INR i) (y0 + INR j))%R /\
    iny r = iny image /\ inx r = inx image /\
    forall j i, (j < iny image)%nat -> (i < inx image)%nat ->
      px r j i = (px image j i - Fin (g (x0 + INR i) (y0 + INR j))%R)%num.
Proof. exact L_Args.holder_residual. Qed.
Print Assumptions C50_holder.
