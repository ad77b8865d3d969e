(** Proofs about image arguments (C71, C50). *)
From Coq Require Import String.
From Verif Require Import Base Num Numpy M_PSF M_Fitting M_Segm M_Utils M_Petrosian M_Sersic M_Sources M_Args S_Fitting.
From Verif Require L_Fitting2.
Local Open Scope list_scope.

Lemma amplitude_args I G E S (geo : xr -> xr -> xr -> xr -> xr -> result G) (ell : I -> G -> result E)
    (fit : E -> xr -> result S) (intens : S -> xr) i a r x x0 y0 ellip theta :
  a = Bare I i \/ a = Holder I i ->
  r = VFloat x \/ (exists z, r = VInt z /\ x = Fin (IZR z)) ->
  (forall g e s, geo x0 y0 (Fin 1) ellip theta = Ok g -> ell i g = Ok e -> fit e x = Ok s ->
     get_amplitude_at_r_args I G E S geo ell fit intens r a x0 y0 ellip theta = Ok (intens s)) /\
  ((forall g e s, geo x0 y0 (Fin 1) ellip theta = Ok g -> ell i g = Ok e -> fit e x <> Ok s) ->
     get_amplitude_at_r_args I G E S geo ell fit intens r a x0 y0 ellip theta = Ok NaN).
Proof.
  intros Ha Hr.
  assert (D : data I a = i) by (destruct Ha; subst; reflexivity).
  assert (Q : get_amplitude_at_r_args I G E S geo ell fit intens r a x0 y0 ellip theta =
    Ok (match amplitude_body I G E S geo ell fit intens i x0 y0 ellip theta x with Ok a => a | Err _ => NaN end)).
  { unfold get_amplitude_at_r_args. rewrite D. destruct Hr as [->|(z & -> & ->)]; reflexivity. }
  rewrite Q. unfold amplitude_body. change n1 with (Fin 1). split.
  - intros g e s -> H2 H3. cbn [bind]. rewrite H2. cbn [bind]. rewrite H3. reflexivity.
  - intros H. destruct (geo x0 y0 (Fin 1) ellip theta) as [g|] eqn:Eg; cbn [bind]; auto.
    destruct (ell i g) as [e|] eqn:Ee; cbn [bind]; auto.
    destruct (fit e x) as [s|] eqn:Es; cbn [bind]; auto.
    exfalso. now apply (H g e s).
Qed.

Lemma holder_residual f g (image : img xr) a center x0 y0 :
  a = Bare (img xr) image \/ a = Holder (img xr) image ->
  real_function f g -> origin_is center (Z.of_nat (inx image)) (Z.of_nat (iny image)) x0 y0 ->
  exists mi r, plot_fit_args (pointwise f) a Center center = Ok (mi, r) /\
    image_of mi (iny image) (inx image) (fun j i => g (x0 + INR i) (y0 + INR j))%R /\
    iny r = iny image /\ inx r = inx image /\
    forall j i, (j < iny image)%nat -> (i < inx image)%nat ->
      px r j i = (px image j i - Fin (g (x0 + INR i) (y0 + INR j))%R)%num.
Proof.
  intros Ha Hf Ho. unfold plot_fit_args.
  assert (D : data (img xr) a = image) by (destruct Ha; subst; reflexivity). rewrite D.
  now apply L_Fitting2.plot_fit_residual.
Qed.
