(** Properties C155-C156: errors of aperture sums, and radial photometry of arbitrary images, in double precision. *)
From Coq Require Import SpecFloat ZArith.
From Verif Require Import Base Num Numpy M_Utils M_Photometry S_Photometry S_Double S_Sums S_Counts S_Photo6.
From Verif Require L_Sums3 L_Photo6 E_Sums E_Grid E_Photo6.
Local Open Scope R_scope.

(** whatever the order in which the weighted squares are added up *)
Theorem C155_error : forall overlap ap (data error : img f64) mask w, overlap ap (iny data) (inx data) = Some w -> fits mask data ->
  iny error = iny data /\ inx error = inx data ->
  (forall j i, (j < iny data)%nat -> (i < inx data)%nat -> double (w j i)) ->
  let P := covered (iny data) (inx data) (fun j i => dval (w j i)) mask in
  let squares := map (fun p => nmul (nmul (px error (fst p) (snd p)) (px error (fst p) (snd p))) (w (fst p) (snd p))) P in
  let V := over P (fun j i => dval (px error j i) * dval (px error j i) * dval (w j i)) in
  (forall j i, In (j, i) P -> double (px error j i) /\ fair (dval (px error j i) * dval (px error j i)) /\ moderate (dval (w j i))) ->
  INR (S (S (length P))) * u64 <= / 2 ->
  exists s v, do_photometry overlap ap data (Some error) mask = Ok (s, Some (nsqrt v)) /\ do_photometry overlap ap data None mask = Ok (s, None) /\
    added (n0 :: squares) v /\
    forall t, added (n0 :: squares) t -> double (nsqrt t) /\ Rabs (dval (nsqrt t) - sqrt V) <= ((1 + u64) ^ (S (S (S (length P)))) - 1) * sqrt V.
Proof. exact L_Sums3.error_double. Qed.
Print Assumptions C155_error.

Example C155_example : covered 1 3 (fun _ _ => dval (n1 : f64)) None = E_Photo6.three /\
  (forall j i, In (j, i) E_Photo6.three -> double (px E_Photo6.noise j i) /\ fair (dval (px E_Photo6.noise j i) * dval (px E_Photo6.noise j i))) /\
  (over E_Photo6.three (fun j i => dval (px E_Photo6.noise j i) * dval (px E_Photo6.noise j i) * dval (n1 : f64)) = 25 /\ sqrt 25 = 5) /\
  INR 5 * u64 <= / 2 /\ do_photometry E_Sums.flat E_Sums.anyap E_Sums.few (Some E_Photo6.noise) None = Ok (f64_ofZ 7, Some (f64_ofZ 5)).
Proof.
  split; [exact E_Sums.cover3|]. split; [exact E_Photo6.noise_ok|]. split; [exact E_Photo6.variance|]. split; [exact E_Photo6.five_small|exact E_Photo6.run_noise].
Qed.

Theorem C156_photometry : forall overlap k (image error : img f64) pos mask elong theta (w : f64 -> nat -> nat -> f64),
  fits mask image -> iny error = iny image /\ inx error = inx image ->
  forall rs, (forall r, In r rs -> gauged overlap k image error pos mask elong theta w r) ->
  exists F A E, radial_photometry overlap k image pos rs (Some error) mask elong theta = Ok (F, A, E) /\
    radial_photometry overlap k image pos rs None mask elong theta = Ok (F, A, map (fun _ => nnan) rs) /\
    Forall2 (near_flux image mask w) rs F /\ Forall2 (near_area image mask w) rs A /\ Forall2 (near_err image error mask w) rs E.
Proof. exact L_Photo6.radial_gauged. Qed.
Print Assumptions C156_photometry.

(** the rounding to six decimals of C152 for numbers of any size up to 2^500, tiny ones included *)
Theorem C156_rounding : forall x : f64, double x -> Rabs (dval x) <= 2 ^ 500 ->
  double (nround6 x) /\ Rabs (dval (nround6 x) - dval x) <= / 2000000 + 3 * u64 * (Rabs (dval x) + / 1000000).
Proof. exact L_Photo6.round6_500. Qed.
Print Assumptions C156_rounding.

Example C156_example : (forall r, In r [n1] -> gauged E_Photo6.halved PyFloat E_Sums.few E_Photo6.noise (n0, n0) None n1 n0 (fun _ _ _ => E_Grid.halfd) r) /\
  radial_photometry E_Photo6.halved PyFloat E_Sums.few (n0, n0) [n1] (Some E_Photo6.noise) None n1 n0 =
    Ok ([S754_finite false 7881299347898368 (-51)], [S754_finite false 6755399441055744 (-52)], [S754_finite false 7961314802477860 (-51)]).
Proof. exact (conj E_Photo6.all_gauged E_Photo6.run_halved). Qed.
