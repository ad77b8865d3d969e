(** Property C157: the Petrosian radius of an arbitrary image, in double precision. *)
From Coq Require Import SpecFloat ZArith.
From Verif Require Import Base Num Numpy M_Utils M_Photometry M_Petrosian S_Petrosian S_Photometry S_Double S_Sums S_Counts S_Photo6 S_Round.
From Verif Require L_Round E_Double E_Counts E_Round.
Local Open Scope R_scope.

Theorem C157_same_as_exact : forall overlap k (image error : img f64) pos mask elong theta (w : f64 -> nat -> nat -> f64) rs (eta : f64) (B p : R) (c i num : nat),
  fits mask image -> iny error = iny image /\ inx error = inx image ->
  (forall r, In r rs -> gauged overlap k image error pos mask elong theta w r) -> (2 < length rs)%nat ->
  0 < p <= / 100 -> clear_of image mask w p rs c -> double eta -> 1 <= B <= 2 ^ 99 -> Rabs (dval eta) <= B ->
  let areas := map (area_of image mask w) rs in let fluxes := map (flux_of image mask w) rs in
  (forall j, (1 <= j <= c)%nat -> Rabs (petro_ratio areas fluxes j) <= B) ->
  clear_cut (64 * u64 * B + 12 * p * B) (dval eta) (1 :: map (petro_ratio areas fluxes) (seq 1 (length rs - 1))) c i ->
  forall (mk : kind -> list f64 -> list f64 -> result (f64 -> f64)) (mk' : kind -> list xr -> list xr -> result (xr -> xr)),
  exists F A E Q Q' x, radial_photometry overlap k image pos rs (Some error) mask elong theta = Ok (F, A, E) /\ calculate_petrosian DFloat A F None None = Ok (Q, None) /\
    calculate_petrosian_r mk rs Q None eta None num = Ok (x, nnan) /\ x = nth i (n0 :: tl rs) n0 /\
    calculate_petrosian DFloat (map Fin areas) (map Fin fluxes) None None = Ok (Q', None) /\
    calculate_petrosian_r mk' (map Fin (map dval rs)) Q' None (Fin (dval eta)) None num = Ok (Fin (dval x), NaN).
Proof. exact L_Round.image_radius. Qed.
Print Assumptions C157_same_as_exact.

(** areas 1/2, 3/2, 3, 5 and fluxes 10, 20, 25, 26; the radius found is 6 *)
Example C157_example :
  (forall r, In r E_Counts.rC -> gauged E_Round.rowedh PyFloat E_Counts.counts E_Counts.counts (n0, n0) None n1 n0 E_Round.rowh r) /\
  map (area_of E_Counts.counts None E_Round.rowh) E_Counts.rC = [1 / 2; 3 / 2; 6 / 2; 10 / 2] /\
  map (flux_of E_Counts.counts None E_Round.rowh) E_Counts.rC = [20 / 2; 40 / 2; 50 / 2; 52 / 2] /\
  clear_of E_Counts.counts None E_Round.rowh (/ 10000) E_Counts.rC 3 /\
  clear_cut (64 * u64 * 1 + 12 * / 10000 * 1) (dval E_Double.quarter)
    (1 :: map (petro_ratio (map (area_of E_Counts.counts None E_Round.rowh) E_Counts.rC) (map (flux_of E_Counts.counts None E_Round.rowh) E_Counts.rC)) (seq 1 (length E_Counts.rC - 1))) 3 2 /\
  exists F A E Q, radial_photometry E_Round.rowedh PyFloat E_Counts.counts (n0, n0) E_Counts.rC (Some E_Counts.counts) None n1 n0 = Ok (F, A, E) /\
    calculate_petrosian DFloat A F None None = Ok (Q, None) /\ calculate_petrosian_r E_Round.nomk E_Counts.rC Q None E_Double.quarter None 1 = Ok (f64_ofZ 6, nnan).
Proof.
  split; [exact E_Round.gaugedR|]. split; [exact E_Round.areasR|]. split; [exact E_Round.fluxesR|]. split; [exact E_Round.clearR|]. split; [exact (proj1 E_Round.cutR)|exact E_Round.runR].
Qed.
