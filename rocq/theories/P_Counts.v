(** Properties C152-C153: rounding to six decimals and images of counts in double precision. *)
From Coq Require Import SpecFloat ZArith.
From Verif Require Import Base Num Numpy M_Utils M_Photometry M_Petrosian S_Petrosian S_Photometry S_Double S_Sums S_Counts.
From Verif Require L_Counts E_Counts E_Double.
Local Open Scope R_scope.

Theorem C152_rounding : forall x : f64, double x -> fair (dval x) ->
  double (nround6 x) /\ Rabs (dval (nround6 x) - dval x) <= / 2000000 + 3 * u64 * (Rabs (dval x) + / 1000000).
Proof. exact L_Counts.round6_double. Qed.
Print Assumptions C152_rounding.

Theorem C152_rint : forall x : f64, double x -> double (nrint x) /\ exists z, nearest_even (dval x) z /\ dval (nrint x) = IZR z.
Proof. exact L_Counts.rint_double. Qed.
Print Assumptions C152_rint.

Theorem C152_counts : forall overlap k (image : img f64) pos mask elong theta (w : f64 -> nat -> nat -> f64), fits mask image ->
  forall rs, (forall r, In r rs -> counted overlap k image pos mask elong theta w r) ->
  exists F A, radial_photometry overlap k image pos rs None mask elong theta = Ok (F, A, map (fun _ => nnan) rs) /\ Forall double F /\ Forall double A /\
    map dval F = map (fun r => over (taken (iny image) (inx image) (fun j i => dval (w r j i)) mask) (fun j i => dval (px image j i))) rs /\
    map dval A = map (fun r => INR (length (taken (iny image) (inx image) (fun j i => dval (w r j i)) mask))) rs.
Proof. exact L_Counts.radial_counts. Qed.
Print Assumptions C152_counts.

(** larger whole numbers are not kept by the rounding to six decimals *)
Example C152_limit : nround6 (f64_ofZ 900719925507) = S754_finite false 7378697629753345 (-13) /\ f64_ofZ 900719925507 = S754_finite false 7378697629753344 (-13).
Proof. exact E_Counts.big_count. Qed.

Example C152_example : (forall r, In r E_Counts.rC -> counted E_Counts.rowed PyFloat E_Counts.counts (n0, n0) None n1 n0 E_Counts.row r) /\
  radial_photometry E_Counts.rowed PyFloat E_Counts.counts (n0, n0) E_Counts.rC None None n1 n0 = Ok (E_Double.LD, E_Double.AD, [nnan; nnan; nnan; nnan]).
Proof. exact (conj E_Counts.all_counted E_Counts.photC). Qed.

Theorem C153_same_as_exact : forall overlap k (image : img f64) pos mask elong theta (w : f64 -> nat -> nat -> f64) rs eta B c i num,
  fits mask image -> (forall r, In r rs -> counted overlap k image pos mask elong theta w r) -> (2 < length rs)%nat ->
  let n := fun r => INR (length (taken (iny image) (inx image) (fun j i => dval (w r j i)) mask)) in
  let f := fun r => over (taken (iny image) (inx image) (fun j i => dval (w r j i)) mask) (fun j i => dval (px image j i)) in
  increasing (map n rs) -> 0 < at_ (map n rs) 0 -> (forall r, In r rs -> 0 < f r) -> double eta -> 1 <= B <= 2 ^ 100 -> Rabs (dval eta) <= B ->
  (forall j, (1 <= j <= c)%nat -> Rabs (petro_ratio (map n rs) (map f rs) j) <= B) ->
  clear_cut (32 * u64 * B) (dval eta) (1 :: map (petro_ratio (map n rs) (map f rs)) (seq 1 (length rs - 1))) c i ->
  forall (mk : kind -> list f64 -> list f64 -> result (f64 -> f64)) (mk' : kind -> list xr -> list xr -> result (xr -> xr)),
  exists F A E Q Q' x, radial_photometry overlap k image pos rs None mask elong theta = Ok (F, A, E) /\ calculate_petrosian DFloat A F None None = Ok (Q, None) /\
    calculate_petrosian_r mk rs Q None eta None num = Ok (x, nnan) /\ x = nth i (n0 :: tl rs) n0 /\
    calculate_petrosian DFloat (map Fin (map n rs)) (map Fin (map f rs)) None None = Ok (Q', None) /\
    calculate_petrosian_r mk' (map Fin (map dval rs)) Q' None (Fin (dval eta)) None num = Ok (Fin (dval x), NaN).
Proof. exact L_Counts.counts_radius. Qed.
Print Assumptions C153_same_as_exact.

(** with C145_example, whose areas and fluxes these are *)
Example C153_example :
  map (fun r => INR (length (taken (iny E_Counts.counts) (inx E_Counts.counts) (fun j i => dval (E_Counts.row r j i)) None))) E_Counts.rC = [1; 3; 6; 10] /\
  map (fun r => over (taken (iny E_Counts.counts) (inx E_Counts.counts) (fun j i => dval (E_Counts.row r j i)) None) (fun j i => dval (px E_Counts.counts j i))) E_Counts.rC = [20; 40; 50; 52] /\
  map dval E_Double.AD = [1; 3; 6; 10] /\ map dval E_Double.LD = [20; 40; 50; 52] /\
  clear_cut (32 * u64 * 1) (dval E_Double.quarter) (1 :: map (petro_ratio (map dval E_Double.AD) (map dval E_Double.LD)) (seq 1 3)) 3 2.
Proof.
  split; [exact E_Counts.areasC|]. split; [exact E_Counts.fluxesC|]. split; [apply E_Double.AD_ok|]. split; [apply E_Double.LD_ok|apply E_Double.cut_ok].
Qed.
