(** Properties C144-C147: runs in double precision. *)
From Coq Require Import SpecFloat ZArith.
From Verif Require Import Base Num Numpy M_Utils M_Petrosian S_Petrosian S_Double.
From Verif Require L_Double2 L_Double3 L_Double4 E_Double.
Local Open Scope R_scope.

Theorem C144_profile : forall A L : list f64,
  length L = length A -> (2 < length A)%nat -> Forall double A -> Forall double L ->
  Forall moderate (map dval A) -> Forall moderate (map dval L) -> increasing (map dval A) ->
  exists P, calculate_petrosian DFloat A L None None = Ok (P, None) /\ length P = length A /\ nth_error P 0 = Some nnan /\
    forall i, (1 <= i < length A)%nat -> exists p, nth_error P i = Some p /\ double p /\
      within 6 (petro_ratio (map dval A) (map dval L) i) (dval p).
Proof. exact L_Double2.profile_double. Qed.
Print Assumptions C144_profile.

Example C144_example : length E_Double.LD = length E_Double.AD /\ (2 < length E_Double.AD)%nat /\ Forall double E_Double.AD /\ Forall double E_Double.LD /\
  Forall moderate (map dval E_Double.AD) /\ Forall moderate (map dval E_Double.LD) /\ increasing (map dval E_Double.AD) /\
  calculate_petrosian DFloat E_Double.AD E_Double.LD None None = Ok ([S754_nan; S754_finite false 6755399441055744 (-53);
    S754_finite false 7205759403792793 (-54); S754_finite false 6928614811339224 (-56)], None) /\
  nlit 4 10 = S754_finite false 7205759403792794 (-54).
Proof.
  split; [reflexivity|]. split; [cbn; repeat constructor|]. split; [apply E_Double.AD_ok|]. split; [apply E_Double.LD_ok|].
  split; [apply E_Double.AD_ok|]. split; [apply E_Double.LD_ok|]. split; [exact E_Double.AD_inc|]. split; [apply E_Double.run_ok|reflexivity].
Qed.

Theorem C145_sample : forall (mk : kind -> list f64 -> list f64 -> result (f64 -> f64)) r p0 p eta num,
  length r = S (length p) -> double eta -> Forall double p ->
  Rabs (dval eta) <= 2 ^ 1000 -> Forall (fun x => Rabs (dval x) <= 2 ^ 1000) p ->
  let curve := 1 :: map dval p in
  exists x, calculate_petrosian_r mk r (p0 :: p) None eta None num = Ok (x, nnan) /\
    ((forall y, In y curve -> dval eta < y) /\ x = nnan \/
     exists c i, first_past false (dval eta) curve c /\ (i <= c)%nat /\ x = nth i (n0 :: tl r) n0 /\
       (forall j, (j <= c)%nat -> Rabs (nth i curve 0 - dval eta) <= (1 + 3 * u64) * Rabs (nth j curve 0 - dval eta)) /\
       (forall j, (j < i)%nat -> Rabs (nth i curve 0 - dval eta) < Rabs (nth j curve 0 - dval eta))).
Proof. exact L_Double4.sample_double. Qed.
Print Assumptions C145_sample.

Theorem C145_same_as_exact : forall r A L eta B c i num,
  length r = length A -> length L = length A -> (2 < length A)%nat -> Forall double A -> Forall double L ->
  Forall moderate (map dval A) -> Forall moderate (map dval L) -> increasing (map dval A) -> double eta ->
  1 <= B <= 2 ^ 100 -> Rabs (dval eta) <= B ->
  (forall j, (1 <= j <= c)%nat -> Rabs (petro_ratio (map dval A) (map dval L) j) <= B) ->
  clear_cut (32 * u64 * B) (dval eta) (1 :: map (petro_ratio (map dval A) (map dval L)) (seq 1 (length A - 1))) c i ->
  forall (mk : kind -> list f64 -> list f64 -> result (f64 -> f64)) (mk' : kind -> list xr -> list xr -> result (xr -> xr)),
  exists P P' x, calculate_petrosian DFloat A L None None = Ok (P, None) /\ calculate_petrosian_r mk r P None eta None num = Ok (x, nnan) /\
    calculate_petrosian DFloat (map Fin (map dval A)) (map Fin (map dval L)) None None = Ok (P', None) /\
    calculate_petrosian_r mk' (map Fin (map dval r)) P' None (Fin (dval eta)) None num = Ok (Fin (dval x), NaN) /\
    x = nth i (n0 :: tl r) n0.
Proof. exact L_Double3.radius_double. Qed.
Print Assumptions C145_same_as_exact.

Example C145_example : double E_Double.quarter /\ dval E_Double.quarter = 1 / 4 /\
  clear_cut (32 * u64 * 1) (dval E_Double.quarter) (1 :: map (petro_ratio (map dval E_Double.AD) (map dval E_Double.LD)) (seq 1 3)) 3 2 /\
  (forall j, (1 <= j <= 3)%nat -> Rabs (petro_ratio (map dval E_Double.AD) (map dval E_Double.LD) j) <= 1) /\
  forall mk num, calculate_petrosian_r mk E_Double.rD [S754_nan; S754_finite false 6755399441055744 (-53);
    S754_finite false 7205759403792793 (-54); S754_finite false 6928614811339224 (-56)] None E_Double.quarter None num = Ok (f64_ofZ 3, nnan).
Proof.
  split; [apply E_Double.quarter_ok|]. split; [apply E_Double.quarter_ok|]. split; [apply E_Double.cut_ok|]. split; [apply E_Double.cut_ok|apply E_Double.run_ok].
Qed.

Theorem C146_radius_list : forall (m : f64) (n : Z), double m -> moderate (dval m) -> 0 < dval m -> (1 <= n <= 2 ^ 40)%Z ->
  exists l, make_radius_list m n = l /\ length l = Z.to_nat n /\ Forall double l /\ increasing (map dval l) /\
    forall k, (k < length l)%nat -> within (5 / 2) (INR (S k) * dval m / IZR n) (at_ (map dval l) k).
Proof. exact L_Double4.radius_list_double. Qed.
Print Assumptions C146_radius_list.

Example C146_example : make_radius_list (nlit 1 10) 3 =
  [S754_finite false 4803839602528529 (-57); S754_finite false 4803839602528529 (-56); S754_finite false 7205759403792795 (-56)] /\
  nlit 1 10 = S754_finite false 7205759403792794 (-56).
Proof. split; vm_compute; reflexivity. Qed.

Theorem C147_round_trip : forall k e, double e -> 0 <= dval e < 1 ->
  exists g e', ellip_to_elong k e = Ok g /\ elong_to_ellip k g = Ok e' /\ double g /\ double e' /\ 1 <= dval g /\
    within 3 (/ (1 - dval e)) (dval g) /\ Rabs (dval e' - dval e) <= 5 / 2 * u64.
Proof. exact L_Double4.ellip_round_trip. Qed.
Print Assumptions C147_round_trip.

Example C147_example : let e : f64 := nlit 1 10 in exists g e', ellip_to_elong NpFloat e = Ok g /\ elong_to_ellip NpFloat g = Ok e' /\ e' <> e.
Proof. eexists. eexists. split; [vm_compute; reflexivity|]. split; [vm_compute; reflexivity|]. vm_compute. discriminate. Qed.
