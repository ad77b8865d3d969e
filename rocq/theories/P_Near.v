(** Property C159: the nearest row of the correction grid in double precision. *)
From Coq Require Import SpecFloat ZArith.
From Verif Require Import Base Num Numpy M_Utils M_Petrosian M_Correction S_Petrosian S_Correction S_Double S_Near.
From Verif Require L_Near3 E_Near.
Local Open Scope R_scope.

Theorem C159_deviation : forall l : list f64, Forall double l -> Forall plain (map dval l) -> (1 <= length l)%nat -> (Z.of_nat (length l) <= 2 ^ 40)%Z ->
  double (std l) /\ Rabs (dval (std l) - deviation (map dval l)) <= spread_error (map dval l).
Proof. exact L_Near3.std_spread. Qed.
Print Assumptions C159_deviation.

Theorem C159_nearest : forall (c : @correction f64) x0 y0 z0 rho n, 0 <= rho <= / 100 -> (1 <= n)%nat -> (Z.of_nat n <= 2 ^ 40)%Z ->
  length (c_x c) = n -> length (c_y c) = n -> length (c_z c) = n -> good_column rho (c_x c) -> good_column rho (c_y c) -> good_column rho (c_z c) ->
  good_value x0 -> good_value y0 -> good_value z0 -> forall k, closest_row c x0 y0 z0 = Ok k ->
  let dist := row_distance (map dval (c_x c)) (map dval (c_y c)) (map dval (c_z c)) (dval x0) (dval y0) (dval z0) in
  (k < n)%nat /\ forall j, (j < n)%nat -> dist k <= (1 + 5 * rho + 60 * u64) * dist j.
Proof. exact L_Near3.nearest_row. Qed.
Print Assumptions C159_nearest.

Theorem C159_found : forall (c : @correction f64) x0 y0 z0 n, (1 <= n)%nat ->
  length (c_x c) = n -> length (c_y c) = n -> length (c_z c) = n -> c_enforce c = false -> exists k, closest_row c x0 y0 z0 = Ok k.
Proof. exact L_Near3.nearest_exists. Qed.
Print Assumptions C159_found.

Theorem C159_same : forall (c : @correction f64) x0 y0 z0 rho n, 0 <= rho <= / 100 -> (1 <= n)%nat -> (Z.of_nat n <= 2 ^ 40)%Z ->
  length (c_x c) = n -> length (c_y c) = n -> length (c_z c) = n -> good_column rho (c_x c) -> good_column rho (c_y c) -> good_column rho (c_z c) ->
  good_value x0 -> good_value y0 -> good_value z0 -> forall k j, closest_row c x0 y0 z0 = Ok k -> (j < n)%nat ->
  let row i := (dval (nth i (c_x c) (S754_zero false)), dval (nth i (c_y c) (S754_zero false)), dval (nth i (c_z c) (S754_zero false))) in
  row j = (dval x0, dval y0, dval z0) -> row k = (dval x0, dval y0, dval z0).
Proof. exact L_Near3.nearest_row_same. Qed.
Print Assumptions C159_same.

(** a grid of two rows: the row with the values of the measurement is found, and the nearer one for a measurement in between *)
Example C159_example : forall t, let c := E_Near.gridN t in
  (good_column (/ 1000) (c_x c) /\ good_column (/ 1000) (c_y c) /\ good_column (/ 1000) (c_z c) /\ good_value (f64_ofZ 1) /\ good_value (f64_ofZ 2) /\ good_value (f64_ofZ 4)) /\
  closest_row c (f64_ofZ 1) (f64_ofZ 2) (f64_ofZ 4) = Ok 0%nat /\ closest_row c (f64_ofZ 3) (f64_ofZ 4) (f64_ofZ 7) = Ok 1%nat.
Proof. exact (fun t => conj E_Near.good_N (E_Near.runs t)). Qed.
