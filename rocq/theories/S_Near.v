(** Specifications for the nearest row of the correction grid in double precision. *)
From Verif Require Import Base Num M_Petrosian S_Petrosian S_Correction S_Double.
Local Open Scope R_scope.

(** zero, or neither tiny nor huge *)
Definition plain (x : R) : Prop := x = 0 \/ / 2 ^ 100 <= Rabs x <= 2 ^ 100.
(** largest error of the computed standard deviation of [n] numbers *)
Definition spread_error (X : list R) : R :=
  ((1 + u64) ^ (length X + 5) - 1) * (deviation X + 2 * average (map Rabs X)) + / 2 ^ 400.
(** a column of the grid whose standard deviation is computed with a relative error of at most [rho] *)
Definition good_column (rho : R) (l : list f64) : Prop :=
  let X := map dval l in Forall double l /\ Forall plain X /\ / 2 ^ 99 <= deviation X <= 2 ^ 99 /\ spread_error X <= rho * deviation X.
Definition good_value (v : f64) : Prop := double v /\ plain (dval v).
