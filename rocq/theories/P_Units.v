(** Property C163: changes of units by powers of two. *)
From Coq Require Import SpecFloat ZArith.
From Verif Require Import Base Num Numpy M_Petrosian S_Petrosian S_Double S_PetErr S_Units.
From Verif Require L_Units2 E_PetErr E_Units.
Local Open Scope R_scope.

Theorem C163_units : forall (A L : list f64) (ea fe : option (list f64)) (g h : f64), power_of_two g -> power_of_two h ->
  length L = length A -> (2 < length A)%nat -> ordinary A -> ordinary L -> ordinary (times g A) -> ordinary (times h L) -> increasing (map dval A) ->
  error_bars (length A) ea -> error_bars (length A) fe -> error_bars (length A) (option_map (times g) ea) -> error_bars (length A) (option_map (times h) fe) ->
  exists P E, calculate_petrosian DFloat A L ea fe = Ok (P, E) /\ calculate_petrosian DFloat (times g A) (times h L) (option_map (times g) ea) (option_map (times h) fe) = Ok (P, E).
Proof. exact L_Units2.units_run. Qed.
Print Assumptions C163_units.

(** other factors can change the profile *)
Theorem C163_any_factor_refuted : ~ forall (A L : list f64) (h : f64), length L = length A -> (2 < length A)%nat ->
  ordinary A -> ordinary L -> ordinary (times h L) -> increasing (map dval A) ->
  calculate_petrosian DFloat A (times h L) None None = calculate_petrosian DFloat A L None None.
Proof. exact E_Units.any_factor. Qed.
Print Assumptions C163_any_factor_refuted.

(** the profile of four radii of C161, areas times 4, fluxes times 8 *)
Example C163_example : power_of_two E_Units.four /\ power_of_two E_Units.eight /\ ordinary (times E_Units.four E_PetErr.A4) /\ ordinary (times E_Units.eight E_PetErr.L4) /\
  error_bars (length E_PetErr.A4) (option_map (times E_Units.eight) (Some E_PetErr.E4)).
Proof. exact E_Units.units_meet. Qed.
