(** Property C161: errors of Petrosian profiles in double precision. *)
From Coq Require Import SpecFloat ZArith.
From Verif Require Import Base Num Numpy M_Petrosian S_Petrosian S_Double S_PetErr.
From Verif Require L_PetErr2 E_PetErr.
Local Open Scope R_scope.

Theorem C161_errors : forall (A L : list f64) (ea fe : option (list f64)),
  length L = length A -> (2 < length A)%nat -> ordinary A -> ordinary L -> increasing (map dval A) ->
  error_bars (length A) ea -> error_bars (length A) fe -> ~ (ea = None /\ fe = None) ->
  exists P E, calculate_petrosian DFloat A L ea fe = Ok (P, Some E) /\ calculate_petrosian DFloat A L None None = Ok (P, None) /\
    length E = length A /\ nth_error E 0 = Some nnan /\
    forall i, (1 <= i < length A)%nat -> exists e, nth_error E i = Some e /\
      (at_ (map dval L) (i - 1) = at_ (map dval L) i -> e = nnan) /\
      (at_ (map dval L) (i - 1) <> at_ (map dval L) i ->
        double e /\ within 46 (propagated_error (map dval A) (map dval L) (given (length A) ea) (given (length A) fe) i) (dval e)).
Proof. exact L_PetErr2.errors_double. Qed.
Print Assumptions C161_errors.

(** the hypotheses hold for a profile of four radii *)
Example C161_example : length E_PetErr.L4 = length E_PetErr.A4 /\ (2 < length E_PetErr.A4)%nat /\ ordinary E_PetErr.A4 /\ ordinary E_PetErr.L4 /\
  increasing (map dval E_PetErr.A4) /\ error_bars (length E_PetErr.A4) (Some E_PetErr.E4).
Proof. exact E_PetErr.example_meets. Qed.
Example C161_run : exists P, calculate_petrosian DFloat E_PetErr.A4 E_PetErr.L4 None (Some E_PetErr.E4) =
  Ok (P, Some [S754_nan; S754_finite false 5295130124566164 (-53); S754_nan; S754_finite false 5110900185734281 (-53)]).
Proof. exact E_PetErr.example_runs. Qed.
