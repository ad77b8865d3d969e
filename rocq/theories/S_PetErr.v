(** Specifications for the errors of Petrosian profiles in double precision. *)
From Verif Require Import Base Num Numpy S_Petrosian S_Double S_Near.
Local Open Scope R_scope.

(** a list of numbers of ordinary size *)
Definition ordinary (l : list f64) : Prop := Forall double l /\ Forall (fun x => / 2 ^ 100 <= Rabs x <= 2 ^ 100) (map dval l).
(** the errors of [n] measurements, one each; zero where none are given *)
Definition given (n : nat) (e : option (list f64)) : list R :=
  match e with None => zeros n | Some l => map dval l end.
Definition error_bars (n : nat) (e : option (list f64)) : Prop :=
  match e with None => True | Some l => length l = n /\ Forall double l /\ Forall plain (map dval l) end.
