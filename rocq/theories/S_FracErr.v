(** Small specification for the error of a flux-fraction radius. *)
From Verif Require Import Base Num.
Local Open Scope R_scope.

(** the error of the Petrosian radius that enters: 0 when none is given or it is NaN *)
Definition radius_error (pe : option xr) (d : R) : Prop :=
  pe = Some (Fin d) \/ (pe = None /\ d = 0) \/ (pe = Some NaN /\ d = 0).
