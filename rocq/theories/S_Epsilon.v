(** Specification of the corrected epsilon. *)
From Verif Require Import Base Num M_Sersic.
Local Open Scope R_scope.

(** [epsilon] times the Petrosian radius [rt] encloses the fraction [ef] of the whole flux of the galaxy *)
Definition fits_epsilon (A re n e rt ef epsilon : R) : Prop :=
  exists total, sersic_enclosed PInf (Fin A) (Fin re) (Fin n) (Fin e) = Fin total /\
    sersic_enclosed (Fin (epsilon * rt)) (Fin A) (Fin re) (Fin n) (Fin e) = Fin (ef * total).
