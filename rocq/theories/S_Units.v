(** Specifications for changes of units. *)
From Coq Require Import SpecFloat ZArith.
From Verif Require Import Base Num Numpy S_Petrosian S_Double.
Local Open Scope R_scope.

(** [g] is the double 2^s *)
Definition power_of_two (g : f64) : Prop := double g /\ exists s : Z, (-200 <= s <= 200)%Z /\ dval g = powerRZ 2 s.
(** every number of a list multiplied by [g], in double precision *)
Definition times (g : f64) (l : list f64) : list f64 := map (fun x => nmul x g) l.
