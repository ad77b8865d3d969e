(** Specifications for the heap model. *)
From Verif Require Import Base Num M_Petrosian M_Heap.

Section S.
  Context {T : Type}.
  Implicit Types h : heap (T := T).

  (** [h'] extends [h] without changing any array of [h] *)
  Definition keeps h h' : Prop :=
    length h <= length h' /\ forall l, l < length h -> get h' l = get h l.

  (** contents of an optional array; the reference exists *)
  Definition opt_get h (o : option loc) : option (list T) := option_map (get h) o.
  Definition valid h (o : option loc) : Prop :=
    match o with None => True | Some l => l < length h end.

  (** the arrays an object refers to *)
  Definition own (o : hpetrosian T) (l : loc) : Prop :=
    l = h_r o \/ l = h_area o \/ l = h_flux o \/ h_area_err o = Some l \/ h_flux_err o = Some l \/
    l = h_list o \/ h_perr o = Some l.
End S.
