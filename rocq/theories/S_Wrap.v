(** Small specifications for the default bounds and for wrapping models. *)
From Coq Require Import String.
From Verif Require Import Base Num M_Wrap.
Local Open Scope string_scope.
Local Open Scope list_scope.

(** default bounds by key *)
Definition default_bounds {T} {N : Num T} (pi : T) (gen : bool) (k : string) : option (option T * option T) :=
  if String.eqb k "amplitude" then Some (Some n0, None)
  else if String.eqb k "r_eff" then Some (Some (nlit 1 1000), None)
  else if String.eqb k "n" then Some (Some (nlit 1 10), Some (nofZ 10))
  else if String.eqb k "ellip" then Some (Some n0, Some (nlit 99 100))
  else if String.eqb k "theta" then Some (Some (nmul (nofZ (-2)) pi), Some (nmul n2 pi))
  else if (gen && String.eqb k "c_0")%bool then Some (Some n0, Some n2)
  else None.

Definition override_or {V} (o d : option V) : option V := match o with Some v => Some v | None => d end.

(** a dictionary has each key once *)
Definition unique_keys {V} (d : dict V) : Prop := NoDup (map fst d).

(** operations available to a program: it only holds dictionaries it made or got returned
    (the two default-argument objects, cells 0 and 1, are never handed out) *)
Definition program_op {T} (o : bop (T:=T)) : Prop :=
  match o with
  | BCall _ None => True
  | BCall _ (Some k) => (2 <= k)%nat
  | BNew d => unique_keys d
  | BMutate k d => (2 <= k)%nat /\ unique_keys d
  end.

(** models whose parameters have different names *)
Definition wrap_op {T tied} (o : wop (T:=T) tied) : Prop :=
  match o with WNew _ t => NoDup (names _ t) | _ => True end.

(** a wrapper keeps this of a parameter: everything but the tied constraint *)
Definition untied {T tied} (p : param (T:=T) tied) : param tied :=
  mkparam tied (pa_name _ p) (pa_value _ p) (pa_fixed _ p) (pa_bounds _ p) None.
