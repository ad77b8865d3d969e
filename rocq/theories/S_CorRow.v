(** Small specifications for the rows of the correction grid. *)
From Coq Require Import String.
From Verif Require Import Base Num Numpy M_Utils M_Petrosian S_Petrosian M_Correction.
Local Open Scope list_scope.

(** X lists the distinct values of L in increasing order, J where each occurs first *)
Definition distinct_of (L X : list R) (J : list nat) : Prop :=
  List.length J = List.length X /\ increasing X /\ (forall x, In x X <-> In x L) /\
  forall k, k < List.length X -> let j := nth k J 0 in
    nth_error L j = Some (at_ X k) /\ forall i, i < j -> nth_error L i <> Some (at_ X k).

Section Measured.
  Context {T : Type} {N : Num T} {NL : NumLog T}.
  Variable mk : kind -> list T -> list T -> result (T -> T).

  (** o.fraction_flux_to_r(f)[0] = x and o.concentration_index(f, g)[2] = x *)
  Definition has_fraction (o : petrosian T) (f x : T) : Prop := exists e, obj_fraction mk o f = Ok (x, e).
  Definition has_concentration (o : petrosian T) (f g x : T) : Prop := exists a b, obj_concentration mk o f g = Ok (a, b, x).

  (** the named entry of a row *)
  Definition entry (row : list T) (name : string) (x : T) : Prop := cell (mktable column_names [row]) 0 name = Ok x.
End Measured.

(** Petrosian(r_list, area_list, flux_list, eta=eta, epsilon=epsilon) *)
Definition pet (radii : list Z) (area flux : list xr) (eta epsilon : xr) : result (petrosian xr) :=
  Petrosian_new (mkdata DFloat (map nofZ radii) area flux None None)
    (mkset eta epsilon (Fin (99/100)) (Fin (99/100)) cubic num5000).
