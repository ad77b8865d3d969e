(** Property theorems about shared arrays in petrofit/petrosian/core.py: C61. *)
From Verif Require Import Base Num Numpy M_Utils M_Petrosian M_Interp M_Heap S_Heap.
From Verif Require L_Heap E_Heap E_Petrosian.

(** C61. The radius search returns what the pure model returns on the arrays' contents and
    changes no array that existed before the call. *)
Theorem C61_radius_search_writes_only_copies :
  forall T (N : Num T) (mk : kind -> list T -> list T -> result (T -> T))
    (r p : loc) (e : option loc) (eta : T) (ik : option kind) (num : nat) (h : heap),
  r < length h -> p < length h -> valid h e ->
  exists h', h_calculate_petrosian_r mk r p e eta ik num h
      = (calculate_petrosian_r mk (get h r) (get h p) (opt_get h e) eta ik num, h') /\
    keeps h h'.
Proof. exact @L_Heap.r_run. Qed.
Print Assumptions C61_radius_search_writes_only_copies.

Theorem C61_constructor_copies :
  forall T (N : Num T) (d : dtype) (r a f : loc) (ae fe : option loc) (s : psettings T) (h : heap),
  r < length h -> a < length h -> f < length h -> valid h ae -> valid h fe ->
  let data := mkdata d (get h r) (get h a) (get h f) (opt_get h ae) (opt_get h fe) in
  exists h', keeps h h' /\
  match Petrosian_new data s with
  | Err e => h_Petrosian_new d r a f ae fe s h = (Err e, h')
  | Ok p => exists o, h_Petrosian_new d r a f ae fe s h = (Ok o, h') /\
      view h' o = p /\ forall l, own o l -> length h <= l < length h'
  end.
Proof. exact @L_Heap.new_run. Qed.
Print Assumptions C61_constructor_copies.

Theorem C61_object_isolated :
  forall T (N : Num T) (mk : kind -> list T -> list T -> result (T -> T)) (NL : NumLog T)
    (d : dtype) (r a f : loc) (ae fe : option loc) (s : psettings T) (h : heap)
    (o : hpetrosian T) (h' h'' : heap) (at_ : attr),
  r < length h -> a < length h -> f < length h -> valid h ae -> valid h fe ->
  h_Petrosian_new d r a f ae fe s h = (Ok o, h') ->
  (forall l, length h <= l -> get h'' l = get h' l) ->
  read mk (view h'' o) at_ = read mk (view h' o) at_.
Proof. exact @L_Heap.new_isolated. Qed.
Print Assumptions C61_object_isolated.

Theorem C61_getters_share : forall T (o : hpetrosian T) (h : heap),
  (h_get_r_list o h = (Ok (h_r o), h) /\ own o (h_r o)) /\
  (h_get_area_list o h = (Ok (h_area o), h) /\ own o (h_area o)) /\
  (h_get_flux_list o h = (Ok (h_flux o), h) /\ own o (h_flux o)).
Proof. exact @L_Heap.getters. Qed.
Print Assumptions C61_getters_share.

Theorem C61_getter_leak_witness :
  exists (h h' : heap (T := xr)) (o : hpetrosian xr) (l : loc) (v : list xr),
    h_Petrosian_new DFloat 0 1 2 None None E_Petrosian.ex_set_none h = (Ok o, h') /\
    h_get_r_list o h' = (Ok l, h') /\
    read mk_linear (view h' o) A_r_petrosian = Ok (VNum (Fin 2)) /\
    read mk_linear (view (update h' l v) o) A_r_petrosian = Ok (VNum (Fin 5)).
Proof. exact E_Heap.getter_leak. Qed.
Print Assumptions C61_getter_leak_witness.

Example C61_example : 0 < length E_Heap.ex_heap /\ valid E_Heap.ex_heap (Some 2) /\
  get E_Heap.ex_heap 0 = [Fin 1; Fin 2; Fin 3].
Proof. exact (conj (Nat.lt_0_succ _) (conj (le_n 3) eq_refl)). Qed.
