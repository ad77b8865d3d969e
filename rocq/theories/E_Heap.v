(** Concrete cases for P_Heap. *)
From Verif Require Import Base Num Numpy M_Utils M_Petrosian M_Interp M_Heap S_Heap L_Heap
  L_Petrosian E_Petrosian.
Local Open Scope R_scope.

Definition ex_heap : heap (T := xr) := [[Fin 1; Fin 2; Fin 3]; map Fin exA; map Fin exL].

Lemma petro_r_ex (x a b : xr) :
  obj_petro_r mk_linear (mkpet (mkdata DFloat [x; a; b] (map Fin exA) (map Fin exL) None None)
     ex_set_none [NaN; Fin (3/4); Fin (2/5)] None) = Ok (a, NaN).
Proof.
  unfold obj_petro_r, calculate_petrosian_r.
  cbn [p_data p_set p_list p_err d_r s_eta s_kind s_num ex_set_none set0 bind get_interpolated_values fst snd].
  assert (E : closest_value_index (Fin (3/4)) [n1; Fin (3/4); Fin (2/5)] false = Some 1%nat) by cvi.
  rewrite E. reflexivity.
Qed.

(** writing through the r_list getter changes the Petrosian radius *)
Lemma getter_leak :
  exists (h h' : heap (T := xr)) (o : hpetrosian xr) (l : loc) (v : list xr),
    h_Petrosian_new DFloat 0%nat 1%nat 2%nat None None ex_set_none h = (Ok o, h') /\
    h_get_r_list o h' = (Ok l, h') /\
    read mk_linear (view h' o) A_r_petrosian = Ok (VNum (Fin 2)) /\
    read mk_linear (view (update h' l v) o) A_r_petrosian = Ok (VNum (Fin 5)).
Proof.
  exists ex_heap.
  destruct (new_run DFloat 0%nat 1%nat 2%nat None None ex_set_none ex_heap) as (h' & K & H); cbn; auto; try lia.
  assert (E : Petrosian_new (mkdata DFloat [Fin 1; Fin 2; Fin 3] (map Fin exA) (map Fin exL) None None) ex_set_none
    = Ok (mkpet (mkdata DFloat [Fin 1; Fin 2; Fin 3] (map Fin exA) (map Fin exL) None None)
     ex_set_none [NaN; Fin (3/4); Fin (2/5)] None)).
  { unfold Petrosian_new, validate_input_arrays.
    cbn [d_dtype d_r d_area d_flux d_area_err d_flux_err]. rewrite profileA. reflexivity. }
  cbn [get ex_heap nth opt_get option_map] in H. 
  rewrite E in H. destruct H as (o & Eo & V & Hown).
  exists h', o, (h_r o), [Fin 1; Fin 5; Fin 6].
  split; auto. split; [reflexivity|]. rewrite V. split.
  { cbn [read]. unfold obj_r_petrosian. rewrite petro_r_ex. reflexivity. }
  assert (Hn : forall l, own o l -> (l < length h')%nat) by (intros l Hl; apply Hown; auto).
  assert (V2 : view (update h' (h_r o) [Fin 1; Fin 5; Fin 6]) o =
     mkpet (mkdata DFloat [Fin 1; Fin 5; Fin 6] (map Fin exA) (map Fin exL) None None)
     ex_set_none [NaN; Fin (3/4); Fin (2/5)] None).
  { unfold h_Petrosian_new, bindio in Eo. cbn [np_array ret np_array_opt load load_opt lift] in Eo.
    revert Eo. cbn -[Petrosian_new exA exL]. rewrite E. cbn. intros Eo. injection Eo as <- <-. reflexivity. }
  rewrite V2. cbn [read]. unfold obj_r_petrosian. rewrite petro_r_ex. reflexivity.
Qed.
