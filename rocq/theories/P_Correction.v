(** Property theorems for petrofit/petrosian/correction.py: C27-C32, C62, C63. *)
From Coq Require Import String Permutation.
From Verif Require Import Base Num Numpy M_Utils M_Petrosian S_Petrosian M_Heap S_PetObj M_Correction
  M_CorHeap S_Correction.
From Verif Require L_Correction2 L_Correction3 L_Correction4 E_Correction E_CorEx.
Local Open Scope list_scope.

(** C27. *)
Theorem C27_nearest_row :
  forall (mk : kind -> list xr -> list xr -> result (xr -> xr)) t e c X Y Z p k x0 y0 z0 err,
  PetrosianCorrection_new (GTable t) e = Ok c ->
  column t "p02" = Ok (map Fin X) -> column t "u_r_50" = Ok (map Fin Y) ->
  column t "u_c2080" = Ok (map Fin Z) ->
  nonconstant X -> nonconstant Y -> nonconstant Z ->
  calculate_petrosian_r mk (d_r (p_data p)) (p_list p) None (nlit 1 5) (Some KCubic) (50 * 100)
    = Ok (Fin x0, err) ->
  read mk p A_r_half_light = Ok (VNum (Fin y0)) -> read mk p A_c2080 = Ok (VNum (Fin z0)) ->
  get_corrected_row mk c p = Ok k ->
  k < List.length (t_rows t) /\
  (forall j, j < List.length (t_rows t) ->
     (row_distance X Y Z x0 y0 z0 k <= row_distance X Y Z x0 y0 z0 j)%R) /\
  (forall j, j < k -> (row_distance X Y Z x0 y0 z0 k < row_distance X Y Z x0 y0 z0 j)%R) /\
  estimate_n mk c p = cell t k "n".
Proof. exact E_Correction.nearest_row. Qed.
Print Assumptions C27_nearest_row.

Theorem C27_same_measurement :
  forall (mk : kind -> list xr -> list xr -> result (xr -> xr)) t e c X Y Z p i n,
  PetrosianCorrection_new (GTable t) e = Ok c ->
  column t "p02" = Ok (map Fin X) -> column t "u_r_50" = Ok (map Fin Y) ->
  column t "u_c2080" = Ok (map Fin Z) ->
  nonconstant X -> nonconstant Y -> nonconstant Z ->
  i < List.length (t_rows t) -> cell t i "n" = Ok n ->
  get_xyz_from_p mk p = Ok (Fin (at_ X i), Fin (at_ Y i), Fin (at_ Z i)) ->
  (exists k, get_corrected_row mk c p = Ok k /\ k <= i /\
     at_ X k = at_ X i /\ at_ Y k = at_ Y i /\ at_ Z k = at_ Z i) /\
  ((forall j, j < i -> ~ (at_ X j = at_ X i /\ at_ Y j = at_ Y i /\ at_ Z j = at_ Z i)) ->
   get_corrected_row mk c p = Ok i /\ estimate_n mk c p = Ok n).
Proof. exact E_Correction.same_row. Qed.
Print Assumptions C27_same_measurement.

Example C27_example : exists a c, (2 <= a)%R /\
  PetrosianCorrection_new (GTable (E_CorEx.ex_grid2 a)) true = Ok c /\
  get_corrected_row E_CorEx.mk_ex c E_CorEx.ex_p = Ok 1 /\
  estimate_n E_CorEx.mk_ex c E_CorEx.ex_p = Ok (Fin 4) /\
  estimate_epsilon E_CorEx.mk_ex c E_CorEx.ex_p = Ok (Fin (20 / a)).
Proof. exact E_CorEx.row2_ex. Qed.

(** C28. *)
Theorem C28_range :
  forall t e c X Y Z x0 y0 z0,
  PetrosianCorrection_new (GTable t) e = Ok c ->
  column t "p02" = Ok (map Fin X) -> column t "u_r_50" = Ok (map Fin Y) ->
  column t "u_c2080" = Ok (map Fin Z) -> t_rows t <> [] ->
  (e = true ->
    (between X x0 /\ between Y y0 /\ between Z z0 ->
       exists k, closest_row c x0 y0 z0 = Ok k /\ k < List.length (t_rows t)) /\
    (~ (between X x0 /\ between Y y0 /\ between Z z0) ->
       closest_row c x0 y0 z0 = Err AssertionError)) /\
  (e = false ->
    (exists k, closest_row c x0 y0 z0 = Ok k /\ k < List.length (t_rows t)) /\
    (x0 = NaN \/ y0 = NaN \/ z0 = NaN -> closest_row c x0 y0 z0 = Ok 0)).
Proof. exact E_Correction.range_enforced. Qed.
Print Assumptions C28_range.

Theorem C28_empty : forall T (N : Num T) (t : table T) e c x0 y0 z0, PetrosianCorrection_new (GTable t) e = Ok c -> t_rows t = [] ->
  closest_row c x0 y0 z0 = Err ValueError.
Proof. exact @E_Correction.empty_grid. Qed.
Print Assumptions C28_empty.
Example C28_example_empty : exists c, PetrosianCorrection_new (GTable E_Correction.no_rows) true = Ok c /\ t_rows E_Correction.no_rows = [].
Proof. exact E_Correction.no_rows_ex. Qed.

Example C28_example :
  closest_row (E_Correction.ex_cor true) (Fin 9) (Fin 2) (Fin 3) = Err AssertionError /\
  closest_row (E_Correction.ex_cor true) (Fin 4) NaN (Fin 3) = Err AssertionError /\
  closest_row (E_Correction.ex_cor false) (Fin 4) NaN (Fin 3) = Ok 0.
Proof. exact E_Correction.C28_ex. Qed.

Example C28_example_inside : forall e,
  closest_row (E_Correction.ex_cor e) (Fin 4) (Fin 2) (Fin 3) = Ok 1.
Proof. exact E_Correction.C27_ex. Qed.

(** C29. *)
Theorem C29_epsilon :
  forall (mk : kind -> list xr -> list xr -> result (xr -> xr)) c p k,
  t_names (c_grid c) = column_names -> k < List.length (t_rows (c_grid c)) ->
  get_corrected_row mk c p = Ok k ->
  let f := s_epsilon_fraction (p_set p) in
  let eta := s_eta (p_set p) in
  (forall fname ename, fraction_col f fname -> eta_col eta ename ->
     exists a b, cell (c_grid c) k fname = Ok a /\ cell (c_grid c) k ename = Ok b /\
       estimate_epsilon mk c p = Ok (xdiv a b)) /\
  (f = Fin (1/2) -> estimate_epsilon mk c p = Err KeyError) /\
  (f <> Fin (1/2) -> (forall n, ~ fraction_col f n) \/ (forall n, ~ eta_col eta n) ->
     estimate_epsilon mk c p = Err ValueError).
Proof. exact E_Correction.epsilon_cases. Qed.
Print Assumptions C29_epsilon.

Example C29_example :
  epsilon_of_row E_Correction.ex_grid 1 (Fin (99/100)) (Fin (1/2)) = Ok (xdiv (Fin 9) (Fin 5)) /\
  epsilon_of_row E_Correction.ex_grid 1 (Fin (1/2)) (Fin (1/2)) = Err KeyError.
Proof. exact E_Correction.C29_ex. Qed.

(** C30. *)
Theorem C30_correct : forall {T} {N : Num T} {NL : NumLog T}
    (mk : kind -> list T -> list T -> result (T -> T)) c i w p, see w i = Some p ->
  exists r w', w_correct mk c i w = Some (r, w') /\
    (forall k, k < List.length (w_objs w) -> see w' k = see w k) /\
    match estimate_epsilon mk c p with
    | Err e => r = Err e
    | Ok e => exists j p', r = Ok j /\ List.length (w_objs w) <= j /\ see w' j = Some p' /\
        correct mk c p = Ok p' /\
        p_data p' = p_data p /\ p_list p' = p_list p /\ p_err p' = p_err p /\
        s_epsilon (p_set p') = e /\
        s_eta (p_set p') = s_eta (p_set p) /\
        s_epsilon_fraction (p_set p') = s_epsilon_fraction (p_set p) /\
        s_total_flux_fraction (p_set p') = s_total_flux_fraction (p_set p) /\
        s_kind (p_set p') = s_kind (p_set p) /\ s_num (p_set p') = s_num (p_set p) /\
        read mk p' A_r_petrosian = read mk p A_r_petrosian /\
        read mk p' A_r_petrosian_err = read mk p A_r_petrosian_err
    end.
Proof. exact @L_Correction3.correct_spec. Qed.
Print Assumptions C30_correct.

(** later settings of either object do not reach the other *)
Theorem C30_independent_settings : forall {T} {N : Num T} {NL : NumLog T}
    (mk : kind -> list T -> list T -> result (T -> T)) c i w j w' p p' h,
  see w i = Some p -> w_correct mk c i w = Some (Ok j, w') -> see w' j = Some p' ->
  i <> j /\
  see (w_run w' h) i = Some (run mk p (addressed i h)) /\
  see (w_run w' h) j = Some (run mk p' (addressed j h)).
Proof. exact @E_Correction.isolated. Qed.
Print Assumptions C30_independent_settings.

(** but the two objects hold the same arrays *)
Theorem C30_shared_arrays : forall {T} {N : Num T} {NL : NumLog T}
    (mk : kind -> list T -> list T -> result (T -> T)) c i w j w',
  w_correct mk c i w = Some (Ok j, w') ->
  exists o o', nth_error (w_objs w') i = Some o /\ nth_error (w_objs w') j = Some o' /\
    h_r o' = h_r o /\ h_area o' = h_area o /\ h_flux o' = h_flux o /\
    h_area_err o' = h_area_err o /\ h_flux_err o' = h_flux_err o /\
    h_list o' = h_list o /\ h_perr o' = h_perr o.
Proof. exact @L_Correction3.correct_shares. Qed.
Print Assumptions C30_shared_arrays.

Theorem C30_shared_arrays_witness : exists c w' o' l v p,
  w_correct E_CorEx.mk_ex c 0 E_CorEx.ex_world = Some (Ok 1, w') /\
  nth_error (w_objs w') 1 = Some o' /\ h_flux o' = l /\
  see w' 0 = Some p /\ see (w_write w' l v) 0 <> Some p.
Proof. exact E_CorEx.C30_shared. Qed.
Print Assumptions C30_shared_arrays_witness.

Example C30_example : exists c a w' p',
  see E_CorEx.ex_world 0 = Some E_CorEx.ex_p /\
  w_correct E_CorEx.mk_ex c 0 E_CorEx.ex_world = Some (Ok 1, w') /\
  see w' 0 = Some E_CorEx.ex_p /\ see w' 1 = Some p' /\
  s_epsilon (p_set p') = Fin (20 / a) /\ s_epsilon (p_set E_CorEx.ex_p) = Fin 2 /\ (2 <= a)%R.
Proof. exact E_CorEx.C30_ex. Qed.

(** C31. *)
Theorem C31_rows : forall {T} {N : Num T} (job : T -> T -> result (list T))
    ns rs c plot schedule write t,
  serial c = true \/ plot = false ->
  (forall l, Permutation (schedule l) l) ->
  generate job ns rs c plot schedule write = Ok t ->
  t_names t = column_names /\
  List.length (t_rows t) = List.length ns * List.length rs /\
  (forall row, In row (t_rows t) -> List.length row = List.length column_names) /\
  forall i j n r, nth_error ns i = Some n -> nth_error rs j = Some r ->
    exists row, nth_error (t_rows t) (i * List.length rs + j) = Some row /\
      job r (nround6 n) = Ok row.
Proof. exact @L_Correction3.gen_rows. Qed.
Print Assumptions C31_rows.

(** several workers, whatever order they finish in, give the serial table *)
Theorem C31_any_order : forall {T} {N : Num T} (job : T -> T -> result (list T))
    ns rs c schedule write t,
  match c with CInt z => (0 <= z)%Z | _ => True end ->
  (forall l, Permutation (schedule l) l) ->
  generate job ns rs CNone false schedule write = Ok t ->
  generate job ns rs c false schedule write = Ok t.
Proof. exact @L_Correction3.serial_gen. Qed.
Print Assumptions C31_any_order.

Theorem C31_any_order_back : forall {T} {N : Num T} (job : T -> T -> result (list T))
    ns rs c plot schedule write t,
  serial c = true \/ plot = false ->
  (forall l, Permutation (schedule l) l) ->
  generate job ns rs c plot schedule write = Ok t ->
  generate job ns rs CNone plot schedule write = Ok t.
Proof. exact @L_Correction3.gen_serial. Qed.
Print Assumptions C31_any_order_back.

Theorem C31_plot_with_workers : forall {T} {N : Num T} (job : T -> T -> result (list T))
    ns rs c schedule write,
  serial c = false -> generate job ns rs c true schedule write = Err AssertionError.
Proof. exact @L_Correction3.gen_plot. Qed.
Print Assumptions C31_plot_with_workers.

Theorem C31_saving_ignored : forall {T} {N : Num T} (job : T -> T -> result (list T))
    ns rs c plot schedule w1 w2,
  generate job ns rs c plot schedule w1 = generate job ns rs c plot schedule w2.
Proof. exact @L_Correction3.gen_write. Qed.
Print Assumptions C31_saving_ignored.

Example C31_example : exists t,
  generate (fun r n => Ok (repeat (xadd r n) 30)) [Fin 1; Fin 2] [Fin 10; Fin 20; Fin 30] (CInt 4) false
    (fun l => rev l) (fun _ => Err GenericException) = Ok t /\
  List.length (t_rows t) = 6 /\
  nth_error (t_rows t) 5 = Some (repeat (Fin 32) 30).
Proof. exact E_CorEx.C31_ex. Qed.

(** C32. *)
Theorem C32_radii : forall x : R, (-1 < x)%R ->
  exists m radii size x0,
    int_of (Fin x) = Ok m /\
    sim_geometry (nleb (nofZ 200) (Fin x)) m = Ok (radii, size, x0) /\
    hd_error radii = Some 1%Z /\ zincreasing radii /\ (forall r, In r radii -> (1 <= r)%Z) /\
    exists last, In last radii /\ (forall r, In r radii -> (r <= last)%Z) /\
      size = (2 * last)%Z /\ x0 = last /\
      (((200 <= x < 201)%R /\ last = 199%Z) \/
       (~ (200 <= x < 201)%R /\ (x - 1 < IZR last)%R /\ (IZR last <= x + 100)%R)).
Proof. exact L_Correction4.geometry_ok. Qed.
Print Assumptions C32_radii.

Theorem C32_rejected : forall x : xr,
  match x with
  | NaN => int_of x = Err ValueError
  | PInf | NInf => int_of x = Err OverflowError
  | Fin r => (r <= -1)%R -> exists m, int_of x = Ok m /\
      sim_geometry (nleb (nofZ 200) x) m = Err ValueError
  end.
Proof. exact L_Correction4.geometry_bad. Qed.
Print Assumptions C32_rejected.

Example C32_example :
  sim_geometry false 5 = Ok ([1; 3; 5]%Z, 10%Z, 5%Z) /\
  (exists r, sim_geometry true 200 = Ok (r, 398%Z, 199%Z)).
Proof. exact E_CorEx.C32_ex. Qed.

(** C62. *)
Theorem C62_unique_values : forall (t : table xr) key l, column t key = Ok (map Fin l) ->
  exists l', unique_grid_values t key = Ok (map Fin l') /\ increasing_list l' /\
    forall y, In y l' <-> In y l.
Proof. exact L_Correction4.unique_grid. Qed.
Print Assumptions C62_unique_values.

Theorem C62_filter : forall {T} {N : Num T} (t : table T) key v,
  match filter_grid t key v with
  | Err e => e = KeyError /\ ~ In key (t_names t)
  | Ok u => t_names u = t_names t /\
      exists keep : list nat,
        (forall i j x y, i < j -> nth_error keep i = Some x -> nth_error keep j = Some y -> x < y) /\
        (forall i, In i keep <-> i < List.length (t_rows t) /\
                     exists x, cell t i key = Ok x /\ neqb x v = true) /\
        List.length (t_rows u) = List.length keep /\
        forall k i, nth_error keep k = Some i -> nth_error (t_rows u) k = nth_error (t_rows t) i
  end.
Proof. exact @L_Correction4.filter_grid_spec. Qed.
Print Assumptions C62_filter.

Example C62_example :
  unique_grid_values (mktable ["a"; "b"]%string [[Fin 2; Fin 5]; [Fin 1; Fin 6]; [Fin 2; Fin 7]]) "a"
    = Ok [Fin 1; Fin 2] /\
  filter_grid (mktable ["a"; "b"]%string [[Fin 2; Fin 5]; [Fin 1; Fin 6]; [Fin 2; Fin 7]]) "a" (Fin 2)
    = Ok (mktable ["a"; "b"]%string [[Fin 2; Fin 5]; [Fin 2; Fin 7]]).
Proof. exact E_CorEx.C62_ex. Qed.

(** C63. *)
Theorem C63_row_is_measurement : forall {T} {N : Num T} {NL : NumLog T}
    (mk : kind -> list T -> list T -> result (T -> T)) sersic_total sersic_radius simulate
    (r_eff n : T) row,
  generate_row mk sersic_total sersic_radius simulate r_eff n = Ok row ->
  exists m radii size x0 flux area p,
    int_of (sim_max_r r_eff n
      (sersic_radius r_eff n (nmul (nmul (sersic_total r_eff n) (nlit 99 100)) n1))) = Ok m /\
    sim_geometry (nleb (nofZ 200) (sim_max_r r_eff n
      (sersic_radius r_eff n (nmul (nmul (sersic_total r_eff n) (nlit 99 100)) n1)))) m
      = Ok (radii, size, x0) /\
    simulate r_eff n radii size x0 = Ok (flux, area) /\
    Petrosian_new (mkdata DFloat (map nofZ radii) area flux None None) default_settings = Ok p /\
    get_xyz_from_p mk p = Ok (nth 6 row nnan, nth 15 row nnan, nth 19 row nnan) /\
    nth 0 row nnan = n /\ nth 1 row nnan = r_eff /\ List.length row = 30.
Proof. exact @L_Correction4.row_measured. Qed.
Print Assumptions C63_row_is_measurement.

Theorem C63_round_trip :
  forall (mk : kind -> list xr -> list xr -> result (xr -> xr)) sersic_total sersic_radius simulate
    ns rs nc plot schedule write t e c X Y Z i j n r,
  (serial nc = true \/ plot = false) ->
  (forall l, Permutation (schedule l) l) ->
  generate (generate_row mk sersic_total sersic_radius simulate) ns rs nc plot schedule write = Ok t ->
  PetrosianCorrection_new (GTable t) e = Ok c ->
  column t "p02" = Ok (map Fin X) -> column t "u_r_50" = Ok (map Fin Y) ->
  column t "u_c2080" = Ok (map Fin Z) ->
  nonconstant X -> nonconstant Y -> nonconstant Z ->
  nth_error ns i = Some n -> nth_error rs j = Some r ->
  let row := i * List.length rs + j in
  exists radii size x0 flux area p k,
    simulate r (nround6 n) radii size x0 = Ok (flux, area) /\
    Petrosian_new (mkdata DFloat (map nofZ radii) area flux None None) default_settings = Ok p /\
    get_corrected_row mk c p = Ok k /\ k <= row /\
    at_ X k = at_ X row /\ at_ Y k = at_ Y row /\ at_ Z k = at_ Z row /\
    estimate_n mk c p = cell t k "n" /\
    cell t row "n" = Ok (nround6 n) /\ cell t row "r_eff" = Ok r /\
    ((forall q, q < row ->
        ~ (at_ X q = at_ X row /\ at_ Y q = at_ Y row /\ at_ Z q = at_ Z row)) ->
     estimate_n mk c p = Ok (nround6 n)).
Proof. exact E_CorEx.round_trip. Qed.
Print Assumptions C63_round_trip.

Example C63_example : exists row,
  generate_row E_CorEx.mk_ex (fun _ _ => Fin 5) (fun _ _ _ => Fin 4) E_CorEx.sim_ex (Fin 8) (Fin 3)
    = Ok row.
Proof. exact E_CorEx.row_ex. Qed.
