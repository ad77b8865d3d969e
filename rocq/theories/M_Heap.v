(** Arrays as mutable objects: which arrays core.py writes and which it shares.
    A heap is the list of arrays allocated so far; an array reference is its position. *)
From Verif Require Import Base Num Numpy M_Utils M_Petrosian.

Section Heap.
  Context {T : Type} {N : Num T}.

  Definition loc := nat.
  Definition heap := list (list T).

  (** computations that read, allocate and write arrays *)
  Definition io (A : Type) := heap -> result A * heap.
  Definition ret {A} (a : A) : io A := fun h => (Ok a, h).
  Definition lift {A} (m : result A) : io A := fun h => (m, h).
  Definition bindio {A B} (m : io A) (f : A -> io B) : io B :=
    fun h => match m h with (Ok a, h') => f a h' | (Err e, h') => (Err e, h') end.

  Fixpoint update (h : heap) (l : loc) (v : list T) : heap :=
    match h, l with
    | [], _ => []
    | _ :: t, O => v :: t
    | x :: t, S l' => x :: update t l' v
    end.

  (** the contents of an array; dangling references do not exist in Python *)
  Definition load (l : loc) : io (list T) := fun h => (Ok (nth l h []), h).
  (** np.array(x): a new array with a copy of the contents *)
  Definition np_array (l : loc) : io loc := fun h => (Ok (length h), h ++ [nth l h []]).
  (** a[0] = v *)
  Definition setitem0 (l : loc) (v : T) : io unit :=
    fun h => match nth l h [] with
             | [] => (Err IndexError, h)
             | _ :: xs => (Ok tt, update h l (v :: xs))
             end.
  Definition np_array_opt (l : option loc) : io (option loc) :=
    match l with None => ret None | Some l => bindio (np_array l) (fun l' => ret (Some l')) end.
  Definition load_opt (l : option loc) : io (option (list T)) :=
    match l with None => ret None | Some l => bindio (load l) (fun x => ret (Some x)) end.
End Heap.

Notation "'let!' x := m 'in' f" := (bindio m (fun x => f))
  (at level 200, x name, m at level 100, f at level 200).

Section HeapPetrosian.
  Context {T : Type} {N : Num T}.
  Variable mk : kind -> list T -> list T -> result (T -> T).

  (** core.py 173-219 with its array copies and in-place writes *)
  Definition h_calculate_petrosian_r (r_list petro : loc) (petro_err : option loc)
      (eta : T) (ik : option kind) (num : nat) : io (T := T) (T * T) :=
    let! r := np_array r_list in
    let! p := np_array petro in
    let! pe := np_array_opt petro_err in
    let! _ := setitem0 r n0 in
    let! _ := setitem0 p n1 in
    let! rv := load r in
    let! pv := load p in
    let! rp := lift (get_interpolated_values mk rv pv num ik) in
    let! r_petro := lift (pick (fst rp) (closest_value_index eta (snd rp) false)) in
    match pe with
    | None => ret (r_petro, nnan)
    | Some e =>
        if nisnan r_petro then ret (r_petro, nnan) else
        let! _ := setitem0 e n0 in
        let! rv := load r in
        let! pv := load p in
        let! ev := load e in
        let! pu := lift (np_map2 nadd pv ev) in
        let! up := lift (get_interpolated_values mk rv pu num ik) in
        let! r_up := lift (pick (fst up) (closest_value_index eta (snd up) false)) in
        let! pl := lift (np_map2 nsub pv ev) in
        let! lo := lift (get_interpolated_values mk rv pl num ik) in
        let! r_lo := lift (pick (fst lo) (closest_value_index eta (snd lo) false)) in
        ret (r_petro, ndiv (nsub r_up r_lo) n2)
    end.

  (** a Petrosian object as it sits in memory: references to its own arrays *)
  Record hpetrosian := mkhpet {
    h_dtype : dtype; h_r : loc; h_area : loc; h_flux : loc;
    h_area_err : option loc; h_flux_err : option loc;
    h_set : psettings T; h_list : loc; h_perr : option loc }.

  Definition np_new (v : list T) : io loc := fun h => (Ok (length h), h ++ [v]).

  (** core.py 539-602: the constructor copies every array; the profile is a new array *)
  Definition h_Petrosian_new (d : dtype) (r area flux : loc) (area_err flux_err : option loc)
      (s : psettings T) : io hpetrosian :=
    let! r' := np_array r in
    let! a' := np_array area in
    let! f' := np_array flux in
    let! ae' := np_array_opt area_err in
    let! fe' := np_array_opt flux_err in
    let! rv := load r' in
    let! av := load a' in
    let! fv := load f' in
    let! aev := load_opt ae' in
    let! fev := load_opt fe' in
    let! o := lift (Petrosian_new (mkdata d rv av fv aev fev) s) in
    let! pl := np_new (p_list o) in
    let! pe := match p_err o with
               | None => ret None
               | Some e => bindio (np_new e) (fun l => ret (Some l))
               end in
    ret (mkhpet d r' a' f' ae' fe' s pl pe).

  Definition get (h : heap) (l : loc) : list T := nth l h [].

  (** the object seen with the current contents of memory: what every property reads *)
  Definition view (h : heap) (o : hpetrosian) : petrosian T :=
    mkpet (mkdata (h_dtype o) (get h (h_r o)) (get h (h_area o)) (get h (h_flux o))
             (option_map (get h) (h_area_err o)) (option_map (get h) (h_flux_err o)))
          (h_set o) (get h (h_list o)) (option_map (get h) (h_perr o)).

  (** core.py 668-691: the getters return the internal arrays themselves *)
  Definition h_get_r_list (o : hpetrosian) : io (T := T) loc := ret (h_r o).
  Definition h_get_area_list (o : hpetrosian) : io (T := T) loc := ret (h_area o).
  Definition h_get_flux_list (o : hpetrosian) : io (T := T) loc := ret (h_flux o).
End HeapPetrosian.
Arguments hpetrosian : clear implicits.
