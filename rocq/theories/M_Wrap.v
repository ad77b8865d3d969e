(** Model of the object-level behaviour of petrofit/modeling/models.py: wrapping a model into a
    PSFConvolvedModel2D and getting it back (.model), and the default bounds dictionaries.  Both
    are modelled on a heap of mutable objects, addressed by index; index = Python identity. *)
From Coq Require Import String.
From Verif Require Import Base Num.
Local Open Scope string_scope.
Local Open Scope list_scope.

Fixpoint replace_nth {A} (l : list A) (k : nat) (v : A) : list A :=
  match l, k with
  | [], _ => []
  | _ :: tl, O => v :: tl
  | x :: tl, S k' => x :: replace_nth tl k' v
  end.

(** ** Dictionaries with insertion order *)
Section Dict.
  Context {V : Type}.
  Definition dict := list (string * V).
  Fixpoint dget (d : dict) (k : string) : option V :=
    match d with [] => None | (k', v) :: tl => if String.eqb k k' then Some v else dget tl k end.
  Fixpoint dset (d : dict) (k : string) (v : V) : dict :=
    match d with
    | [] => [(k, v)]
    | (k', v') :: tl => if String.eqb k k' then (k', v) :: tl else (k', v') :: dset tl k v
    end.
  (** d.update(o) *)
  Definition dupdate (d o : dict) : dict := fold_left (fun d kv => dset d (fst kv) (snd kv)) o d.
End Dict.
Arguments dict : clear implicits.

(** ** Default bounds, models.py:73-94 *)
Section Bounds.
  Context {T : Type} {N : Num T}.
  Variable pi : T.
  Definition bound := (option T * option T)%type.
  Definition bdict := dict bound.

  (** the literal of models.py:75-81 *)
  Definition sersic_literal : bdict :=
    [("amplitude", (Some n0, None));
     ("r_eff", (Some (nlit 1 1000), None));
     ("n", (Some (nlit 1 10), Some (nofZ 10)));
     ("ellip", (Some n0, Some (nlit 99 100)));
     ("theta", (Some (nmul (nofZ (-2)) pi), Some (nmul n2 pi)))].

  Definition bheap := list bdict.

  (** heap cell 0 and 1: the two default argument objects of the two functions.
      get_default_sersic_bounds(override={}): a new dict, updated from the override object *)
  Definition get_default_sersic_bounds (h : bheap) (override : nat) : bheap * nat :=
    let o := nth override h [] in
    (h ++ [dupdate sersic_literal o], List.length h).

  (** get_default_gen_sersic_bounds(override={}), models.py:86-94: calls the other function with
      its own default, then writes into the dictionary it got *)
  Definition get_default_gen_sersic_bounds (h : bheap) (override : nat) : bheap * nat :=
    let '(h1, b) := get_default_sersic_bounds h 0 in
    let d := dset (nth b h1 []) "c_0" (Some n0, Some n2) in
    (replace_nth h1 b (dupdate d (nth override h1 [])), b).

  (** what a program can do: call either function with a dictionary it holds or without argument,
      create a dictionary, and change any dictionary it holds *)
  Inductive bop :=
  | BCall (gen : bool) (override : option nat)
  | BNew (d : bdict)
  | BMutate (k : nat) (d : bdict).

  Definition bcall (h : bheap) (gen : bool) (override : option nat) : bheap * nat :=
    if gen then get_default_gen_sersic_bounds h (match override with None => 1%nat | Some k => k end)
    else get_default_sersic_bounds h (match override with None => 0%nat | Some k => k end).

  Definition bstep (h : bheap) (o : bop) : bheap :=
    match o with
    | BCall g ov => fst (bcall h g ov)
    | BNew d => h ++ [d]
    | BMutate k d => replace_nth h k d
    end.
  Definition binit : bheap := [[]; []].
  Definition brun (h : bheap) (l : list bop) : bheap := fold_left bstep l h.
End Bounds.

(** ** Wrapping *)
Section Wrap.
  Context {T : Type} {N : Num T}.
  Variable tied : Type.   (* a tied constraint: a function, opaque here *)

  Record param := mkparam {
    pa_name : string; pa_value : T; pa_fixed : bool;
    pa_bounds : option T * option T; pa_tied : option tied }.
  Definition table := list param.

  (** model objects: a plain model, or a PSFConvolvedModel2D holding a reference to its sub-model *)
  Inductive obj := Plain (t : table) | Wrapped (sub : nat) (t : table).
  Definition oheap := list obj.
  Definition otable (o : obj) : table := match o with Plain t => t | Wrapped _ t => t end.

  Definition names (t : table) : list string := map pa_name t.
  Fixpoint lookup (t : table) (s : string) : option param :=
    match t with [] => None | p :: tl => if String.eqb s (pa_name p) then Some p else lookup tl s end.

  Definition psf_pa : string := "psf_pa".

  (** Parameter(name, default=value): not fixed, unbounded, not tied *)
  Definition fresh_param (s : string) (v : T) : param := mkparam s v false (None, None) None.

  (** _load_parameters, models.py:199-222 *)
  Definition load_parameters (t : table) : table :=
    map (fun p => fresh_param (pa_name p) (pa_value p)) t ++ [fresh_param psf_pa n0].

  Definition upd (t : table) (s : string) (f : param -> param) : table :=
    map (fun p => if String.eqb s (pa_name p) then f p else p) t.
  Definition set_value v p := mkparam (pa_name p) v (pa_fixed p) (pa_bounds p) (pa_tied p).
  Definition set_fixed b p := mkparam (pa_name p) (pa_value p) b (pa_bounds p) (pa_tied p).
  Definition set_bounds b p := mkparam (pa_name p) (pa_value p) (pa_fixed p) b (pa_tied p).
  Definition set_tied d p := mkparam (pa_name p) (pa_value p) (pa_fixed p) (pa_bounds p) d.

  (** constraint dictionaries given as keyword arguments, or model.fixed / model.bounds: each entry
      is assigned to the parameter of that name (astropy raises AttributeError for other keys) *)
  Definition apply_all {V} (set : V -> param -> param) (t : table) (d : dict V) : result table :=
    fold_left (fun r kv => do t' <- r;
                 if existsb (String.eqb (fst kv)) (names t') then Ok (upd t' (fst kv) (set (snd kv)))
                 else Err AttributeError) d (Ok t).

  Definition fixed_dict (t : table) : dict bool := map (fun p => (pa_name p, pa_fixed p)) t.
  Definition bounds_dict (t : table) : dict (option T * option T) := map (fun p => (pa_name p, pa_bounds p)) t.

  (** keyword arguments of the constructor that concern parameters *)
  Record kwargs := mkkw {
    kw_values : dict T;
    kw_fixed : option (dict bool);
    kw_bounds : option (dict (option T * option T));
    kw_tied : dict (option tied) }.
  Definition no_kwargs : kwargs := mkkw [] None None [].

  (** __init__, models.py:166-197 (settings are in M_PSF).  A sub-model that already has a
      parameter called psf_pa is not modelled. *)
  Definition wrap (h : oheap) (k : nat) (kw : kwargs) : result (oheap * nat) :=
    match nth_error h k with
    | None => Err TypeError
    | Some (Wrapped _ _) => Err TypeError
    | Some (Plain t) =>
        if existsb (String.eqb psf_pa) (names t) then Err GenericException else
        let t0 := load_parameters t in
        do t1 <- apply_all set_fixed t0 (match kw_fixed kw with Some d => d | None => [] end);
        do t2 <- apply_all set_bounds t1 (match kw_bounds kw with Some d => d | None => [] end);
        do t3 <- apply_all set_tied t2 (kw_tied kw);
        do t4 <- apply_all set_value t3 (kw_values kw);
        do t5 <- (match kw_fixed kw with None => apply_all set_fixed t4 (fixed_dict t) | Some _ => Ok t4 end);
        do t6 <- (match kw_bounds kw with None => apply_all set_bounds t5 (bounds_dict t) | Some _ => Ok t5 end);
        Ok (h ++ [Wrapped k t6], List.length h)
    end.

  (** .model, models.py:224-241: a copy of the sub-model object with the wrapper's values, fixed
      flags and bounds; the copies of the constraint dictionaries lose psf_pa first *)
  Definition ddel {V} (d : dict V) (s : string) : dict V := filter (fun kv => negb (String.eqb s (fst kv))) d.
  Definition unwrap (h : oheap) (k : nat) : result (oheap * nat) :=
    match nth_error h k with
    | Some (Wrapped s t) =>
        match nth_error h s with
        | Some (Plain t0) =>
            do t1 <- fold_left (fun r p => do t' <- r;
                       match lookup t (pa_name p) with
                       | Some q => Ok (upd t' (pa_name p) (set_value (pa_value q)))
                       | None => Err AttributeError
                       end) t0 (Ok t0);
            do t2 <- apply_all set_fixed t1 (ddel (fixed_dict t) psf_pa);
            do t3 <- apply_all set_bounds t2 (ddel (bounds_dict t) psf_pa);
            Ok (h ++ [Plain t3], List.length h)
        | _ => Err AttributeError
        end
    | _ => Err AttributeError
    end.

  (** assignments to a parameter of an object: m.p = v, m.p.fixed / m.fixed[p], bounds, tied.
      A name the model does not have leaves every parameter alone. *)
  Inductive wset := WValue (v : T) | WFixed (b : bool) | WBounds (b : option T * option T) | WTied (d : option tied).
  Definition apply_set (w : wset) (p : param) : param :=
    match w with
    | WValue v => set_value v p | WFixed b => set_fixed b p
    | WBounds b => set_bounds b p | WTied d => set_tied d p
    end.
  Definition assign (h : oheap) (k : nat) (s : string) (w : wset) : oheap :=
    match nth_error h k with
    | Some (Plain t) => replace_nth h k (Plain (upd t s (apply_set w)))
    | Some (Wrapped u t) => replace_nth h k (Wrapped u (upd t s (apply_set w)))
    | None => h
    end.

  Inductive wop := WNew (t : table) | WWrap (k : nat) (kw : kwargs) | WUnwrap (k : nat)
                 | WAssign (k : nat) (s : string) (w : wset).
  Definition heap_of (h : oheap) (r : result (oheap * nat)) : oheap :=
    match r with Ok (h', _) => h' | Err _ => h end.
  Definition wstep (h : oheap) (o : wop) : oheap :=
    match o with
    | WNew t => h ++ [Plain t]
    | WWrap k kw => heap_of h (wrap h k kw)
    | WUnwrap k => heap_of h (unwrap h k)
    | WAssign k s w => assign h k s w
    end.
  Definition wrun (h : oheap) (l : list wop) : oheap := fold_left wstep l h.
End Wrap.
