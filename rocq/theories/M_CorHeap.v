(** Petrosian objects as mutable Python objects: copy() and setter calls on several
    objects that share arrays. *)
From Verif Require Import Base Num Numpy M_Utils M_Petrosian M_Heap M_Correction.

Section World.
  Context {T : Type} {N : Num T} {NL : NumLog T}.
  Variable mk : kind -> list T -> list T -> result (T -> T).

  (** memory: arrays, and Petrosian objects (an object reference is its position) *)
  Record world := mkworld { w_heap : list (list T); w_objs : list (hpetrosian T) }.

  Definition set_obj (l : list (hpetrosian T)) (i : nat) (o : hpetrosian T) :=
    firstn i l ++ o :: skipn (S i) l.

  (** what a user sees of object i *)
  Definition see (w : world) (i : nat) : option (petrosian T) :=
    option_map (view (w_heap w)) (nth_error (w_objs w) i).

  (** copy.copy(obj): a new object with the same attribute values, arrays included *)
  Definition w_copy (w : world) (i : nat) : option (nat * world) :=
    match nth_error (w_objs w) i with
    | None => None
    | Some o => Some (length (w_objs w), mkworld (w_heap w) (w_objs w ++ [o]))
    end.

  (** obj.setting = value *)
  Definition w_assign (w : world) (i : nat) (a : assign) : world :=
    match nth_error (w_objs w) i with
    | None => w
    | Some o =>
        mkworld (w_heap w) (set_obj (w_objs w) i
          (mkhpet (h_dtype o) (h_r o) (h_area o) (h_flux o) (h_area_err o) (h_flux_err o)
             (assign_settings (h_set o) a) (h_list o) (h_perr o)))
    end.

  (** writing into an array *)
  Definition w_write (w : world) (l : loc) (v : list T) : world :=
    mkworld (update (w_heap w) l v) (w_objs w).

  (** correction.py 466-470.  The estimate reads p only (calculate_petrosian_r copies the
      arrays it changes, L_Heap.r_run). *)
  Definition w_correct (c : correction T) (i : nat) (w : world) : option (result nat * world) :=
    match w_copy w i with
    | None => None
    | Some (j, w1) =>
        match see w1 i with
        | None => None
        | Some p =>
            Some (match estimate_epsilon mk c p with
                  | Err e => (Err e, w1)
                  | Ok e => (Ok j, w_assign w1 j (Set_epsilon e))
                  end)
        end
    end.

  (** a later history: setter calls on any object *)
  Definition w_run (w : world) (h : list (nat * assign)) : world :=
    fold_left (fun w x => w_assign w (fst x) (snd x)) h w.
End World.
Arguments world : clear implicits.
