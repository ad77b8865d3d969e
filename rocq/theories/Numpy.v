(** The numpy / scipy primitives petrofit calls, generic in the scalar type.
    1-D arrays are lists; 2-D arrays are [img] records. *)
From Verif Require Import Base Num.

Section Numpy.
  Context {T : Type} {N : Num T}.
  Local Open Scope num_scope.

  (** np.where(p(a))[0][0], None when empty. *)
  Fixpoint find_index {A} (p : A -> bool) (l : list A) : option nat :=
    match l with
    | [] => None
    | x :: xs => if p x then Some O else option_map S (find_index p xs)
    end.

  (** ndarray.argmin: first minimum, a NaN counts as the minimum
      (numpy's loop: update while [not (best <= x)], stop at a NaN). *)
  Fixpoint argmin_go (l : list T) (best : T) (bi i : nat) : nat :=
    if nisnan best then bi else
    match l with
    | [] => bi
    | x :: xs => if nleb best x then argmin_go xs best bi (S i)
                 else argmin_go xs x i (S i)
    end.
  Definition argmin (l : list T) : option nat :=
    match l with [] => None | x :: xs => Some (argmin_go xs x 0 1) end.

  (** builtin min()/max() of a sequence: keeps the first best entry. *)
  Definition pymax_from (a : T) (l : list T) : T :=
    fold_left (fun b x => if nltb b x then x else b) l a.
  Definition pymin_from (a : T) (l : list T) : T :=
    fold_left (fun b x => if nltb x b then x else b) l a.
  Definition pymax (l : list T) : result T :=
    match l with [] => Err ValueError | x :: xs => Ok (pymax_from x xs) end.
  Definition pymin (l : list T) : result T :=
    match l with [] => Err ValueError | x :: xs => Ok (pymin_from x xs) end.

  (** np.diff *)
  Fixpoint diff (l : list T) : list T :=
    match l with
    | x :: ((y :: _) as tl) => (y - x) :: diff tl
    | _ => []
    end.

  Definition nofnat (k : nat) : T := nofZ (Z.of_nat k).

  (** np.linspace(start, stop, num, endpoint=True), num >= 0:
      arange(num)*step + start (or arange/div*delta when step is 0),
      last entry set to stop. *)
  Definition linspace (a b : T) (num : nat) : list T :=
    match num with
    | O => []
    | S O => [nofZ 0 * (b - a) + a]
    | S div =>
        let delta := b - a in
        let step := delta / nofnat div in
        tabulate num (fun k =>
          if Nat.eqb k div then b
          else if neqb step (nofZ 0)
               then nofnat k / nofnat div * delta + a
               else nofnat k * step + a)
    end.

  (** left-to-right sum *)
  Definition nsum (l : list T) : T := fold_left nadd l (nofZ 0).

  Definition any_nan (l : list T) : bool := existsb nisnan l.
End Numpy.

(** 2-D array, [px row column] meaningful for row < ny, column < nx. *)
Record img (T : Type) : Type := mkimg { iny : nat; inx : nat; px : nat -> nat -> T }.
Arguments mkimg {T} iny inx px.
Arguments iny {T}.
Arguments inx {T}.
Arguments px {T}.

(** same shape and same pixels *)
Definition img_eq {T} (a b : img T) : Prop :=
  iny a = iny b /\ inx a = inx b /\
  forall j i, j < iny a -> i < inx a -> px a j i = px b j i.

(** numpy basic slice [lo:hi] of an axis of length n for lo, hi >= 0:
    first index and length. *)
Definition slice_start (n lo : Z) : Z := Z.min lo n.
Definition slice_len (n lo hi : Z) : Z := Z.max 0 (Z.min hi n - Z.min lo n).
(** numpy in-place broadcasting of an axis of length d onto length h. *)
Definition bcast_ok (h d : Z) : bool := ((d =? h) || (d =? 1))%Z.
Definition bcast_ix (d k : Z) : Z := if (d =? 1)%Z then 0%Z else k.

(** scipy.interpolate.interp1d as an object: the constructor is an oracle
    [mk kind xs ys] (any interpolation method); calling the object raises
    ValueError when the query leaves [min xs, max xs] (scipy's default
    bounds_error).  A kind of None is rejected with NotImplementedError. *)
Section Interp.
  Context {T : Type} {N : Num T} {K : Type}.
  Definition interp_oracle := K -> list T -> list T -> result (T -> T).

  Definition interp1d (mk : interp_oracle) (kind : option K) (xs ys : list T)
    : result (T -> result T) :=
    match kind with
    | None => Err NotImplementedError
    | Some k =>
        do f <- mk k xs ys;
        do lo <- pymin xs;
        do hi <- pymax xs;
        Ok (fun q => if nltb q lo || nltb hi q then Err ValueError else Ok (f q))
    end.

  (** interpolant built, before calls are checked *)
  Definition interp_raw (mk : interp_oracle) (k : K) (xs ys : list T) := mk k xs ys.
End Interp.
