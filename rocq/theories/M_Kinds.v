(** The other kinds of scipy.interpolate.interp1d that interp_kind can name (the calls in petrofit/utils.py 122-151
    get_interpolated_values and petrofit/petrosian/core.py 294-330, 787-830), on sorted abscissae.  Only "quadratic" and spline
    orders other than 0, 1 and 3 stay open; they are the argument [other].  nextafter of the code of "previous" and "next"
    turns < into <= and back; here the comparison is changed instead. *)
From Verif Require Import Base Num Numpy M_Petrosian M_Interp M_Cubic.

Section Kinds.
  Context {T : Type} {N : Num T}.
  Local Open Scope num_scope.

  (** np.searchsorted(l, q, side) on a sorted array; NaN comes after all numbers *)
  Definition searchsorted_left (l : list T) (q : T) : nat :=
    if nisnan q then length l else length (filter (fun x => nltb x q) l).
  Definition searchsorted_right (l : list T) (q : T) : nat :=
    if nisnan q then length l else length (filter (fun x => nleb x q) l).

  (** interp1d.__init__: x_bds = x / 2.0; x_bds = x_bds[1:] + x_bds[:-1] *)
  Definition midpoints (xs : list T) : list T :=
    let b := map (fun x => x / n2) xs in
    map (fun p => fst p + snd p) (combine (tl b) b).

  (** _call_nearest and _call_previousnext: the position whose value is returned *)
  Definition nearest_ix (xs : list T) (q : T) : nat := Nat.min (searchsorted_left (midpoints xs) q) (length xs - 1).
  Definition nearest_up_ix (xs : list T) (q : T) : nat := Nat.min (searchsorted_right (midpoints xs) q) (length xs - 1).
  Definition previous_ix (xs : list T) (q : T) : nat := (Nat.min (Nat.max (searchsorted_right xs q) 1) (length xs) - 1)%nat.
  Definition next_ix (xs : list T) (q : T) : nat := Nat.min (searchsorted_left xs q) (length xs - 1).

  Definition step_at_ix (ix : list T -> T -> nat) (xs ys : list T) (q : T) : T := nth (ix xs q) ys nnan.
  (** a spline of order 0 is constant from one sample to the next; splines of NaN are NaN *)
  Definition zero_at (xs ys : list T) (q : T) : T := if nisnan q then nnan else step_at_ix previous_ix xs ys q.

  Variable other : kind -> list T -> list T -> result (T -> T).

  Definition mk_scipy (k : kind) (xs ys : list T) : result (T -> T) :=
    if Nat.eqb (length xs) (length ys) then
      match k with
      | KLinear => Ok (linear_at xs ys)
      | KNearest => Ok (step_at_ix nearest_ix xs ys)
      | KNearestUp => Ok (step_at_ix nearest_up_ix xs ys)
      | KPrevious => Ok (step_at_ix previous_ix xs ys)
      | KNext => Ok (step_at_ix next_ix xs ys)
      | KZero | KOrder 0 => Ok (zero_at xs ys)
      | KSlinear | KOrder 1 => if Nat.ltb (length xs) 2 then Err ValueError else Ok (linear_at xs ys)
      | KCubic | KOrder 3 => interp_cubic xs ys
      | KQuadratic | KOrder _ => other k xs ys
      end
    else Err ValueError.
End Kinds.
