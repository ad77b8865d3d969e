(** Piecewise linear interpolation, one concrete instance of the interpolation oracle
    (scipy interp1d kind="linear" on sorted abscissae; used in examples and executable
    checks, the theorems hold for every oracle). *)
From Verif Require Import Base Num Numpy M_Petrosian.

Section Linear.
  Context {T : Type} {N : Num T}.
  Local Open Scope num_scope.

  Fixpoint linear_at (xs ys : list T) (q : T) : T :=
    match xs, ys with
    | x0 :: ((x1 :: rest) as xs'), y0 :: ((y1 :: _) as ys') =>
        if nleb q x1 then (y1 - y0) / (x1 - x0) * (q - x0) + y0
        else match rest with
             | [] => (y1 - y0) / (x1 - x0) * (q - x0) + y0
             | _ => linear_at xs' ys' q
             end
    | _, _ => nnan
    end.

  (** every kind is interpolated linearly *)
  Definition mk_linear (k : kind) (xs ys : list T) : result (T -> T) :=
    if Nat.eqb (length xs) (length ys) then Ok (linear_at xs ys) else Err ValueError.
End Linear.
