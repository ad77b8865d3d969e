(** Interpolation by cubic splines: what scipy's interp1d(x, y, kind="cubic") computes on sorted abscissae (the call in
    petrofit/utils.py get_interpolated_values and petrofit/petrosian/core.py lines 294-330; "cubic" is the default).
    scipy solves for B-spline coefficients, here the same spline is found from the equations for its curvatures at
    the knots.  Cubic polynomials in each step, "not-a-knot" ends.  Fewer than four samples raise ValueError, as do
    unequal lengths. *)
From Verif Require Import Base Num Numpy M_Petrosian M_Interp.

Section Cubic.
  Context {T : Type} {N : Num T}.
  Local Open Scope num_scope.

  (** Gaussian elimination for rows (a, b, c, d) of a tridiagonal system a m' + b m + c m'' = d; on entry the unknown
      before the first row is dp - cp * (the first one) *)
  Fixpoint thomas (cp dp : T) (rows : list (T * T * T * T)) : list T :=
    match rows with
    | [] => []
    | (a, b, c, d) :: rest =>
        let den := b - a * cp in
        let ms := thomas (c / den) ((d - a * dp) / den) rest in
        ((d - a * dp) / den - c / den * hd n0 ms) :: ms
    end.

  Definition step_at (l : list T) (i : nat) : T := nth (S i) l nnan - nth i l nnan.

  (** row of the inner knot S i, 0 <= i < n - 2 *)
  Definition spline_row (xs ys : list T) (i : nat) : T * T * T * T :=
    let h0 := step_at xs i in
    let h1 := step_at xs (S i) in
    let d := nofZ 3 * (step_at ys (S i) / h1 - step_at ys i / h0) in
    if Nat.eqb i 0 then (n0, (h0 + h1) * (n2 + h0 / h1), (h0 + h1) * (n1 - h0 / h1), d)
    else if Nat.eqb i (length xs - 3) then ((h0 + h1) * (n1 - h1 / h0), (h0 + h1) * (n2 + h1 / h0), n0, d)
    else (h0, n2 * (h0 + h1), h1, d).

  (** half the curvatures at the knots *)
  Definition spline_curvatures (xs ys : list T) : list T :=
    let n := length xs in
    let ms := thomas n0 n0 (map (spline_row xs ys) (seq 0 (n - 2))) in
    let m i := nth i ms nnan in
    (m 0%nat + step_at xs 0 / step_at xs 1 * (m 0%nat - m 1%nat))
      :: ms ++ [m (n - 3)%nat + step_at xs (n - 2) / step_at xs (n - 3) * (m (n - 3)%nat - m (n - 4)%nat)].

  (** the polynomial between two knots *)
  Definition spline_piece (x0 x1 y0 y1 c0 c1 q : T) : T :=
    let h := x1 - x0 in
    let t := q - x0 in
    let d := (c1 - c0) / (nofZ 3 * h) in
    let b := (y1 - y0) / h - h * (n2 * c0 + c1) / nofZ 3 in
    y0 + b * t + c0 * (t * t) + d * (t * t * t).

  Fixpoint cubic_at (xs ys cs : list T) (q : T) : T :=
    match xs, ys, cs with
    | x0 :: ((x1 :: rest) as xs'), y0 :: ((y1 :: _) as ys'), c0 :: ((c1 :: _) as cs') =>
        if nleb q x1 then spline_piece x0 x1 y0 y1 c0 c1 q
        else match rest with
             | [] => spline_piece x0 x1 y0 y1 c0 c1 q
             | _ => cubic_at xs' ys' cs' q
             end
    | _, _, _ => nnan
    end.

  Definition interp_cubic (xs ys : list T) : result (T -> T) :=
    if Nat.eqb (length xs) (length ys)
    then if Nat.ltb (length xs) 4 then Err ValueError
         else let cs := spline_curvatures xs ys in Ok (cubic_at xs ys cs)
    else Err ValueError.

  (** kind="cubic" and the same as an order; the other kinds are interpolated linearly here *)
  Definition mk_cubic (k : kind) (xs ys : list T) : result (T -> T) :=
    match k with
    | KCubic | KOrder 3 => interp_cubic xs ys
    | _ => mk_linear k xs ys
    end.
End Cubic.
