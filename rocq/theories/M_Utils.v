(** Model of petrofit/utils.py. *)
From Verif Require Import Base Num Numpy.
From Coq Require Import Ascii.

Section Utils.
  Context {T : Type} {N : Num T}.
  Local Open Scope num_scope.

  (** Division: a Python float raises on zero, a numpy float does not. *)
  Inductive flavour := PyFloat | NpFloat.
  Definition fdiv (k : flavour) (x y : T) : result T :=
    match k with
    | NpFloat => Ok (x / y)
    | PyFloat => if neqb y n0 then Err ZeroDivisionError else Ok (x / y)
    end.

  (** utils.py 40-42 *)
  Definition ellip_to_elong (k : flavour) (ellip : T) : result T :=
    fdiv k n1 (n1 - ellip).

  (** utils.py 45-47 *)
  Definition elong_to_ellip (k : flavour) (elong : T) : result T :=
    fdiv k (elong - n1) elong.

  (** utils.py 50-57, log=False branch: [x * max_pix / n for x in range(1, n+1)].
      n is a Python int; a non-positive n gives the empty array. *)
  Definition make_radius_list (max_pix : T) (n : Z) : list T :=
    tabulate (Z.to_nat n) (fun k => nofZ (Z.of_nat k + 1) * max_pix / nofZ n).

  (** utils.py 154-166.  [array <= value] / [array >= value], np.where()[0][0],
      then abs(array[:idx+1] - value).argmin(). *)
  Definition closest_value_index (value : T) (array : list T) (growing : bool)
    : option nat :=
    match find_index (fun x => if growing then nleb value x else nleb x value) array with
    | None => None
    | Some i => argmin (map (fun x => nabs (x - value)) (firstn (S i) array))
    end.

  (** utils.py 122-151.  [num] is a non-negative int.  Returns (x_new, y_new). *)
  Definition get_interpolated_values {K} (mk : interp_oracle) (x y : list T)
      (num : nat) (kind : option K) : result (list T * list T) :=
    match kind with
    | None => Ok (x, y)
    | Some _ =>
        let num := if Nat.ltb num (length x) then length x else num in
        do f <- interp1d mk kind x y;
        do lo <- pymin x;
        do hi <- pymax x;
        let x_new := linspace lo hi num in
        do y_new <- mapM f x_new;
        Ok (x_new, y_new)
    end.

  (** utils.py 211-237.  Integer centre (x, y).  The caller's array is updated in
      place and returned, so the first component is the call's outcome and the
      second the caller's array after the call.
      Simplification: image and target have the same floating dtype. *)
  Definition cutout_subtract (image target : img T) (x y : Z)
    : result (img T) * img T :=
    let dy := Z.of_nat (iny target) in
    let dx := Z.of_nat (inx target) in
    let clip0 b := Z.max b 0 in
    let ymin := clip0 (y - dy / 2)%Z in
    let ymax := clip0 (y + dy / 2)%Z in
    let xmin := clip0 (x - dx / 2)%Z in
    let xmax := clip0 (x + dx / 2)%Z in
    let ny := Z.of_nat (iny image) in
    let nx := Z.of_nat (inx image) in
    let h := slice_len ny ymin ymax in
    let w := slice_len nx xmin xmax in
    let y0 := slice_start ny ymin in
    let x0 := slice_start nx xmin in
    if (bcast_ok h dy && bcast_ok w dx)%bool then
      let out := mkimg (iny image) (inx image) (fun j i =>
        let jj := (Z.of_nat j - y0)%Z in
        let ii := (Z.of_nat i - x0)%Z in
        if ((0 <=? jj) && (jj <? h) && (0 <=? ii) && (ii <? w))%Z%bool then
          px image j i - px target (Z.to_nat (bcast_ix dy jj)) (Z.to_nat (bcast_ix dx ii))
        else px image j i) in
      (Ok out, out)
    else (Err ValueError, image).
End Utils.

(** ** Functions using transcendental operations: exact reals only *)

Definition xpi : xr := Fin PI.

(** numpy power(10, x) *)
Definition xpow10 (x : xr) : xr :=
  match x with NaN => NaN | PInf => PInf | NInf => Fin 0
             | Fin r => Fin (exp (r * ln 10)) end.

(** utils.py 52-55: np.logspace(0, np.log10(max_pix), num=n): 10 ** linspace. *)
Definition make_radius_list_log (max_pix : xr) (n : Z) : result (list xr) :=
  if (n <? 0)%Z then Err ValueError
  else Ok (map xpow10 (linspace (Fin 0) (xlog10 max_pix) (Z.to_nat n))).

(** utils.py 110-114 *)
Definition elliptical_area_to_r (area elong : xr) : xr * xr :=
  let a := xsqrt (xdiv (xmul elong area) xpi) in
  (a, xdiv a elong).

(** utils.py 117-119 *)
Definition circle_area_to_r (area : xr) : xr := xsqrt (xdiv area xpi).

(** utils.py 60-75.  The header provides three positive-or-not numbers. *)
Record hst_header := { PHOTFLAM : xr; PHOTZPT : xr; PHOTPLAM : xr }.

Inductive flux_arg :=
| FluxScalar (x : xr)             (* Python int or float *)
| FluxFloatArray (l : list xr)    (* ndarray / list of floats *)
| FluxIntArray (l : list Z).      (* integer ndarray / list of ints *)

Inductive mag_out := MagScalar (m : xr) | MagArray (l : list xr).

Definition hst_zpt (h : hst_header) : xr :=
  let stmag_zpt := xadd (xmul (nlit (-5) 2) (xlog10 (PHOTFLAM h))) (PHOTZPT h) in
  xadd (xsub stmag_zpt (xmul (nofZ 5) (xlog10 (PHOTPLAM h)))) (nlit 18692 1000).

Definition mag_of (h : hst_header) (f : xr) : xr :=
  xadd (xmul (nlit (-5) 2) (xlog10 f)) (hst_zpt h).

(** [np.array(flux)] copies, so the caller's array is never written.
    Assigning NaN into an integer array raises ValueError ("cannot convert float
    NaN to integer"); numpy converts the value before looking at the index list,
    so this happens even if no entry is selected. *)
Definition hst_flux_to_abmag (flux : flux_arg) (h : hst_header) : result mag_out :=
  match flux with
  | FluxScalar x => if xleb x (Fin 0) then Ok (MagScalar NaN)
                    else Ok (MagScalar (mag_of h x))
  | FluxFloatArray l =>
      let l' := map (fun x => if xleb x (Fin 0) then NaN else x) l in
      Ok (MagArray (map (mag_of h) l'))
  | FluxIntArray _ => Err ValueError
  end.

(** utils.py 85-107.  A unit is its size in degrees; a Quantity is a value with
    a unit.  proj_plane_pixel_scales(wcs) is a pair given by the WCS. *)
Record wcs := { scale0 : xr; scale1 : xr; cunit : xr }.
Record quantity := { qval : xr; qunit : xr }.
Definition arcsec : xr := xdiv (Fin 1) (Fin 3600).
(** value of a quantity expressed in another unit: Quantity.to(unit).value *)
Definition q_to (q : quantity) (unit : xr) : xr := xmul (qval q) (xdiv (qunit q) unit).

(** np.allclose of two scalars, default tolerances *)
Definition xallclose (a b : xr) : bool :=
  xeqb a b ||
  (xfin a && xfin b &&
   xleb (xabs (xsub a b)) (xadd (nlit 1 100000000) (xmul (nlit 1 100000) (xabs b)))).

Definition angular_to_pixel (d : quantity) (w : wcs) : result xr :=
  assert_ (xallclose (scale0 w) (scale1 w))
    (let pixel_scale := {| qval := scale0 w; qunit := cunit w |} in
     Ok (xdiv (qval d) (q_to pixel_scale (qunit d)))).

Definition pixel_to_angular (s : xr) (w : wcs) : result quantity :=
  assert_ (xallclose (scale0 w) (scale1 w))
    (let pixel_scale := {| qval := scale0 w; qunit := cunit w |} in
     Ok {| qval := xmul s (q_to pixel_scale arcsec); qunit := arcsec |}).

(** ** natural_sort, utils.py 33-37

    Characters are the 256 code points of Latin-1; wider Unicode is not modelled. *)

(** A key component: int(text) for a digit run, text.lower() otherwise. *)
Inductive tok := TNum (n : N) | TStr (s : list ascii).

(** the class [0-9] of the regular expression *)
Definition is_digit (c : ascii) : bool :=
  let n := N_of_ascii c in ((48 <=? n) && (n <=? 57))%N.
(** str.isdigit() on one character also accepts superscript one, two, three *)
Definition is_superscript (c : ascii) : bool :=
  let n := N_of_ascii c in ((n =? 178) || (n =? 179) || (n =? 185))%N.
(** str.lower() on Latin-1 *)
Definition lower (c : ascii) : ascii :=
  let n := N_of_ascii c in
  if (((65 <=? n) && (n <=? 90)) || ((192 <=? n) && (n <=? 214))
      || ((216 <=? n) && (n <=? 222)))%N
  then ascii_of_N (n + 32) else c.
Definition digit_val (c : ascii) : N := (N_of_ascii c - 48)%N.
(** int(text) of a run of ASCII digits *)
Definition int_of (s : list ascii) : N :=
  fold_left (fun acc c => acc * 10 + digit_val c)%N s 0%N.

(** longest prefix satisfying p, and the rest *)
Fixpoint span (p : ascii -> bool) (s : list ascii) : list ascii * list ascii :=
  match s with
  | [] => ([], [])
  | c :: cs => if p c then let (a, b) := span p cs in (c :: a, b) else ([], s)
  end.

(** re.split("([0-9]+)", key): text, digits, text, digits, ..., text; the first
    and last pieces are text, possibly empty.  [fuel] bounds the recursion;
    [S (length s)] is always enough. *)
Fixpoint split_runs (fuel : nat) (s : list ascii) : list (list ascii) :=
  match fuel with
  | O => []
  | S fuel =>
      let (text, rest) := span (fun c => negb (is_digit c)) s in
      let (digits, rest') := span is_digit rest in
      match digits with
      | [] => [text]
      | _ => text :: digits :: split_runs fuel rest'
      end
  end.

(** convert: int(text) if text.isdigit() else text.lower();
    int() rejects superscript digits with ValueError. *)
Definition py_isdigit (s : list ascii) : bool :=
  match s with [] => false | _ => forallb (fun c => is_digit c || is_superscript c) s end.
Definition py_int (s : list ascii) : result N :=
  if forallb is_digit s then Ok (int_of s) else Err ValueError.
Definition convert (s : list ascii) : result tok :=
  if py_isdigit s then do n <- py_int s; Ok (TNum n) else Ok (TStr (map lower s)).
Definition alphanum_key (s : list ascii) : result (list tok) :=
  mapM convert (split_runs (S (length s)) s).

(** Python comparison of two strings (code point order). *)
Fixpoint str_lt (a b : list ascii) : bool :=
  match a, b with
  | [], [] => false
  | [], _ :: _ => true
  | _ :: _, [] => false
  | x :: xs, y :: ys =>
      if (N_of_ascii x =? N_of_ascii y)%N then str_lt xs ys
      else (N_of_ascii x <? N_of_ascii y)%N
  end.
Fixpoint str_eq (a b : list ascii) : bool :=
  match a, b with
  | [], [] => true
  | x :: xs, y :: ys => (N_of_ascii x =? N_of_ascii y)%N && str_eq xs ys
  | _, _ => false
  end.

Definition tok_eq (a b : tok) : bool :=
  match a, b with
  | TNum m, TNum n => (m =? n)%N
  | TStr s, TStr t => str_eq s t
  | _, _ => false
  end.
(** int < str raises TypeError *)
Definition tok_lt (a b : tok) : result bool :=
  match a, b with
  | TNum m, TNum n => Ok (m <? n)%N
  | TStr s, TStr t => Ok (str_lt s t)
  | _, _ => Err TypeError
  end.
(** list < list: compare at the first position where the entries are not equal *)
Fixpoint key_lt (a b : list tok) : result bool :=
  match a, b with
  | [], [] => Ok false
  | [], _ :: _ => Ok true
  | _ :: _, [] => Ok false
  | x :: xs, y :: ys => if tok_eq x y then key_lt xs ys else tok_lt x y
  end.

(** sorted(): modelled as a stable insertion sort on (key, element) pairs using
    only [<] on keys (any stable comparison sort gives the same list when the
    keys are totally preordered, which is proved). *)
Fixpoint insert_key {A} (ka : list tok * A) (l : list (list tok * A))
  : result (list (list tok * A)) :=
  match l with
  | [] => Ok [ka]
  | kb :: rest =>
      do b <- key_lt (fst kb) (fst ka);
      if b then do r <- insert_key ka rest; Ok (kb :: r)
      else Ok (ka :: l)
  end.
Fixpoint sort_keys {A} (l : list (list tok * A)) : result (list (list tok * A)) :=
  match l with
  | [] => Ok []
  | ka :: rest => do r <- sort_keys rest; insert_key ka r
  end.

(** An element of the argument list: a string, or a number (re.split on a number
    raises TypeError; keys are computed for every element before sorting). *)
Inductive nat_sort_item := IStr (s : list ascii) | INum (z : Z).
Definition item_key (x : nat_sort_item) : result (list tok * nat_sort_item) :=
  match x with
  | IStr s => do k <- alphanum_key s; Ok (k, x)
  | INum _ => Err TypeError
  end.
Definition natural_sort (l : list nat_sort_item) : result (list nat_sort_item) :=
  do kl <- mapM item_key l;
  do sl <- sort_keys kl;
  Ok (map snd sl).
