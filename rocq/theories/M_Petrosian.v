(** Model of petrofit/petrosian/core.py. *)
From Coq Require Import String.
From Verif Require Import Base Num Numpy M_Utils.

(** scipy interp1d kinds *)
Inductive kind : Set :=
| KLinear | KNearest | KNearestUp | KZero | KSlinear | KQuadratic | KCubic
| KPrevious | KNext | KOrder (n : nat).

(** element type of a numpy array *)
Inductive dtype : Set := DFloat | DInt.

(** log10, only available for some scalar types *)
Class NumLog (T : Type) := { nlog10 : T -> T }.
Global Instance XRlog : NumLog xr := {| nlog10 := xlog10 |}.

Section Petrosian.
  Context {T : Type} {N : Num T}.
  Local Open Scope num_scope.

  (** numpy elementwise binary operation with broadcasting of length-1 operands *)
  Definition np_map2 (f : T -> T -> T) (a b : list T) : result (list T) :=
    if Nat.eqb (length a) (length b) then Ok (map2 f a b)
    else match a, b with
         | [x], _ => Ok (map (f x) b)
         | _, [y] => Ok (map (fun x => f x y) a)
         | _, _ => Err ValueError
         end.

  (** value stored when a float is assigned into an array of the given dtype
      (int64 truncates towards zero; a float that is not representable becomes
      INT64_MIN, as on x86-64) *)
  Definition store (d : dtype) (x : T) : T :=
    match d with
    | DFloat => x
    | DInt => match ntrunc x with
              | Some z => if ((- 2 ^ 63 <=? z) && (z <? 2 ^ 63))%Z%bool then nofZ z
                          else nofZ (- 2 ^ 63)
              | None => nofZ (- 2 ^ 63)
              end
    end.

  (** np.unique(a, return_inverse=True)[1] for a non-decreasing array: the rank of
      each entry among the distinct values. *)
  Fixpoint ranks_from (prev : T) (k : nat) (l : list T) : list nat :=
    match l with
    | [] => []
    | x :: xs => let k' := if neqb x prev then k else S k in
                 k' :: ranks_from x k' xs
    end.
  Definition ranks (l : list T) : list nat :=
    match l with [] => [] | x :: xs => 0%nat :: ranks_from x 0 xs end.

  (** a[idx] for an index array *)
  Definition gather (a : list T) (idx : list nat) : result (list T) :=
    mapM (fun i => match nth_error a i with Some x => Ok x | None => Err IndexError end) idx.

  Definition sq (x : T) : T := x * x.
  Definition hypot2 (x y : T) : T := nsqrt (sq x + sq y).

  (** core.py 68-73: surface brightness of each annulus and mean within each aperture.
      [d] is the dtype of area_list: I_at_r = zeros_like(area_diff) has that dtype. *)
  Definition I_avg (area flux : list T) : list T := map2 ndiv (tl flux) (tl area).
  Definition I_at (d : dtype) (area flux : list T) : list T :=
    map2 (fun df da => if nltb n0 da then store d (df / da) else n0) (diff flux) (diff area).

  (** core.py 24-124 *)
  Definition calculate_petrosian (d : dtype) (area flux : list T)
      (area_err flux_err : option (list T)) : result (list T * option (list T)) :=
    assert_ (Nat.eqb (length area) (length flux)) (
    assert_ (Nat.ltb 2 (length area)) (
    assert_ (forallb (fun x => nleb n0 x) (diff area)) (
    let area_diff := diff area in
    let flux_diff := diff flux in
    let iavg := I_avg area flux in
    let iat := I_at d area flux in
    let raw := nnan :: map2 ndiv iat iavg in
    let inv := ranks area in
    do petro <- gather raw inv;
    match area_err, flux_err with
    | None, None => Ok (petro, None)
    | _, _ =>
      let ae := match area_err with None => map (fun _ => n0) area | Some l => l end in
      let fe := match flux_err with None => map (fun _ => n0) flux | Some l => l end in
      assert_ (Nat.eqb (length ae) (length area)) (
      assert_ (Nat.eqb (length fe) (length flux)) (
      let area_diff_err := map2 hypot2 ae (tl ae) in
      let flux_diff_err := map2 hypot2 fe (tl fe) in
      let rel_diff := map2 hypot2 (map2 ndiv flux_diff_err flux_diff)
                                  (map2 ndiv area_diff_err area_diff) in
      let iat_err := map2 (fun da e => if nltb n0 da then store d e else n0) area_diff
                       (map2 (fun i s => nabs i * s) iat rel_diff) in
      let rel_avg := map2 hypot2 (map2 ndiv (tl fe) (tl flux)) (map2 ndiv (tl ae) (tl area)) in
      let iavg_err := map2 (fun i s => nabs i * s) iavg rel_avg in
      let rel := map2 hypot2 (map2 ndiv iat_err iat) (map2 ndiv iavg_err iavg) in
      let perr := map2 (fun da e => if nltb n0 da then store d e else n0) area_diff
                    (map2 (fun p s => nabs p * s) (tl petro) rel) in
      (* np.insert(petrosian_err, 0, nan) into an integer array raises *)
      match d with
      | DInt => Err ValueError
      | DFloat =>
          do petro_err <- gather (nnan :: perr) inv;
          Ok (petro, Some petro_err)
      end))
    end))).

  (** the interpolation oracle *)
  Variable mk : kind -> list T -> list T -> result (T -> T).

  Definition index (l : list T) (i : nat) : result T :=
    match nth_error l i with Some x => Ok x | None => Err IndexError end.

  (** radius at the closest sample, NaN when there is none:
      [np.nan if idx is None else r[idx]] *)
  Definition pick (r : list T) (idx : option nat) : result T :=
    match idx with None => Ok nnan | Some i => index r i end.

  (** a[0] = v *)
  Definition set0 (v : T) (l : list T) : result (list T) :=
    match l with [] => Err IndexError | _ :: xs => Ok (v :: xs) end.

  (** core.py 127-219.  np.array() copies, so the caller's arrays are not written. *)
  Definition calculate_petrosian_r (r_list petro : list T) (petro_err : option (list T))
      (eta : T) (ik : option kind) (num : nat) : result (T * T) :=
    do r <- set0 n0 r_list;
    do p <- set0 n1 petro;
    do rp <- get_interpolated_values mk r p num ik;
    do r_petro <- pick (fst rp) (closest_value_index eta (snd rp) false);
    match petro_err with
    | None => Ok (r_petro, nnan)
    | Some e0 =>
        if nisnan r_petro then Ok (r_petro, nnan) else
        do e <- set0 n0 e0;
        do pu <- np_map2 nadd p e;
        do up <- get_interpolated_values mk r pu num ik;
        do r_up <- pick (fst up) (closest_value_index eta (snd up) false);
        do pl <- np_map2 nsub p e;
        do lo <- get_interpolated_values mk r pl num ik;
        do r_lo <- pick (fst lo) (closest_value_index eta (snd lo) false);
        Ok (r_petro, (r_up - r_lo) / n2)
    end.

  (** core.py 222-356.  fraction and epsilon_fraction are Python floats. *)
  Definition fraction_to_r (fraction : T) (r flux : list T) (r_petro : T)
      (flux_err : option (list T)) (r_petro_err : option T)
      (epsilon epsilon_fraction : T) (ik : option kind) (num : nat) : result (T * T) :=
    let r_epsilon := r_petro * epsilon in
    do rmax <- pymax r;
    if nltb rmax r_epsilon then Ok (nnan, nnan) else
    let k := match ik with None => KCubic | Some k => k end in
    do f <- interp1d mk (Some k) r flux;
    do epsilon_flux <- f r_epsilon;
    do q <- fdiv PyFloat fraction epsilon_fraction;
    let fractional_flux := epsilon_flux * q in
    do rf <- get_interpolated_values mk r flux num ik;
    do r_frac <- pick (fst rf) (closest_value_index fractional_flux (snd rf) true);
    match flux_err with
    | None => Ok (r_frac, nnan)
    | Some fe =>
        if nisnan r_frac then Ok (r_frac, nnan) else
        let rerr := match r_petro_err with
                    | None => n0
                    | Some x => if nisnan x then n0 else x
                    end in
        do fl <- np_map2 nsub flux fe;
        do f_lower <- interp1d mk (Some k) r fl;
        do fu <- np_map2 nadd flux fe;
        do f_upper <- interp1d mk (Some k) r fu;
        do e_lower <- f_lower (r_epsilon - rerr);
        do e_upper <- f_upper (r_epsilon + rerr);
        let ferr := (e_upper - e_lower) / n2 in
        let ff_upper := fractional_flux + ferr in
        let ff_lower := fractional_flux - ferr in
        (* defaults num=5000, kind="cubic" of get_interpolated_values *)
        do lo <- get_interpolated_values mk r fl (Z.to_nat 5000) (Some KCubic);
        do r_up <- pick (fst lo) (closest_value_index ff_upper (snd lo) true);
        do up <- get_interpolated_values mk r fu (Z.to_nat 5000) (Some KCubic);
        do r_lo <- pick (fst up) (closest_value_index ff_lower (snd up) true);
        Ok (r_frac, (r_up - r_lo) / n2)
    end.

  Context {NL : NumLog T}.

  (** core.py 359-461 *)
  Definition calculate_concentration_index (fraction_1 fraction_2 : T) (r flux : list T)
      (r_petro : T) (flux_err : option (list T)) (r_petro_err : option T)
      (epsilon epsilon_fraction : T) (ik : option kind) (num : nat)
    : result (T * T * T) :=
    do a <- fraction_to_r fraction_1 r flux r_petro flux_err r_petro_err epsilon
              epsilon_fraction ik num;
    do b <- fraction_to_r fraction_2 r flux r_petro flux_err r_petro_err epsilon
              epsilon_fraction ik num;
    let r1 := fst a in
    let r2 := fst b in
    if nisnan r1 || nisnan r2 then Ok (nnan, nnan, nnan)
    else Ok (r1, r2, nofZ 5 * nlog10 (r2 / r1)).

  (** ** class Petrosian, core.py 464-892 *)

  Record pdata := mkdata {
    d_dtype : dtype;                 (* dtype of area_list *)
    d_r : list T; d_area : list T; d_flux : list T;
    d_area_err : option (list T); d_flux_err : option (list T) }.

  Record psettings := mkset {
    s_eta : T; s_epsilon : T; s_epsilon_fraction : T; s_total_flux_fraction : T;
    s_kind : option kind; s_num : nat }.

  (** The object: copied input arrays, settings, and the profile computed once by
      the constructor. *)
  Record petrosian := mkpet {
    p_data : pdata; p_set : psettings;
    p_list : list T; p_err : option (list T) }.

  (** core.py 564-577.  Arrays are one dimensional in the model. *)
  Definition validate_input_arrays (d : pdata) : result unit :=
    assert_ (Nat.ltb 2 (length (d_r d))) (
    assert_ (Nat.eqb (length (d_r d)) (length (d_flux d))) (
    assert_ (match d_flux_err d with
             | None => true | Some e => Nat.eqb (length (d_flux d)) (length e) end) (
    assert_ (match d_area_err d with
             | None => true | Some e => Nat.eqb (length (d_area d)) (length e) end)
    (Ok tt)))).

  (** core.py 476-589 *)
  Definition Petrosian_new (d : pdata) (s : psettings) : result petrosian :=
    do _ <- validate_input_arrays d;
    do pe <- calculate_petrosian (d_dtype d) (d_area d) (d_flux d) (d_area_err d) (d_flux_err d);
    Ok (mkpet d s (fst pe) (snd pe)).

  (** core.py 591-602 *)
  Definition obj_petro_r (o : petrosian) : result (T * T) :=
    calculate_petrosian_r (d_r (p_data o)) (p_list o) (p_err o) (s_eta (p_set o))
      (s_kind (p_set o)) (s_num (p_set o)).

  (** core.py 743-755 *)
  Definition obj_r_petrosian (o : petrosian) : result T :=
    do x <- obj_petro_r o; Ok (fst x).
  Definition obj_r_petrosian_err (o : petrosian) : result T :=
    do x <- obj_petro_r o; Ok (snd x).

  (** core.py 604-619 *)
  Definition obj_fraction (o : petrosian) (fraction : T) : result (T * T) :=
    do rp <- obj_r_petrosian o;
    do re <- obj_r_petrosian_err o;
    fraction_to_r fraction (d_r (p_data o)) (d_flux (p_data o)) rp (d_flux_err (p_data o))
      (Some re) (s_epsilon (p_set o)) (s_epsilon_fraction (p_set o))
      (s_kind (p_set o)) (s_num (p_set o)).

  (** core.py 621-660 *)
  Definition obj_concentration (o : petrosian) (f1 f2 : T) : result (T * T * T) :=
    do rp <- obj_r_petrosian o;
    do re <- obj_r_petrosian_err o;
    calculate_concentration_index f1 f2 (d_r (p_data o)) (d_flux (p_data o)) rp
      (d_flux_err (p_data o)) (Some re) (s_epsilon (p_set o)) (s_epsilon_fraction (p_set o))
      (s_kind (p_set o)) (s_num (p_set o)).

  (** core.py 757-765 *)
  Definition obj_r_epsilon (o : petrosian) : result T :=
    do rp <- obj_r_petrosian o; Ok (rp * s_epsilon (p_set o)).
  Definition obj_r_epsilon_in_range (o : petrosian) : result bool :=
    do lo <- pymin (d_r (p_data o));
    do re <- obj_r_epsilon o;
    do hi <- pymax (d_r (p_data o));
    Ok (nleb lo re && nleb re hi)%bool.

  (** core.py 779-789 and 807-817 *)
  Definition obj_flux_at (o : petrosian) (r : T) : result T :=
    do lo <- pymin (d_r (p_data o));
    do hi <- pymax (d_r (p_data o));
    if (nleb lo r && nleb r hi)%bool then
      do f <- interp1d mk (s_kind (p_set o)) (d_r (p_data o)) (d_flux (p_data o));
      f r
    else Ok nnan.

  Definition obj_total_flux (o : petrosian) : result T :=
    do r <- obj_fraction o (s_total_flux_fraction (p_set o));
    obj_flux_at o (fst r).

  Definition half : T := nlit 1 2.

  Definition obj_half_flux (o : petrosian) : result T :=
    do r <- obj_fraction o half;
    obj_flux_at o (fst r).

  (** core.py 791-805 *)
  Definition obj_total_flux_err (o : petrosian) : result T :=
    do r <- obj_fraction o (s_total_flux_fraction (p_set o));
    match d_flux_err (p_data o) with
    | None => Ok nnan
    | Some fe =>
        do tf <- obj_total_flux o;
        if nisnan tf then Ok nnan else
        do f <- interp1d mk (Some KNearest) (d_r (p_data o)) fe;
        do e <- f (fst r);
        Ok (nsqrt (sq e + sq (snd r)))
    end.

  (** core.py 464-1249: every attribute of a Petrosian object: class attributes, names
      assigned in __init__ / _update_petrosian, properties and methods. *)
  Definition attributes : list string :=
    ["_eta"; "_epsilon"; "_epsilon_fraction"; "_total_flux_fraction"; "_r_plot_alpha";
     "verbose"; "_r_list"; "_area_list"; "_flux_list"; "_area_err"; "_flux_err";
     "petrosian_list"; "petrosian_err"; "has_petrosian_err"; "interp_kind"; "interp_num";
     "__init__"; "_validate_input_arrays"; "_update_petrosian"; "_calculate_petrosian_r";
     "_calculate_fraction_to_r"; "concentration_index"; "r_list"; "area_list"; "area_err";
     "flux_list"; "flux_err"; "epsilon"; "eta"; "epsilon_fraction"; "total_flux_fraction";
     "r_petrosian"; "r_petrosian_err"; "r_epsilon"; "r_epsilon_in_range"; "r_total_flux";
     "r_total_flux_err"; "total_flux"; "total_flux_err"; "half_flux"; "half_flux_err";
     "r_half_light"; "r_half_light_err"; "r_50"; "r_50_err"; "fraction_flux_to_r";
     "fraction_flux_to_r_err"; "r_half_light_arcsec"; "r_total_flux_arcsec"; "c2080"; "c5090";
     "_plot_radii"; "plot"; "plot_cog"; "imshow"]%string.
  Definition has_attribute (n : string) : bool := existsb (String.eqb n) attributes.
  (** self.<n>, read through [get] when the name exists *)
  Definition getattr {A} (n : string) (get : result A) : result A :=
    if has_attribute n then get else Err AttributeError.

  (** core.py 819-832: reads self.r_half_flux_err first, then self.r_half_flux; what they
      would hold is given by [get_err], [get_r]. *)
  Definition obj_half_flux_err_with (get_err get_r : result T) (o : petrosian) : result T :=
    do rerr <- getattr "r_half_flux_err" get_err;
    match d_flux_err (p_data o) with
    | None => Ok nnan
    | Some fe =>
        do hf <- obj_half_flux o;
        if nisnan hf then Ok nnan else
        do f <- interp1d mk (Some KNearest) (d_r (p_data o)) fe;
        do r <- getattr "r_half_flux" get_r;
        do e <- f r;
        Ok (nsqrt (sq e + sq rerr))
    end.
  Definition obj_half_flux_err (o : petrosian) : result T :=
    obj_half_flux_err_with (do r <- obj_fraction o half; Ok (snd r))
      (do r <- obj_fraction o half; Ok (fst r)) o.

  (** What a user can read from the object. *)
  Inductive attr :=
  | A_petrosian_list | A_petrosian_err
  | A_eta | A_epsilon | A_epsilon_fraction | A_total_flux_fraction
  | A_r_petrosian | A_r_petrosian_err | A_r_epsilon | A_r_epsilon_in_range
  | A_r_total_flux | A_r_total_flux_err | A_total_flux | A_total_flux_err
  | A_half_flux | A_half_flux_err | A_r_half_light | A_r_half_light_err | A_r_50 | A_r_50_err
  | A_fraction_to_r (f : T) | A_fraction_to_r_err (f : T)
  | A_concentration (f1 f2 : T) | A_c2080 | A_c5090.

  Inductive val :=
  | VNum (x : T) | VBool (b : bool) | VList (l : list T) | VOpt (l : option (list T))
  | VTriple (a b c : T).

  Definition num (m : result T) : result val := do x <- m; Ok (VNum x).

  (** core.py 834-843 *)
  Definition obj_r_half_light (o : petrosian) : result T := do r <- obj_fraction o half; Ok (fst r).
  Definition obj_r_half_light_err (o : petrosian) : result T := do r <- obj_fraction o half; Ok (snd r).
  (** core.py 845-853: aliases *)
  Definition obj_r_50 (o : petrosian) : result T := obj_r_half_light o.
  Definition obj_r_50_err (o : petrosian) : result T := obj_r_half_light_err o.

  Definition read (o : petrosian) (a : attr) : result val :=
    match a with
    | A_petrosian_list => Ok (VList (p_list o))
    | A_petrosian_err => Ok (VOpt (p_err o))
    | A_eta => Ok (VNum (s_eta (p_set o)))
    | A_epsilon => Ok (VNum (s_epsilon (p_set o)))
    | A_epsilon_fraction => Ok (VNum (s_epsilon_fraction (p_set o)))
    | A_total_flux_fraction => Ok (VNum (s_total_flux_fraction (p_set o)))
    | A_r_petrosian => num (obj_r_petrosian o)
    | A_r_petrosian_err => num (obj_r_petrosian_err o)
    | A_r_epsilon => num (obj_r_epsilon o)
    | A_r_epsilon_in_range => do b <- obj_r_epsilon_in_range o; Ok (VBool b)
    | A_r_total_flux =>
        num (do r <- obj_fraction o (s_total_flux_fraction (p_set o)); Ok (fst r))
    | A_r_total_flux_err =>
        num (do r <- obj_fraction o (s_total_flux_fraction (p_set o)); Ok (snd r))
    | A_total_flux => num (obj_total_flux o)
    | A_total_flux_err => num (obj_total_flux_err o)
    | A_half_flux => num (obj_half_flux o)
    | A_half_flux_err => num (obj_half_flux_err o)
    | A_r_half_light => num (do r <- obj_fraction o half; Ok (fst r))
    | A_r_half_light_err => num (do r <- obj_fraction o half; Ok (snd r))
    | A_r_50 => num (obj_r_50 o)
    | A_r_50_err => num (obj_r_50_err o)
    | A_fraction_to_r f => num (do r <- obj_fraction o f; Ok (fst r))
    | A_fraction_to_r_err f => num (do r <- obj_fraction o f; Ok (snd r))
    | A_concentration f1 f2 =>
        do t <- obj_concentration o f1 f2;
        Ok (VTriple (fst (fst t)) (snd (fst t)) (snd t))
    | A_c2080 => num (do t <- obj_concentration o (nlit 1 5) (nlit 4 5); Ok (snd t))
    | A_c5090 => num (do t <- obj_concentration o half (nlit 9 10); Ok (snd t))
    end.

  (** Assignments a user can make (setters 695-741 and plain attributes). *)
  Inductive assign :=
  | Set_eta (x : T) | Set_epsilon (x : T) | Set_epsilon_fraction (x : T)
  | Set_total_flux_fraction (x : T) | Set_kind (k : option kind) | Set_num (n : nat).

  Definition assign_settings (s : psettings) (a : assign) : psettings :=
    match a with
    | Set_eta x => mkset x (s_epsilon s) (s_epsilon_fraction s) (s_total_flux_fraction s) (s_kind s) (s_num s)
    | Set_epsilon x => mkset (s_eta s) x (s_epsilon_fraction s) (s_total_flux_fraction s) (s_kind s) (s_num s)
    | Set_epsilon_fraction x => mkset (s_eta s) (s_epsilon s) x (s_total_flux_fraction s) (s_kind s) (s_num s)
    | Set_total_flux_fraction x => mkset (s_eta s) (s_epsilon s) (s_epsilon_fraction s) x (s_kind s) (s_num s)
    | Set_kind k => mkset (s_eta s) (s_epsilon s) (s_epsilon_fraction s) (s_total_flux_fraction s) k (s_num s)
    | Set_num n => mkset (s_eta s) (s_epsilon s) (s_epsilon_fraction s) (s_total_flux_fraction s) (s_kind s) n
    end.

  Definition do_assign (o : petrosian) (a : assign) : petrosian :=
    mkpet (p_data o) (assign_settings (p_set o) a) (p_list o) (p_err o).

  (** One user action and its observable outcome. *)
  Inductive action := Assign (a : assign) | Read (a : attr).
  Definition act (o : petrosian) (x : action) : petrosian * option (result val) :=
    match x with
    | Assign a => (do_assign o a, None)
    | Read a => (o, Some (read o a))
    end.
  Definition run (o : petrosian) (h : list action) : petrosian :=
    fold_left (fun o x => fst (act o x)) h o.
End Petrosian.
Arguments petrosian : clear implicits.
Arguments pdata : clear implicits.
Arguments psettings : clear implicits.
