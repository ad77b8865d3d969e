(** Model of petrofit/petrosian/correction.py. *)
From Coq Require Import String.
From Verif Require Import Base Num Numpy M_Utils M_Petrosian.

(** ** astropy Table: column names and rows (all columns numeric) *)
Section Table.
  Context {T : Type} {N : Num T}.

  Record table := mktable { t_names : list string; t_rows : list (list T) }.

  Definition col_index (t : table) (name : string) : option nat :=
    find_index (String.eqb name) (t_names t).
  (** t[name] as an array; KeyError for an unknown column *)
  Definition column (t : table) (name : string) : result (list T) :=
    match col_index t name with
    | None => Err KeyError
    | Some c => Ok (map (fun r => nth c r nnan) (t_rows t))
    end.
  (** t[i][name] *)
  Definition cell (t : table) (i : nat) (name : string) : result T :=
    match nth_error (t_rows t) i with
    | None => Err IndexError
    | Some r => match col_index t name with
                | None => Err KeyError
                | Some c => Ok (nth c r nnan)
                end
    end.
  (** Table(rows=rows, names=names) for at least one row *)
  Definition Table_rows (rows : list (list T)) (names : list string) : result table :=
    if forallb (fun r => Nat.eqb (List.length r) (List.length names)) rows
    then Ok (mktable names rows) else Err ValueError.

  (** correction.py 412-419 *)
  Definition grid_keys (t : table) : list string := t_names t.

  (** np.unique: sorted, without repetitions *)
  Fixpoint insert (x : T) (l : list T) : list T :=
    match l with
    | [] => [x]
    | y :: ys => if nleb x y then x :: l else y :: insert x ys
    end.
  Definition nsort (l : list T) : list T := fold_right insert [] l.
  Fixpoint dedup (l : list T) : list T :=
    match l with
    | x :: ((y :: _) as tl) => if neqb x y then dedup tl else x :: dedup tl
    | _ => l
    end.
  Definition np_unique (l : list T) : list T := dedup (nsort l).
  (** correction.py 417-419 *)
  Definition unique_grid_values (t : table) (key : string) : result (list T) :=
    do c <- column t key; Ok (np_unique c).
  (** correction.py 421-424 *)
  Definition filter_grid (t : table) (key : string) (v : T) : result table :=
    match col_index t key with
    | None => Err KeyError
    | Some c => Ok (mktable (t_names t) (filter (fun r => neqb (nth c r nnan) v) (t_rows t)))
    end.
End Table.
Arguments table : clear implicits.

(** ** class PetrosianCorrection *)
Section Correction.
  Context {T : Type} {N : Num T} {NL : NumLog T}.
  Local Open Scope num_scope.
  Variable mk : kind -> list T -> list T -> result (T -> T).

  Definition nlen (l : list T) : T := nofnat (List.length l).
  (** np.std *)
  Definition mean (l : list T) : T := nsum l / nlen l.
  Definition std (l : list T) : T :=
    let m := mean l in nsqrt (nsum (map (fun x => (x - m) * (x - m)) l) / nlen l).
  (** np.min / np.max: NaN when an entry is NaN *)
  Definition npmin (l : list T) : result T :=
    do m <- pymin l; Ok (if any_nan l then nnan else m).
  Definition npmax (l : list T) : result T :=
    do m <- pymax l; Ok (if any_nan l then nnan else m).

  Record correction := mkcor {
    c_grid : table T; c_enforce : bool; c_x : list T; c_y : list T; c_z : list T }.

  (** what the user can pass as grid *)
  Inductive grid_arg := GTable (t : table T) | GStr | GOther.

  (** correction.py 347-381 *)
  Definition PetrosianCorrection_new (g : grid_arg) (enforce : bool) : result correction :=
    match g with
    | GStr | GOther => Err TypeError
    | GTable t =>
        do x <- column t "p02";
        do y <- column t "u_r_50";
        do z <- column t "u_c2080";
        Ok (mkcor t enforce x y z)
    end.

  Definition cubic : option kind := Some KCubic.
  Definition num5000 : nat := 50 * 100.

  (** correction.py 383-394: default interpolation whatever p's settings are; all four
      radii are computed although only eta=0.2 is used *)
  Definition get_xyz_from_p (p : petrosian T) : result (T * T * T) :=
    let rad eta := do x <- calculate_petrosian_r mk (d_r (p_data p)) (p_list p) None eta cubic num5000;
                   Ok (fst x) in
    do p02 <- rad (nlit 1 5);
    do _ <- rad (nlit 3 10);
    do _ <- rad (nlit 2 5);
    do _ <- rad (nlit 1 2);
    do y0 <- obj_fraction mk p half;
    do z0 <- obj_concentration mk p (nlit 1 5) (nlit 4 5);
    Ok (p02, fst y0, snd z0).

  (** correction.py 426-441; the three weights are 100 *)
  Definition dr (c : correction) (x0 y0 z0 : T) : list T :=
    let sx := std (c_x c) in
    let sy := std (c_y c) in
    let sz := std (c_z c) in
    let d v v0 s := nofZ 100 * (v - v0) / s in
    map2 (fun xy z => nsqrt (fst xy * fst xy + snd xy * snd xy + z * z))
      (map2 pair (map (fun x => d x x0 sx) (c_x c)) (map (fun y => d y y0 sy) (c_y c)))
      (map (fun z => d z z0 sz) (c_z c)).

  (** correction.py 443-452 *)
  Definition in_range (l : list T) (v : T) : result bool :=
    do lo <- npmin l;
    do hi <- npmax l;
    Ok (nleb lo v && nleb v hi)%bool.
  Definition validate_input (c : correction) (x0 y0 z0 : T) : result unit :=
    do bx <- in_range (c_x c) x0;
    assert_ bx (
    do by_ <- in_range (c_y c) y0;
    assert_ by_ (
    do bz <- in_range (c_z c) z0;
    assert_ bz (Ok tt))).

  (** correction.py 454-459; returns the row number *)
  Definition closest_row (c : correction) (x0 y0 z0 : T) : result nat :=
    do _ <- (if c_enforce c then validate_input c x0 y0 z0 else Ok tt);
    match argmin (dr c x0 y0 z0) with
    | None => Err ValueError
    | Some i => Ok i
    end.

  (** correction.py 461-464 *)
  Definition get_corrected_row (c : correction) (p : petrosian T) : result nat :=
    do m <- get_xyz_from_p p;
    closest_row c (fst (fst m)) (snd (fst m)) (snd m).

  (** correction.py 472-478 *)
  Definition estimate_n (c : correction) (p : petrosian T) : result T :=
    do i <- get_corrected_row c p; cell (c_grid c) i "n".

  (** correction.py 355, 497-504: the keys of eta_keys *)
  Definition eta_key (eta : T) : option string :=
    if neqb eta (nlit 1 5) then Some "p02"%string
    else if neqb eta (nlit 3 10) then Some "p03"%string
    else if neqb eta (nlit 2 5) then Some "p04"%string
    else if neqb eta (nlit 1 2) then Some "p05"%string
    else None.

  (** correction.py 486-508, after the row has been found *)
  Definition epsilon_of_row (t : table T) (i : nat) (epsilon_fraction eta : T) : result T :=
    do r_ep <- (if neqb epsilon_fraction (nlit 1 2) then cell t i "c_r_eff"
                else if neqb epsilon_fraction (nlit 4 5) then cell t i "c_r_80"
                else if neqb epsilon_fraction (nlit 99 100) then cell t i "c_r_99"
                else Err ValueError);
    match eta_key eta with
    | None => Err ValueError
    | Some key => do r_p <- cell t i key; Ok (r_ep / r_p)
    end.

  (** correction.py 480-508 *)
  Definition estimate_epsilon (c : correction) (p : petrosian T) : result T :=
    do i <- get_corrected_row c p;
    epsilon_of_row (c_grid c) i (s_epsilon_fraction (p_set p)) (s_eta (p_set p)).

  (** correction.py 466-470, on values (copy() of the object is a new object sharing the
      arrays, see M_CorHeap) *)
  Definition correct (c : correction) (p : petrosian T) : result (petrosian T) :=
    do e <- estimate_epsilon c p;
    Ok (do_assign p (Set_epsilon e)).
End Correction.
Arguments correction : clear implicits.
Arguments grid_arg : clear implicits.

(** ** generate_petrosian_sersic_correction *)

(** Python range(a, b, step), step > 0 *)
Definition py_range (a b step : Z) : list Z :=
  map (fun k => (a + Z.of_nat k * step)%Z) (seq 0 (Z.to_nat ((b - a + step - 1) / step))).

(** correction.py 46-57: the radii, from m = int(max_r) and the test max_r >= 200 *)
Definition sim_radii (big : bool) (m : Z) : list Z :=
  if big then py_range 1 201 2 ++ py_range 300 (m + 100) 100
  else py_range 1 (m + 2) 2.

(** builtin max of integers *)
Definition zmax (l : list Z) : result Z :=
  match l with [] => Err ValueError | x :: xs => Ok (fold_left Z.max xs x) end.

(** correction.py 59-62: radii, image size, x_0 = y_0 *)
Definition sim_geometry (big : bool) (m : Z) : result (list Z * Z * Z) :=
  let r := sim_radii big m in
  do mx <- zmax r;
  let size := (mx * 2)%Z in
  Ok (r, size, (size / 2)%Z).

Section Generate.
  Context {T : Type} {N : Num T} {NL : NumLog T}.
  Local Open Scope num_scope.
  Variable mk : kind -> list T -> list T -> result (T -> T).

  (** correction.py 46-57: max_r, then int(max_r) *)
  Definition sim_max_r (r_eff n r_total_flux : T) : T :=
    if nltb r_eff (nofZ 7) && nltb n n1 then r_total_flux * nofZ 50
    else if nltb n n2 then r_total_flux * nofZ 3 else r_total_flux * nlit 13 10.
  Definition int_of (x : T) : result Z :=
    match ntrunc x with
    | Some z => Ok z
    | None => Err (if nisnan x then ValueError else OverflowError)
    end.

  (** The simulated galaxy: sersic_enclosed(inf), sersic_enclosed_inv(total*fraction), and
      the photometry of the model image at integer radii (flux and area arrays). *)
  Variable sersic_total : T -> T -> T.
  Variable sersic_radius : T -> T -> T -> T.
  Variable simulate : T -> T -> list Z -> Z -> Z -> result (list T * list T).

  (** np.unique(a, return_index=True)[1]: position of the first occurrence of each value,
      in increasing order of value *)
  Fixpoint insert_ix (x : T * nat) (l : list (T * nat)) : list (T * nat) :=
    match l with
    | [] => [x]
    | y :: ys => if nleb (fst x) (fst y) then x :: l else y :: insert_ix x ys
    end.
  Definition sort_ix (l : list T) : list (T * nat) :=
    fold_right insert_ix [] (combine l (seq 0 (List.length l))).
  Fixpoint first_of_runs (prev : option T) (l : list (T * nat)) : list (T * nat) :=
    match l with
    | [] => []
    | x :: xs => match prev with
                 | Some v => if neqb v (fst x) then first_of_runs prev xs
                             else x :: first_of_runs (Some (fst x)) xs
                 | None => x :: first_of_runs (Some (fst x)) xs
                 end
    end.
  Definition unique_index (l : list T) : list (T * nat) := first_of_runs None (sort_ix l).

  Definition default_settings : psettings T :=
    mkset (nlit 1 5) n2 (nlit 99 100) (nlit 99 100) cubic num5000.

  (** correction.py 24-184 with plot=False *)
  Definition generate_row (r_eff n : T) : result (list T) :=
    let L_total := sersic_total r_eff n in
    let total_flux := L_total * nlit 99 100 in
    let r_20 := sersic_radius r_eff n (total_flux * nlit 1 5) in
    let r_80 := sersic_radius r_eff n (total_flux * nlit 4 5) in
    let r_tot := sersic_radius r_eff n (total_flux * n1) in
    let max_r := sim_max_r r_eff n r_tot in
    do m <- int_of max_r;
    do g <- sim_geometry (nleb (nofZ 200) max_r) m;
    let radii := fst (fst g) in
    do fa <- simulate r_eff n radii (snd (fst g)) (snd g);
    let r_list := map nofZ radii in
    let flux_list := fst fa in
    let area_list := snd fa in
    do p <- Petrosian_new (mkdata DFloat r_list area_list flux_list None None) default_settings;
    do c <- obj_concentration mk p (nlit 1 5) (nlit 4 5);
    if nisnan (fst (fst c)) || nisnan (snd (fst c)) || nisnan (snd c) then Err GenericException else
    let ix := unique_index flux_list in
    do f <- interp1d mk (Some KLinear) (map fst ix) (map (fun p => nth (snd p) r_list nnan) ix);
    do model_r_total_flux <- f total_flux;
    do model_r_80 <- f (total_flux * nlit 4 5);
    do rp <- obj_r_petrosian mk p;
    let corrected_epsilon := model_r_total_flux / rp in
    let corrected_epsilon_80 := model_r_80 / rp in
    let corrected_p := do_assign p (Set_epsilon corrected_epsilon) in
    do pl <- calculate_petrosian DFloat area_list flux_list None None;
    let rad eta := do x <- calculate_petrosian_r mk r_list (fst pl) None eta cubic num5000;
                   Ok (fst x) in
    do p02 <- rad (nlit 1 5);
    do p03 <- rad (nlit 3 10);
    do p04 <- rad (nlit 2 5);
    do p05 <- rad (nlit 1 2);
    assert_ (neqb (nround6 rp) (nround6 p02)) (
    let frac q a := do x <- obj_fraction mk q a; Ok (fst x) in
    let conc q a b := do x <- obj_concentration mk q a b; Ok (snd x) in
    do u_50 <- frac p half;
    do u_20 <- frac p (nlit 1 5);
    do u_80 <- frac p (nlit 4 5);
    do c_50 <- frac corrected_p half;
    do c_20 <- frac corrected_p (nlit 1 5);
    do c_80 <- frac corrected_p (nlit 4 5);
    do u_99 <- frac p (nlit 99 100);
    do u_c2080 <- conc p (nlit 1 5) (nlit 4 5);
    do u_c5090 <- conc p half (nlit 9 10);
    do c_99 <- frac corrected_p (nlit 99 100);
    do c_c2080 <- conc corrected_p (nlit 1 5) (nlit 4 5);
    do c_c5090 <- conc corrected_p half (nlit 9 10);
    Ok [n; r_eff; r_20; r_80; r_tot; L_total; p02; p03; p04; p05;
        nofZ 5 * nlog10 (p02 / p05); nofZ 5 * nlog10 (p02 / p03);
        s_epsilon (p_set p); u_50 / rp; u_80 / rp; u_50; u_99; u_20; u_80; u_c2080; u_c5090;
        corrected_epsilon; c_50 / rp; corrected_epsilon_80; c_50; c_99; c_20; c_80;
        c_c2080; c_c5090]).

  (** correction.py 295-326 *)
  Definition column_names : list string :=
    ["n"; "r_eff"; "sersic_r_20"; "sersic_r_80"; "sersic_r_99"; "sersic_L_inf"; "p02"; "p03";
     "p04"; "p05"; "p0502"; "p0302"; "u_epsilon"; "u_epsilon_50"; "u_epsilon_80"; "u_r_50";
     "u_r_99"; "u_r_20"; "u_r_80"; "u_c2080"; "u_c5090"; "c_epsilon"; "c_epsilon_50";
     "c_epsilon_80"; "c_r_50"; "c_r_99"; "c_r_20"; "c_r_80"; "c_c2080"; "c_c5090"]%string.

  (** the n_cpu argument: None, a bool or an int *)
  Inductive ncpu := CNone | CBool (b : bool) | CInt (z : Z).
  (** n_cpu is None or n_cpu == 1; True == 1 in Python *)
  Definition serial (c : ncpu) : bool :=
    match c with CNone => true | CBool b => b | CInt z => (z =? 1)%Z end.

  (** astropy ProgressBar.map(multiprocess=c): no pool for a falsy value; otherwise worker
      results arrive in some order [arrived] as (position, result) pairs, an exception is
      re-raised on arrival, and results are sorted by position *)
  Fixpoint insert_pos {A} (x : nat * A) (l : list (nat * A)) : list (nat * A) :=
    match l with
    | [] => [x]
    | y :: ys => if Nat.leb (fst x) (fst y) then x :: l else y :: insert_pos x ys
    end.
  Definition sort_pos {A} (l : list (nat * A)) : list (nat * A) := fold_right insert_pos [] l.
  Definition collect {A} (arrived : list (nat * result A)) : result (list A) :=
    do l <- mapM (fun x => do v <- snd x; Ok (fst x, v)) arrived;
    Ok (map snd (sort_pos l)).
  Definition progress_map {A B} (c : ncpu) (schedule : list (nat * result B) -> list (nat * result B))
      (f : A -> result B) (items : list A) : result (list B) :=
    match c with
    | CNone | CBool false | CInt 0 => mapM f items
    | CInt (Zneg _) => Err ValueError
    | CBool true | CInt (Zpos _) =>
        collect (schedule (combine (seq 0 (List.length items)) (map f items)))
    end.

  (** correction.py 253-291: argument list, n outer and r_eff inner *)
  Definition gen_args (n_list r_eff_list : list T) : list (T * T) :=
    flat_map (fun n => map (fun r => (r, n)) r_eff_list) n_list.

  (** correction.py 187-339 for explicit lists; [job] is _generate_petrosian_correction;
      [write] is the outcome of saving, which is ignored *)
  Definition generate (job : T -> T -> result (list T)) (n_list r_eff_list : list T) (c : ncpu)
      (plot : bool) (schedule : list (nat * result (list T)) -> list (nat * result (list T)))
      (write : table T -> result unit) : result (table T) :=
    let n_list := map nround6 n_list in
    let args := gen_args n_list r_eff_list in
    let f := fun a => job (fst a) (snd a) in
    do rows <- (if serial c then mapM f args
                else assert_ (negb plot) (progress_map c schedule f args));
    do t <- Table_rows rows column_names;
    match write t with Ok _ => Ok t | Err _ => Ok t end.
End Generate.
