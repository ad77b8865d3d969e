(** Model of the image-making part of petrofit/modeling/models.py: make_grid and
    PSFConvolvedModel2D (setters, grid cache, evaluate, wrapping of parameters), and the default
    bounds functions.

    Oracles: the wrapped sub-model (any elementwise function of the coordinates and parameters),
    scipy.ndimage.rotate.  scipy.signal.convolve(mode="same") is the exact finite sum (scipy may
    use an FFT), astropy's block_reduce is the exact block sum. *)
From Coq Require Import String.
From Verif Require Import Base Num Numpy.
Local Open Scope list_scope.

Section PSF.
  Context {T : Type} {N : Num T}.
  Local Open Scope num_scope.

  Definition half : T := nlit 1 2.

  (** one axis of make_grid, models.py:112-115: (arange(0.5, size*factor, 1) / factor) - 0.5 + origin *)
  Definition grid_coord (origin : T) (factor : Z) (k : nat) : T :=
    ((half + nofnat k) / nofZ factor - half) + origin.

  (** make_grid, models.py:97-117.  arange(0.5, n, 1) has n entries for a whole n >= 0 and none
      otherwise.  The factor is a Python int (line 111 asserts it). *)
  Definition grid := (img T * img T)%type.
  Definition make_grid (size : Z) (origin : T * T) (factor : Z) : grid :=
    let n := Z.to_nat (size * factor) in
    (mkimg n n (fun _ i => grid_coord (fst origin) factor i),
     mkimg n n (fun j _ => grid_coord (snd origin) factor j)).

  (** astropy block_reduce(m, f) (sum of f x f blocks, incomplete blocks dropped) divided by f**2 *)
  Definition block_mean (m : img T) (f : nat) : img T :=
    mkimg (iny m / f)%nat (inx m / f)%nat
      (fun J I => nsum (flat_map (fun a => map (fun b => px m (J * f + a)%nat (I * f + b)%nat) (seq 0 f)) (seq 0 f))
                  / (nofZ (Z.of_nat (f * f)))).

  (** pixel of an image extended by zeros *)
  Definition zpx (m : img T) (j i : Z) : T :=
    if ((0 <=? j) && (j <? Z.of_nat (iny m)) && (0 <=? i) && (i <? Z.of_nat (inx m)))%Z
    then px m (Z.to_nat j) (Z.to_nat i) else n0.

  (** scipy.signal.convolve(m, psf, mode="same"): the centre part of the full convolution *)
  Definition convolve_same (m psf : img T) : img T :=
    mkimg (iny m) (inx m) (fun j i =>
      nsum (flat_map (fun a => map (fun b =>
        px psf a b * zpx m (Z.of_nat j + (Z.of_nat (iny psf) - 1) / 2 - Z.of_nat a)%Z
                           (Z.of_nat i + (Z.of_nat (inx psf) - 1) / 2 - Z.of_nat b)%Z)
        (seq 0 (inx psf))) (seq 0 (iny psf)))).

  (** ** Settings *)

  (** Python values given to the setters; bool counts as its int value.  [VSeq] is a tuple or
      list, [VArr n] a 1-D numpy array of length n (its entries are never Python ints). *)
  Inductive pyv := VNone | VInt (z : Z) | VFloat (x : T) | VStr (s : string) | VSeq (l : list pyv)
                 | VArr (n : nat) | VOther.

  (** stored oversample value: an int, or (x, y, size, factor) *)
  Inductive over := OInt (f : Z) | OWin (cx cy : pyv) (size f : Z).

  (** instance attributes, models.py:156-164 *)
  Record pst := mkpst {
    p_over : option over;
    p_psf_over : option Z;
    p_psf : option (img T);
    p_cache : bool;                      (* _cache_grid *)
    p_csize : Z;                         (* _cached_grid_size *)
    p_cfactor : Z;                       (* _cached_grid_factor *)
    p_cgrid : option grid;               (* _cached_grid *)
    p_crange : option (T * T * T * T)    (* _cache_grid_range *)
  }.

  Definition with_over st o := mkpst o (p_psf_over st) (p_psf st) (p_cache st) (p_csize st) (p_cfactor st) (p_cgrid st) (p_crange st).
  Definition with_psf st p := mkpst (p_over st) (p_psf_over st) p (p_cache st) (p_csize st) (p_cfactor st) (p_cgrid st) (p_crange st).
  Definition with_psf_over st k := mkpst (p_over st) k (p_psf st) (p_cache st) (p_csize st) (p_cfactor st) (p_cgrid st) (p_crange st).
  Definition with_cache st b := mkpst (p_over st) (p_psf_over st) (p_psf st) b (p_csize st) (p_cfactor st) (p_cgrid st) (p_crange st).
  Definition with_grid st sz f g r := mkpst (p_over st) (p_psf_over st) (p_psf st) (p_cache st) sz f g r.

  (** class attributes before __init__ *)
  Definition blank : pst := mkpst None None None true 0 0 None None.

  (** _get_oversample_factor, models.py:319-323; _get_psf_factor, 325-326 *)
  Definition over_factor (st : pst) : Z :=
    match p_over st with None => 1 | Some (OInt f) => f | Some (OWin _ _ _ f) => f end.
  Definition psf_factor (st : pst) : Z := match p_psf_over st with None => 1 | Some k => k end.

  (** psf setter, models.py:257-263: never rejects; the boolean says whether it warns *)
  Definition img_sum (m : img T) : T :=
    nsum (flat_map (fun j => map (fun i => px m j i) (seq 0 (inx m))) (seq 0 (iny m))).
  Definition set_psf (st : pst) (psf : option (img T)) : pst * bool :=
    (with_psf st psf,
     match psf with None => false | Some p => negb (nround6 (img_sum p) =? n1) end).

  (** oversample setter, models.py:270-295; the object after the assignment is returned also when
      it raises *)
  Definition set_oversample (st : pst) (v : pyv) : result unit * pst :=
    let check (o : over) (grid_factor : Z) :=
      if (grid_factor <=? 0)%Z then (Err ValueError, st)
      else if negb (grid_factor mod psf_factor st =? 0)%Z then (Err ValueError, st)
      else (Ok tt, with_over st (Some o)) in
    match v with
    | VNone => (Ok tt, with_over st None)
    | VSeq l =>
        match l with
        | [cx; cy; VInt size; VInt f] => check (OWin cx cy size f) f
        | _ => (Err ValueError, st)
        end
    | VArr _ => (Err ValueError, st)
    | VInt f => check (OInt f) f
    | _ => (Err TypeError, st)
    end.

  (** psf_oversample setter, models.py:302-317 *)
  Definition set_psf_oversample (st : pst) (v : pyv) : result unit * pst :=
    match v with
    | VNone => (Ok tt, with_psf_over st None)
    | _ =>
        match p_psf st with
        | None => (Err ValueError, st)
        | Some _ =>
            match v with
            | VInt k =>
                if (k <=? 0)%Z then (Err TypeError, st)
                else if negb (over_factor st mod k =? 0)%Z then (Err ValueError, st)
                else (Ok tt, with_psf_over st (Some k))
            | _ => (Err TypeError, st)
            end
        end
    end.

  (** clear_cached_grid, models.py:328-335 *)
  Definition clear_cached_grid (st : pst) : pst := with_grid st 0 0 None None.

  (** cache_grid setter, models.py:342-351; None stands for a value that is not a bool *)
  Definition set_cache_grid (st : pst) (v : option bool) : result unit * pst :=
    match v with
    | Some false => (Ok tt, clear_cached_grid (with_cache st false))
    | Some true => (Ok tt, with_cache st true)
    | None => (Err ValueError, st)
    end.

  (** __init__, models.py:166-197 (settings only; parameters are in M_Wrap) *)
  Definition new (psf : option (img T)) (oversample psf_oversample : pyv) : result pst :=
    match set_oversample (fst (set_psf blank psf)) oversample with
    | (Err e, _) => Err e
    | (Ok _, st) =>
        match set_psf_oversample st psf_oversample with
        | (Err e, _) => Err e
        | (Ok _, st') => Ok st'
        end
    end.

  (** ** Evaluation *)

  (** What the wrapped model's evaluate(x, y, *params) returns: a fresh array computed element by
      element, or one of its argument arrays itself (as astropy's Mapping does). *)
  Inductive smkind := Fresh (f : list T -> T -> T -> T) | ReturnsX | ReturnsY.
  Record submodel := mksm { sm_names : list string; sm_kind : smkind }.

  Definition sm_eval (m : submodel) (params : list T) (g : grid) : img T :=
    match sm_kind m with
    | Fresh f => mkimg (iny (fst g)) (inx (fst g)) (fun j i => f params (px (fst g) j i) (px (snd g) j i))
    | ReturnsX => fst g
    | ReturnsY => snd g
    end.

  (** array.astype(int) of one element; a value numpy cannot convert is not modelled (error) *)
  Definition to_int (x : T) : result Z := match ntrunc x with Some z => Ok z | None => Err IndexError end.

  Definition zmax (l : list Z) : Z := fold_left Z.max l 0%Z.

  (** int(np.round(x)) *)
  Definition round_int (x : T) : result Z :=
    match ntrunc (nrint x) with
    | Some z => Ok z
    | None => if nisnan x then Err ValueError else Err OverflowError
    end.

  (** slice [lo:hi] of an axis of length n, lo >= 0, hi any int: length and membership *)
  Definition stop_of (n hi : Z) : Z := if (hi <? 0)%Z then Z.max 0 (hi + n) else Z.min hi n.
  Definition slen (n lo hi : Z) : Z := Z.max 0 (stop_of n hi - Z.min lo n).
  Definition in_slice (n lo hi k : Z) : bool := ((Z.min lo n <=? k) && (k <? stop_of n hi))%Z.

  (** model_image[jlo:jhi, ilo:ihi] = sub, models.py:522 *)
  Definition write_window (m : img T) (jlo jhi ilo ihi : Z) (sub : img T) : result (img T) :=
    let ny := Z.of_nat (iny m) in
    let nx := Z.of_nat (inx m) in
    let sy := Z.of_nat (iny sub) in
    let sx := Z.of_nat (inx sub) in
    if bcast_ok (slen ny jlo jhi) sy && bcast_ok (slen nx ilo ihi) sx then
      Ok (mkimg (iny m) (inx m) (fun j i =>
        if in_slice ny jlo jhi (Z.of_nat j) && in_slice nx ilo ihi (Z.of_nat i)
        then px sub (Z.to_nat (bcast_ix sy (Z.of_nat j - Z.min jlo ny)))
                    (Z.to_nat (bcast_ix sx (Z.of_nat i - Z.min ilo nx)))
        else px m j i))
    else Err ValueError.

  Fixpoint index_of (s : string) (l : list string) : option nat :=
    match l with [] => None | x :: tl => if String.eqb s x then Some 0%nat else option_map S (index_of s tl) end.

  (** centre of the window: a number or the name of a parameter, models.py:457-475 *)
  Definition center_value (sm : submodel) (params : list T) (c : pyv) : result T :=
    match c with
    | VStr s =>
        match index_of s (sm_names sm) with
        | None => Err AssertionError
        | Some k => match nth_error params k with Some v => Ok v | None => Err IndexError end
        end
    | VInt z => Ok (nofZ z)
    | VFloat x => Ok x
    | _ => Err TypeError
    end.

  (** models.py:449-522: the windowed part of evaluate, given the image on the main grid *)
  Definition apply_window (sm : submodel) (params : list T) (cx cy : pyv) (size f psf_f : Z)
      (imax jmax : Z) (m : img T) : result (img T) :=
    let k := (f / psf_f)%Z in
    if (1 <? k)%Z then
      do x0 <- center_value sm params cx;
      do y0 <- center_value sm params cy;
      let ox := nrint x0 - nofZ (size / 2) in
      let oy := nrint y0 - nofZ (size / 2) in
      let sub := block_mean (sm_eval sm params (make_grid size (ox, oy) f)) (Z.to_nat k) in
      do i0 <- round_int ox;
      do j0 <- round_int oy;
      let i1 := (i0 + size)%Z in
      let j1 := (j0 + size)%Z in
      let i0 := if (i0 <? 0)%Z then 0%Z else i0 in
      let j0 := if (j0 <? 0)%Z then 0%Z else j0 in
      let i1 := if (imax <? i1)%Z then (imax + 1)%Z else i1 in
      let j1 := if (jmax <? j1)%Z then (jmax + 1)%Z else j1 in
      write_window m (j0 * psf_f) (j1 * psf_f) (i0 * psf_f) (i1 * psf_f) sub
    else Ok m.

  Definition range_eqb (a b : T * T * T * T) : bool :=
    let '(a1, a2, a3, a4) := a in let '(b1, b2, b3, b4) := b in
    neqb a1 b1 && neqb a2 b2 && neqb a3 b3 && neqb a4 b4.

  Section Evaluate.
    Variable rotate : img T -> T -> img T.   (* scipy.ndimage.rotate(psf, angle, reshape=False) *)
    Variable sm : submodel.

    (** models.py:411-431: the main sampling grid, from the cache if it matches *)
    Definition main_grid (st : pst) (gsize gfactor : Z) (range : T * T * T * T) : result grid * pst :=
      if ((gsize =? p_csize st) && (gfactor =? p_cfactor st))%Z
         && match p_crange st with Some r => range_eqb range r | None => false end
      then (match p_cgrid st with Some g => Ok g | None => Err TypeError end, st)
      else
        let '(xmin, _, ymin, _) := range in
        let g := make_grid gsize (xmin, ymin) gfactor in
        (Ok g, if p_cache st then with_grid st gsize gfactor (Some g) (Some range) else st).

    (** writing into an array that is part of the cached grid changes the cache *)
    Definition after_write (st : pst) (m : img T) : pst :=
      match sm_kind sm, p_cgrid st with
      | ReturnsX, Some g => with_grid st (p_csize st) (p_cfactor st) (Some (m, snd g)) (p_crange st)
      | ReturnsY, Some g => with_grid st (p_csize st) (p_cfactor st) (Some (fst g, m)) (p_crange st)
      | _, _ => st
      end.

    (** models.py:524-538: PSF convolution, reduction to data resolution, requested pixels *)
    Definition finish (st : pst) (psf_pa : T) (ij : list (Z * Z)) (m : img T) : result (list T) :=
      let m := match p_psf st with
               | None => m
               | Some psf => convolve_same m (if psf_pa =? n0 then psf else rotate psf psf_pa)
               end in
      let m := if (1 <? psf_factor st)%Z then block_mean m (Z.to_nat (psf_factor st)) else m in
      mapM (fun q => let '(i, j) := q in
              if ((j <? Z.of_nat (iny m)) && (i <? Z.of_nat (inx m)))%Z
              then Ok (px m (Z.to_nat j) (Z.to_nat i)) else Err IndexError) ij.

    (** evaluate, models.py:353-538; [xs], [ys] are the flattened coordinate arrays
        (equally long: astropy broadcasts them before).  The second
        component is the object after the call (also when it raises). *)
    Definition evaluate (st : pst) (xs ys params : list T) (psf_pa : T) : result (list T) * pst :=
      match (do xmin <- pymin xs; do xmax <- pymax xs; do ymin <- pymin ys; do ymax <- pymax ys;
             do is <- mapM (fun x => to_int (x - xmin)) xs;
             do js <- mapM (fun y => to_int (y - ymin)) ys;
             Ok ((xmin, xmax, ymin, ymax), (is, js))) with
      | Err e => (Err e, st)
      | Ok (range, (is, js)) =>
          let imax := zmax is in
          let jmax := zmax js in
          let ij := combine is js in
          let psf_f := psf_factor st in
          let gsize := (Z.max imax jmax + 1)%Z in
          match p_over st with
          | Some (OWin cx cy size f) =>
              match main_grid st gsize psf_f range with
              | (Err e, st') => (Err e, st')
              | (Ok g, st') =>
                  let m := sm_eval sm params g in
                  match apply_window sm params cx cy size f psf_f imax jmax m with
                  | Err e => (Err e, st')
                  | Ok m' => (finish st' psf_pa ij m', if p_cache st then after_write st' m' else st')
                  end
              end
          | _ =>
              let gf := over_factor st in
              let k := (gf / psf_f)%Z in
              match main_grid st gsize gf range with
              | (Err e, st') => (Err e, st')
              | (Ok g, st') =>
                  let m := sm_eval sm params g in
                  let m := if (1 <? k)%Z then block_mean m (Z.to_nat k) else m in
                  (finish st' psf_pa ij m, st')
              end
          end
      end.
  End Evaluate.

  (** ** Histories *)
  Inductive pop :=
  | PEval (xs ys params : list T) (psf_pa : T)
  | PSetOver (v : pyv)
  | PSetPsf (p : option (img T))
  | PSetPsfOver (v : pyv)
  | PSetCache (v : option bool)
  | PClear.

  Definition no_value (r : result unit * pst) : result (list T) * pst :=
    (match fst r with Ok _ => Ok [] | Err e => Err e end, snd r).

  Definition pstep (rotate : img T -> T -> img T) (sm : submodel) (st : pst) (o : pop) : result (list T) * pst :=
    match o with
    | PEval xs ys params pa => evaluate rotate sm st xs ys params pa
    | PSetOver v => no_value (set_oversample st v)
    | PSetPsf p => (Ok [], fst (set_psf st p))
    | PSetPsfOver v => no_value (set_psf_oversample st v)
    | PSetCache v => no_value (set_cache_grid st v)
    | PClear => (Ok [], clear_cached_grid st)
    end.

  Fixpoint prun (rotate : img T -> T -> img T) (sm : submodel) (st : pst) (h : list pop) : pst :=
    match h with [] => st | o :: tl => prun rotate sm (snd (pstep rotate sm st o)) tl end.
End PSF.
Arguments pst : clear implicits.
Arguments pyv : clear implicits.
Arguments over : clear implicits.
Arguments pop : clear implicits.
Arguments submodel : clear implicits.
Arguments smkind : clear implicits.
Arguments grid : clear implicits.
