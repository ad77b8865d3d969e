(** Model of petrofit/segmentation.py.

    Oracles: numpy's argsort, isophote fitting, sigma_clip and sigma_clipped_stats, the
    background fitter, photutils overlaps.  Plotting and printing are left out.
    make_segments, deblend_segments are single calls of photutils. *)
From Coq Require Import String.
From Verif Require Import Base Num Numpy M_Utils M_Photometry M_PSF M_Fitting.
Local Open Scope list_scope.

(** ** segm_mask *)

(** an item of the source argument: a label, or a SourceCatalog of one source with that label *)
Inductive item := LInt (z : Z) | LCat (z : Z).
Definition item_label (s : item) : Z := match s with LInt z | LCat z => z end.

(** memory: the list objects of the caller; a reference is a position *)
Definition lists := list (list item).
Fixpoint set_nth {A} (l : list A) (k : nat) (v : A) : list A :=
  match l, k with
  | [], _ => []
  | _ :: t, O => v :: t
  | x :: t, S k' => x :: set_nth t k' v
  end.

(** source argument of segm_mask: an item, a reference to a list of items, anything else *)
Inductive source_arg := AItem (s : item) | AList (l : nat) | AOther.

(** the loop of segmentation.py:236-244; None when there is no source at all *)
Definition segm_loop (segm : img Z) (sources : list item) : option (img bool) :=
  fold_left (fun mask s =>
      let m := mkimg (iny segm) (inx segm) (fun j i => (px segm j i =? item_label s)%Z) in
      match mask with
      | None => Some m
      | Some mask => Some (mkimg (iny segm) (inx segm) (fun j i => px m j i || px mask j i))
      end) sources None.

(** segm_mask, segmentation.py:197-245: the mask and the memory afterwards *)
Definition segm_mask (mem : lists) (source : source_arg) (segm : img Z) (mask_background : bool)
  : result (option (img bool)) * lists :=
  match source with
  | AItem s =>
      (Ok (segm_loop segm (if mask_background then [s] else [s] ++ [LInt 0])), mem)
  | AList l =>
      let sources := nth l mem [] in
      if mask_background then (Ok (segm_loop segm sources), mem)
      else (Ok (segm_loop segm (sources ++ [LInt 0])), set_nth mem l (sources ++ [LInt 0]))
  | AOther => (Err TypeError, mem)
  end.

(** ** order_cat *)
Section Order.
  Context {T : Type} {N : Num T}.
  Variable argsort : list T -> list nat.
  (** order_cat, segmentation.py:170-194.  The table is a list of named columns. *)
  Definition order_cat (table : list (string * list T)) (key : string) (reverse : bool) : result (list nat) :=
    match find (fun c => String.eqb (fst c) key) table with
    | None => Err KeyError
    | Some c => let order_all := argsort (snd c) in Ok (if reverse then rev order_all else order_all)
    end.
End Order.

(** ** get_amplitude_at_r, segmentation.py:100-167.  [iso r] is the body of the try block. *)
Section Amplitude.
  Context {T : Type} {N : Num T}.
  Definition to_float (v : pyv T) : result T :=
    match v with
    | VInt z => Ok (nofZ z)
    | VFloat x => Ok x
    | VStr _ => Err ValueError        (* a string holding a number is not modelled *)
    | _ => Err TypeError
    end.
  Definition get_amplitude_at_r (iso : T -> result T) (r : pyv T) : result T :=
    do r <- to_float r;
    Ok (match iso r with Ok a => a | Err _ => nnan end).
End Amplitude.

(** ** make_catalog, segmentation.py:372-485 without plotting *)
Section Catalog.
  Variables I S C : Type.   (* images, segmentation images, catalogs *)
  Variable detect : I -> result (option S).               (* detect_sources *)
  Variable deblend_ : I -> option S -> result (option S). (* deblend_sources *)
  Variable catalog : I -> option S -> result C.           (* SourceCatalog *)
  Definition make_catalog (image : I) (deblend : bool) : result (C * option S * option S) :=
    do segm <- detect image;
    do segm_deblend <- (if deblend then deblend_ image segm else Ok None);
    do cat <- catalog image (if deblend then segm_deblend else segm);
    Ok (cat, segm, segm_deblend).
End Catalog.

(** ** Images in memory *)
Section Images.
  Context {T : Type} {N : Num T}.
  Local Open Scope num_scope.

  Inductive dtype := DFloat | DInt.
  Record array := mkarr { a_type : dtype; a_img : img T }.
  Definition ref := nat.
  Definition heap := list array.
  Definition nullarr : array := mkarr DFloat (mkimg 0 0 (fun _ _ => nnan)).
  Definition deref (h : heap) (r : ref) : array := nth r h nullarr.

  Definition io (A : Type) := heap -> result A * heap.
  Definition ret {A} (a : A) : io A := fun h => (Ok a, h).
  Definition lift {A} (m : result A) : io A := fun h => (m, h).
  Definition bindio {A B} (m : io A) (f : A -> io B) : io B :=
    fun h => match m h with (Ok a, h') => f a h' | (Err e, h') => (Err e, h') end.
  Definition alloc (a : array) : io ref := fun h => (Ok (List.length h), h ++ [a]).

  (** a rectangle of an array that shares its memory: rows v_y .. v_y + v_h - 1, and columns alike *)
  Record view := mkview { v_base : ref; v_y : nat; v_x : nat; v_h : nat; v_w : nat }.
  Definition read (v : view) : io (img T) := fun h =>
    let m := a_img (deref h (v_base v)) in
    (Ok (mkimg (v_h v) (v_w v) (fun j i =>
       if (j <? v_h v)%nat && (i <? v_w v)%nat then px m (v_y v + j) (v_x v + i) else nnan)), h).
  (** v[...] = f(row, column, old value) for float arrays *)
  Definition write (v : view) (f : nat -> nat -> T -> T) : io unit := fun h =>
    let a := deref h (v_base v) in
    let m := a_img a in
    let m' := mkimg (iny m) (inx m) (fun j i =>
      if (v_y v <=? j)%nat && (j <? v_y v + v_h v)%nat && (v_x v <=? i)%nat && (i <? v_x v + v_w v)%nat
      then f (j - v_y v)%nat (i - v_x v)%nat (px m j i) else px m j i) in
    (Ok tt, set_nth h (v_base v) (mkarr (a_type a) m')).
End Images.
Arguments array : clear implicits.
Arguments heap : clear implicits.

Notation "'let!' x := m 'in' f" := (bindio m (fun x => f))
  (at level 200, x name, m at level 100, f at level 200).

Section Segm.
  Context {T : Type} {N : Num T}.
  Local Open Scope num_scope.

  (** assigning a Python float to entries of an array of the given type *)
  Definition cast (t : dtype) (x : T) : result T :=
    match t with
    | DFloat => Ok x
    | DInt => match ntrunc x with
              | Some z => Ok (nofZ z)
              | None => if nisnan x then Err ValueError else Err OverflowError
              end
    end.

  (** masked_segm_image, segmentation.py:248-286.  Returns a new array.  When the fill does not fit
      the array type and the shapes differ too, which of the two exceptions comes is not modelled. *)
  Definition masked_segm_image (mem : lists) (source : source_arg) (image : ref) (segm : img Z) (fill : option T)
      (mask_background : bool) : io (T:=T) (ref * lists) := fun h =>
    let fill := match fill with None => nnan | Some f => f end in
    let '(m, mem') := segm_mask mem source segm mask_background in
    match m with
    | Err e => (Err e, h)
    | Ok m =>
        (let! masked := alloc (deref h image) in           (* deepcopy *)
         match m with
         | None => lift (Err TypeError)                    (* np.invert(None) *)
         | Some mask =>
             let a := deref h image in
             if same_shape mask (a_img a) then
               let! x := lift (cast (a_type a) fill) in
               let! _ := write (mkview masked 0 0 (iny (a_img a)) (inx (a_img a)))
                           (fun j i old => if negb (px mask j i) then x else old) in
               ret (masked, mem')
             else lift (Err IndexError)
         end) h
    end.

  (** astropy Cutout2D(array, (x, y), size, mode='partial', fill_value=nan).data for whole-number
      positions and size > 0: a view when the cutout lies inside the array, a new array otherwise.
      Sizes below 1 are not modelled (ValueError here). *)
  Definition cutout (r : ref) (x y size : Z) : io (T:=T) view := fun h =>
    let a := deref h r in
    let ny := Z.of_nat (iny (a_img a)) in
    let nx := Z.of_nat (inx (a_img a)) in
    let y0 := (y - size / 2)%Z in
    let x0 := (x - size / 2)%Z in
    let n := Z.to_nat size in
    if (size <=? 0)%Z then (Err ValueError, h)
    else if ((y0 + size <=? 0) || (ny <=? y0) || (x0 + size <=? 0) || (nx <=? x0))%Z%bool then (Err ValueError, h)
    else if ((0 <=? y0) && (y0 + size <=? ny) && (0 <=? x0) && (x0 + size <=? nx))%Z%bool
    then (Ok (mkview r (Z.to_nat y0) (Z.to_nat x0) n n), h)
    else
      (let! fill := lift (cast (a_type a) nnan) in
       let! r' := alloc (mkarr (a_type a) (mkimg n n (fun j i =>
           let y := (y0 + Z.of_nat j)%Z in
           let x := (x0 + Z.of_nat i)%Z in
           if ((0 <=? y) && (y <? ny) && (0 <=? x) && (x <? nx))%Z%bool
           then px (a_img a) (Z.to_nat y) (Z.to_nat x) else fill))) in
       ret (mkview r' 0 0 n n)) h.

  (** entry of a SourceCatalog, or of its table *)
  Record row := mkrow { c_label : Z; c_x : Z; c_y : Z; c_elong : T; c_theta : T }.
  Inductive source := SCat (r : row) | SRow (r : row) | SOther.
  (** getters, segmentation.py:65-98.  A label or a list has no columns. *)
  Definition source_row (s : source) : result row :=
    match s with SCat r | SRow r => Ok r | SOther => Err TypeError end.
  Definition as_arg (s : source) : source_arg :=
    match s with SCat r => AItem (LCat (c_label r)) | _ => AOther end.

  (** np.ceil *)
  Definition nceil (x : T) : T :=
    match ntrunc x with Some z => if nofZ z <? x then nofZ (z + 1) else nofZ z | None => x end.
  (** int(x) *)
  Definition to_int (x : T) : result Z :=
    match ntrunc x with Some z => Ok z | None => if nisnan x then Err ValueError else Err OverflowError end.

  (** segmentation.py:601-606 *)
  Definition cutout_side (cutout_size : pyv T) (r_list : list T) : result Z :=
    do n <- (match cutout_size with
             | VNone => do m <- pymax r_list; to_int (nceil (m * nofZ 3))
             | VInt z => Ok z
             | VFloat x => to_int x
             | _ => Err TypeError
             end);
    Ok (if (n mod 2 =? 1)%Z then (n + 1)%Z else n).

  Inductive sigma_kind := Clip | Bound | OtherKind.

  (** np.clip(x, lo, inf) *)
  Definition clip_below (lo x : T) : T :=
    if nisnan x then x else if nisnan lo then lo else if x <? lo then lo else x.

  Variable overlap : aperture T -> nat -> nat -> option (nat -> nat -> T).
  Variable sigma_clip : img T -> T -> img bool.
  Variable clipped_stats : img T -> T * T.            (* mean, std of the non-NaN pixels *)
  Variables M O : Type.
  Variable planar : M.                                (* models.Planar2D() *)
  Variable linear : fitter (T:=T) M O.                (* LinearLSQFitter *)
  Variable opts : O.
  Variable evalM : M -> smodel (T:=T).

  (** v -= m *)
  Definition isub (v : view) (m : img T) : io (T:=T) unit :=
    if Nat.eqb (iny m) (v_h v) && Nat.eqb (inx m) (v_w v)
    then write v (fun j i old => old - px m j i) else lift (Err ValueError).

  Definition not_nan (m : img T) : img bool := mkimg (iny m) (inx m) (fun j i => negb (nisnan (px m j i))).

  (** source_photometry, segmentation.py:488-743, up to the final cutout, which is handed to [rest]
      with the geometry of the source and the error cutout.  sigma_type.lower() is Clip, Bound or
      neither. *)
  Definition source_cutout {A} (src : source) (image : ref) (segm : img Z) (r_list : list T)
      (error : option ref) (cutout_size : pyv T) (bg_sub : bool) (sigma : T) (sigma_type : sigma_kind)
      (mask_background : bool) (rest : row -> img T -> option (img T) -> io (T:=T) A) : io (T:=T) A :=
    let! c := lift (source_row src) in
    let! size := lift (cutout_side cutout_size r_list) in
    let! masked_err :=
      match error with
      | None => ret None
      | Some e => let! v := cutout e (c_x c) (c_y c) size in ret (Some v)
      end in
    let! full := masked_segm_image [] (as_arg src) image segm (Some nnan) mask_background in
    let! masked_image := cutout (fst full) (c_x c) (c_y c) size in
    let! full_bg := masked_segm_image [] (AItem (LInt 0)) image segm (Some nnan) false in
    let! stats := cutout (fst full_bg) (c_x c) (c_y c) size in
    let! s := read stats in
    let! final :=
      (if bg_sub && (10 <? List.length (good_pixels s))%nat then
         let! bg :=
           match sigma_type with
           | Clip => ret (s, Some (sigma_clip s sigma))
           | Bound =>
               let '(mean, std) := clipped_stats s in
               let! _ := write stats (fun _ _ old => if mean + std * sigma <? old then nnan else old) in
               let! _ := write stats (fun _ _ old => if old <? mean - std * sigma then nnan else old) in
               let! s' := read stats in
               ret (s', None)
           | OtherKind => lift (Err TypeError)            (* raise "..." *)
           end in
         let! fitted := lift (fit_model M O bg planar None linear false opts) in
         let! mi := lift (model_to_image (evalM (fst fitted)) (VInt size) false Center 1 None) in
         let! _ := isub masked_image mi in
         let! m := read masked_image in
         match sigma_type with
         | Bound => ret (mkimg (iny m) (inx m) (fun j i => clip_below (nopp sigma) (px m j i)))
         | _ => ret m
         end
       else read masked_image) in
    let! err := match masked_err with None => ret None | Some v => let! e := read v in ret (Some e) end in
    rest c final err.

  (** the whole of it with plot=False.  [k]: kind of the numbers in r_list. *)
  Definition source_photometry (k : flavour) (src : source) (image : ref) (segm : img Z) (r_list : list T)
      (error : option ref) (cutout_size : pyv T) (bg_sub : bool) (sigma : T) (sigma_type : sigma_kind)
      (mask_background : bool) : io (T:=T) (list T * list T * list T) :=
    source_cutout src image segm r_list error cutout_size bg_sub sigma sigma_type mask_background
      (fun c final err =>
         let position := (nofnat (iny final) / n2, nofnat (inx final) / n2) in
         lift (radial_photometry overlap k final position r_list err (Some (not_nan final)) (c_elong c) (c_theta c))).
End Segm.
Arguments row : clear implicits.
Arguments source : clear implicits.
