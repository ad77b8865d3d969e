(** Small specifications for segmentation.py. *)
From Coq Require Import String Sorting.Permutation.
From Verif Require Import Base Num Numpy M_Utils M_Photometry S_Photometry M_PSF M_Fitting S_Fitting M_Segm.
Local Open Scope list_scope.

(** label z is asked for *)
Definition requested (items : list item) (mask_background : bool) (z : Z) : Prop :=
  (exists s, In s items /\ (s = LInt z \/ s = LCat z)) \/ (z = 0%Z /\ mask_background = false).

(** a history of segm_mask calls that share the memory of the caller *)
Record call := mkcall { k_src : source_arg; k_segm : img Z; k_mb : bool }.
Fixpoint after (mem : lists) (h : list call) : lists :=
  match h with
  | [] => mem
  | c :: tl => after (snd (segm_mask mem (k_src c) (k_segm c) (k_mb c))) tl
  end.
(** calls with list l and mask_background=False *)
Definition appends (l : nat) (c : call) : bool :=
  match k_src c with AList l' => Nat.eqb l' l && negb (k_mb c) | _ => false end.

(** order of numpy's sort: NaN last *)
Definition key_le (a b : xr) : Prop :=
  match a, b with
  | _, NaN => True
  | NaN, _ => False
  | _, _ => nleb a b = true
  end.
(** what argsort may return: any sorting permutation *)
Definition sorts (argsort : list xr -> list nat) : Prop :=
  forall l, Permutation (argsort l) (seq 0 (List.length l)) /\
    forall a b p q, nth_error (argsort l) a = Some p -> nth_error (argsort l) b = Some q -> a < b ->
      key_le (nth p l NaN) (nth q l NaN).

(** c is the square of the given side whose pixel (side/2, side/2) is pixel (y, x) of m, NaN outside m *)
Definition is_cutout (m : img xr) (x y : Z) (side : Z) (c : img xr) : Prop :=
  Z.of_nat (iny c) = side /\ Z.of_nat (inx c) = side /\
  forall j i Y X, (j < iny c)%nat -> (i < inx c)%nat ->
    (Y = y + (Z.of_nat j - side / 2))%Z -> (X = x + (Z.of_nat i - side / 2))%Z ->
    ((0 <= Y < Z.of_nat (iny m) /\ 0 <= X < Z.of_nat (inx m))%Z -> px c j i = px m (Z.to_nat Y) (Z.to_nat X)) /\
    (~ (0 <= Y < Z.of_nat (iny m) /\ 0 <= X < Z.of_nat (inx m))%Z -> px c j i = NaN).

(** r is m with the pixels whose label is not wanted set to NaN *)
Definition keeps (want : Z -> Prop) (segm : img Z) (m r : img xr) : Prop :=
  iny r = iny m /\ inx r = inx m /\
  forall j i, (j < iny m)%nat -> (i < inx m)%nat ->
    (want (px segm j i) -> px r j i = px m j i) /\ (~ want (px segm j i) -> px r j i = NaN).

(** same shape, equal where the label is wanted *)
Definition agree_on (want : Z -> Prop) (segm : img Z) (a b : img xr) : Prop :=
  iny a = iny b /\ inx a = inx b /\
  forall j i, (j < iny a)%nat -> (i < inx a)%nat -> want (px segm j i) -> px a j i = px b j i.

(** labels that count as the source (with its background unless masked) *)
Definition wanted (label : Z) (mask_background : bool) (z : Z) : Prop :=
  z = label \/ (z = 0%Z /\ mask_background = false).

Definition valid (h : heap xr) (r : ref) : Prop := r < List.length h.

(** what a source argument asks for *)
Definition items_of (mem : lists) (src : source_arg) : option (list item) :=
  match src with AItem s => Some [s] | AList l => Some (nth l mem []) | AOther => None end.

(** the value that a fill leaves in an array of the given type *)
Definition fits_type (t : dtype) (x y : xr) : Prop :=
  match t with DFloat => y = x | DInt => exists z, ntrunc x = Some z /\ y = Fin (IZR z) end.

(** the square meets the image *)
Definition overlaps (m : img xr) (x y size : Z) : Prop :=
  exists Y X, (0 <= Y < Z.of_nat (iny m) /\ 0 <= X < Z.of_nat (inx m) /\
    y - size / 2 <= Y < y - size / 2 + size /\ x - size / 2 <= X < x - size / 2 + size)%Z.

(** the smallest even number that is at least r *)
Definition smallest_even (r : R) (n : Z) : Prop := Z.even n = true /\ (r <= IZR n < r + 2)%R.

(** the disc of radius r around pixel (side/2, side/2) lies inside the side x side pixels *)
Definition disc_inside (r : R) (side : Z) : Prop :=
  (forall u v, u * u + v * v <= r * r ->
    -1/2 <= IZR side / 2 + u <= IZR side - 1/2 /\ -1/2 <= IZR side / 2 + v <= IZR side - 1/2)%R.

Definition valid_error (h : heap xr) (error : option ref) : Prop := match error with None => True | Some e => valid h e end.

(** a float array that the cutout meets *)
Definition usable (h : heap xr) (r : ref) (x y size : Z) : Prop :=
  valid h r /\ a_type (deref h r) = DFloat /\ overlaps (a_img (deref h r)) x y size.

Definition error_cutout (h : heap xr) (error : option ref) (x y size : Z) (err : option (img xr)) : Prop :=
  match error, err with
  | None, None => True
  | Some e, Some c => is_cutout (a_img (deref h e)) x y size c
  | _, _ => False
  end.

(** True exactly at the pixels that are not NaN *)
Definition mask_of (final : img xr) (mask : img bool) : Prop :=
  iny mask = iny final /\ inx mask = inx final /\ forall j i, px mask j i = true <-> px final j i <> NaN.

(** s: cutout of the background pixels *)
Definition background (h : heap xr) (image : ref) (segm : img Z) (x y size : Z) (s : img xr) : Prop :=
  exists bg, keeps (fun z => z = 0%Z) segm (a_img (deref h image)) bg /\ is_cutout bg x y size s.

(** more than 10 pixels of s are not NaN *)
Definition many_background (s : img xr) : Prop :=
  exists l, row_major (fun j i => (j < iny s)%nat /\ (i < inx s)%nat /\ px s j i <> NaN) l /\ (10 < List.length l)%nat.

(** m minus a surface *)
Definition minus_plane (g : R -> R -> R) (m final : img xr) : Prop :=
  iny final = iny m /\ inx final = inx m /\
  forall j i, (j < iny m)%nat -> (i < inx m)%nat ->
    px final j i = match px m j i with Fin v => Fin (v - g (INR i) (INR j)) | x => x end.

(** the same, with values below lo replaced by lo *)
Definition minus_plane_clipped (g : R -> R -> R) (lo : R) (m final : img xr) : Prop :=
  iny final = iny m /\ inx final = inx m /\
  forall j i, (j < iny m)%nat -> (i < inx m)%nat ->
    px final j i = match px m j i with Fin v => Fin (Rmax lo (v - g (INR i) (INR j))) | NInf => Fin lo | x => x end.

(** labels whose pixels may be used *)
Definition used_labels (label : Z) (mb bg_sub : bool) (z : Z) : Prop := wanted label mb z \/ (z = 0%Z /\ bg_sub = true).
