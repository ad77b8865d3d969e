(** Small specifications for make_grid and PSFConvolvedModel2D. *)
From Coq Require Import String.
From Verif Require Import Base Num Numpy S_Photometry M_PSF.
Local Open Scope list_scope.
Local Open Scope R_scope.

(** [s] samples [size] pixels with centres o, o+1, ..., each [f] times: all samples of a pixel lie
    strictly inside it, neighbouring samples are 1/f apart, and the samples of a pixel average to
    its centre *)
Definition symmetric_samples (s : nat -> R) (o : R) (size f : nat) : Prop :=
  (forall k b, (k < size)%nat -> (b < f)%nat -> o + INR k - 1/2 < s (k * f + b)%nat < o + INR k + 1/2) /\
  (forall n, (S n < size * f)%nat -> s (S n) - s n = 1 / INR f) /\
  (forall k, (k < size)%nat -> sum_to f (fun b => s (k * f + b)%nat) / INR f = o + INR k).

Definition is_min (m : R) (l : list R) : Prop := In m l /\ forall x, In x l -> m <= x.
Definition is_max (m : R) (l : list R) : Prop := In m l /\ forall x, In x l -> x <= m.

(** centre of the pixel that contains x, for pixels starting at m, m+1, ... *)
Definition pix (m x : R) : R := m + IZR (Int_part (x - m)).

(** mean of g over the f*f evenly spaced sample points of the unit pixel centred on (cx, cy) *)
Definition mean_samples (g : R -> R -> R) (f : nat) (cx cy : R) : R :=
  sum2 f f (fun a b => g (cx - 1/2 + (INR b + 1/2) / INR f) (cy - 1/2 + (INR a + 1/2) / INR f))
  / (INR f * INR f).

(** the sub-model computes the real function g at finite coordinates *)
Definition computes (f : list xr -> xr -> xr -> xr) (params : list xr) (g : R -> R -> R) : Prop :=
  forall x y, f params (Fin x) (Fin y) = Fin (g x y).

(** states an object can be in: constructed, then any sequence of operations *)
Definition reachable {T} {N : Num T} (rotate : img T -> T -> img T) (sm : submodel T) (st : pst T) : Prop :=
  exists psf o k st0 h, new psf o k = Ok st0 /\ st = prun rotate sm st0 h.

(** a new object given the same settings: nothing cached *)
Definition fresh_object {T} (st : pst T) : pst T :=
  mkpst (p_over st) (p_psf_over st) (p_psf st) true 0 0 None None.

(** documented relation of the settings *)
Definition compatible {T} (st : pst T) : Prop :=
  (0 < over_factor st)%Z /\
  match p_psf_over st with
  | None => True
  | Some k => (0 < k)%Z /\ (over_factor st mod k = 0)%Z /\ p_psf st <> None
  end.

(** no operation of the history sets oversample or psf to None while psf_oversample is set *)
Fixpoint careful {T} {N : Num T} (rotate : img T -> T -> img T) (sm : submodel T) (st : pst T) (h : list (pop T)) : Prop :=
  match h with
  | [] => True
  | o :: tl =>
      (match o with
       | PSetOver VNone | PSetPsf None => p_psf_over st = None
       | _ => True
       end) /\ careful rotate sm (snd (pstep rotate sm st o)) tl
  end.

Definition is_setter {T} (o : pop T) : bool :=
  match o with PEval _ _ _ _ => false | _ => true end.

(** image with finite pixels *)
Definition rimg (ny nx : nat) (g : nat -> nat -> R) : img xr := mkimg ny nx (fun j i => Fin (g j i)).

(** [i] is inside a window of [size] pixels starting at [i0] *)
Definition inside (i0 size i : Z) : Prop := (i0 <= i < i0 + size)%Z.

(** 1 at (r, s), 0 elsewhere *)
Definition delta (r s : nat) (j i : nat) : R := if Nat.eqb j r && Nat.eqb i s then 1 else 0.

(** pixel column (row) of a coordinate, counted from the smallest requested one *)
Definition pixel_index (m x : R) : Z := Int_part (x - m).

(** [v] is the position a window centre stands for: a number, or the value of the (first)
    parameter of that name *)
Definition centre_is (names : list string) (params : list xr) (c : pyv xr) (v : R) : Prop :=
  match c with
  | VInt z => v = IZR z
  | VFloat x => x = Fin v
  | VStr s => exists k, nth_error names k = Some s /\ (forall k', (k' < k)%nat -> nth_error names k' <> Some s) /\
                        nth_error params k = Some (Fin v)
  | _ => False
  end.

(** the window of [size] pixels around [c] starts at pixel i0: the nearest pixel minus floor(size/2) *)
Definition window_start (c : R) (size i0 : Z) : Prop :=
  exists z, nearest_even c z /\ i0 = (z - size / 2)%Z.

Definition insideb (i0 size i : Z) : bool := ((i0 <=? i) && (i <? i0 + size))%Z.
