(** Specification of least-squares fits. *)
From Verif Require Import Base Num Numpy M_PSF M_Fitting S_Fitting.
Local Open Scope list_scope.
Local Open Scope R_scope.

(** a measured value: column, row, value *)
Definition point := (nat * nat * R)%type.
Definition col (p : point) : R := INR (fst (fst p)).
Definition line (p : point) : R := INR (snd (fst p)).
Definition total (l : list R) : R := fold_right Rplus 0 l.
(** sum of the squared distances between the values and a surface *)
Definition misfit (g : R -> R -> R) (l : list point) : R := total (map (fun p => (snd p - g (col p) (line p)) ^ 2) l).

Definition plane (a b c x y : R) : R := a * x + b * y + c.
(** no plane is closer to the points *)
Definition best_plane (l : list point) (a b c : R) : Prop :=
  forall a' b' c', misfit (plane a b c) l <= misfit (plane a' b' c') l.
(** the positions are not all on one straight line *)
Definition spread (l : list (nat * nat)) : Prop :=
  forall u v w, (forall p, In p l -> u * INR (fst p) + v * INR (snd p) = w) -> u = 0 /\ v = 0.

(** the same for a set of (row, column) pairs *)
Definition spread_on (P : nat -> nat -> Prop) : Prop :=
  forall u v w, (forall j i, P j i -> u * INR i + v * INR j = w) -> u = 0 /\ v = 0.

(** the points a fitter is given; a fitter that [obeys] masks leaves out those marked true *)
Definition fitted_points (obeys : bool) (x y : list nat) (z : list R) (mask : option (list bool)) : list point :=
  let all := combine (combine x y) z in
  match mask with
  | Some k => if obeys then map fst (filter (fun q => negb (snd q)) (combine all k)) else all
  | None => all
  end.

(** [linear] fits planes by least squares, whenever the positions leave only one best plane *)
Definition fits_planes {M O} (linear : fitter (T:=xr) M O) (planar : M) (evalM : M -> smodel (T:=xr)) (obeys : bool) : Prop :=
  forall calc o x y z mask, length y = length x -> length z = length x -> (forall k, mask = Some k -> length k = length x) ->
    spread (map fst (fitted_points obeys x y z mask)) ->
  exists m f a b c, ft_run linear calc planar (mkfd x y (map Fin z) mask None) o = Ok m /\
    evalM m = pointwise f /\ real_function f (plane a b c) /\ best_plane (fitted_points obeys x y z mask) a b c.

(** m' is m plus a plane *)
Definition plus_plane (a b c : R) (m m' : img xr) : Prop :=
  iny m' = iny m /\ inx m' = inx m /\
  forall j i, (j < iny m)%nat -> (i < inx m)%nat ->
    px m' j i = match px m j i with Fin v => Fin (v + plane a b c (INR i) (INR j)) | x => x end.

(** pixel (j, i) of s is a number *)
Definition good (s : img xr) (j i : nat) : Prop := (j < iny s)%nat /\ (i < inx s)%nat /\ px s j i <> NaN.
(** pixel (j, i) of s is a number that a fitter is not told to leave out *)
Definition unmasked (obeys : bool) (s : img xr) (mask : img bool) (j i : nat) : Prop :=
  good s j i /\ (obeys = true -> px mask j i = false).
(** every pixel of s that is a number is a finite one *)
Definition no_infinity (s : img xr) : Prop := forall j i, good s j i -> exists v, px s j i = Fin v.
(** a surface added to the image does not change which pixels are clipped *)
Definition clips_alike (clip : img xr -> img bool) (s s' : img xr) : Prop :=
  forall j i, good s j i -> px (clip s) j i = px (clip s') j i.
(** pixel (j, i) of s is within sg standard deviations of the mean *)
Definition inside (s : img xr) (mean std sg : R) (j i : nat) : Prop :=
  (j < iny s)%nat /\ (i < inx s)%nat /\ exists v, px s j i = Fin v /\ mean - std * sg <= v <= mean + std * sg.

(** weighted sum of the squared distances between values and a surface *)
Definition wmisfit (g : R -> R -> R) (l : list (point * R)) : R := total (map (fun q => (snd q * (snd (fst q) - g (col (fst q)) (line (fst q)))) ^ 2) l).
Definition weights_or_one (w : option (list R)) (n : nat) : list R := match w with Some w => w | None => repeat 1 n end.

(** [f] looks for the member of the family with the smallest misfit, and finds it when the misfit can be 0 *)
Definition finds_exact {M O} (f : fitter (T:=xr) M O) (model : M) (evalM : M -> smodel (T:=xr)) (family : (R -> R -> R) -> Prop) : Prop :=
  forall calc o x y z w g0, length y = length x -> length z = length x -> (forall k, w = Some k -> length k = length x) ->
    let data := combine (combine (combine x y) z) (weights_or_one w (length x)) in
    family g0 -> wmisfit g0 data = 0 ->
  exists m fx g, ft_run f calc model (mkfd x y (map Fin z) None (option_map (map Fin) w)) o = Ok m /\
    evalM m = pointwise fx /\ real_function fx g /\ family g /\ forall g', family g' -> wmisfit g data <= wmisfit g' data.

(** the weights of the pixels that are numbers are finite and not 0 *)
Definition nonzero_weights (weights : option (img xr)) (image : img xr) : Prop :=
  forall ws j i, weights = Some ws -> good image j i -> exists v, px ws j i = Fin v /\ v <> 0.

(** pixel (j, i) is a number that fit_background does not clip *)
Definition remaining (sigma_clip : img xr -> xr -> img bool) (obeys : bool) (image : img xr) (sigma : option xr) (j i : nat) : Prop :=
  good image j i /\ forall s, sigma = Some s -> obeys = true -> px (sigma_clip image s) j i = false.
