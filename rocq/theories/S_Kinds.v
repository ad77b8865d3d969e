(** Specifications of the values between samples for the kinds of interpolation. *)
From Verif Require Import Base Num M_Petrosian S_Petrosian.
Local Open Scope R_scope.

(** the value of the closest sample; [low] tells whether a tie goes to the earlier one *)
Definition nearest_value (low : bool) (xs ys : list R) (x y : R) : Prop :=
  exists i, (i < length xs)%nat /\ y = at_ ys i /\
    forall j, (j < length xs)%nat -> j <> i -> Rabs (x - at_ xs i) < Rabs (x - at_ xs j) \/
      (Rabs (x - at_ xs i) = Rabs (x - at_ xs j) /\ if low then (i < j)%nat else (j < i)%nat).
(** the value of the last sample at or before x *)
Definition previous_value (xs ys : list R) (x y : R) : Prop :=
  exists i, (i < length xs)%nat /\ y = at_ ys i /\ at_ xs i <= x /\ forall j, (i < j < length xs)%nat -> x < at_ xs j.
(** the value of the first sample at or after x *)
Definition next_value (xs ys : list R) (x y : R) : Prop :=
  exists i, (i < length xs)%nat /\ y = at_ ys i /\ x <= at_ xs i /\ forall j, (j < i)%nat -> at_ xs j < x.
(** the point of the chord between the samples around x *)
Definition chord_value (xs ys : list R) (x y : R) : Prop :=
  exists i, (S i < length xs)%nat /\ at_ xs i <= x <= at_ xs (S i) /\
    (y - at_ ys i) * (at_ xs (S i) - at_ xs i) = (at_ ys (S i) - at_ ys i) * (x - at_ xs i).

(** the value that each kind gives *)
Definition kind_value (k : kind) (xs ys : list R) (x y : R) : Prop :=
  match k with
  | KNearest => nearest_value true xs ys x y
  | KNearestUp => nearest_value false xs ys x y
  | KPrevious | KZero | KOrder 0 => previous_value xs ys x y
  | KNext => next_value xs ys x y
  | KLinear | KSlinear | KOrder 1 => chord_value xs ys x y
  | _ => False
  end.

(** the kinds without curvature, and those that do not look at a NaN *)
Definition uncurved (k : kind) : Prop :=
  k = KLinear \/ k = KSlinear \/ k = KOrder 1 \/ k = KZero \/ k = KOrder 0 \/
  k = KNearest \/ k = KNearestUp \/ k = KPrevious \/ k = KNext.
Definition blind_to_nan (k : kind) : Prop := k = KNearest \/ k = KNearestUp \/ k = KPrevious \/ k = KNext.
Definition sees_nan (k : kind) : Prop :=
  k = KLinear \/ k = KSlinear \/ k = KOrder 1 \/ k = KZero \/ k = KOrder 0 \/ k = KCubic \/ k = KOrder 3.

(** equal samples are interpolated by their common value *)
Definition keeps_level (interp : list xr -> list xr -> result (xr -> xr)) (xs : list R) : Prop :=
  forall c, exists f, interp (map Fin xs) (map Fin (map (fun _ => c) xs)) = Ok f /\
    forall x, at_ xs 0 <= x <= at_ xs (length xs - 1) -> f (Fin x) = Fin c.
