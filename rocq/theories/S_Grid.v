(** Specifications for resampled curves in double precision. *)
From Verif Require Import Base Num M_Petrosian S_Petrosian.
Local Open Scope R_scope.

(** [n] points spread evenly from [lo] to [hi] *)
Definition even_point (lo hi : R) (n k : nat) : R := lo + INR k * ((hi - lo) / INR (n - 1)).
(** the points of [n] even ones from [lo] to [hi] are far apart compared with rounding errors [u] *)
Definition resolved (u lo hi : R) (n : nat) : Prop := 10 * u * hi < (hi - lo) / INR (n - 1).
(** the kinds of interpolation along chords *)
Definition chordal (k : kind) : Prop := k = KLinear \/ k = KSlinear \/ k = KOrder 1.
Definition end_of (l : list R) : R := at_ l (length l - 1).
