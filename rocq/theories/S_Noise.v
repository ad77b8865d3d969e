(** Specifications for small errors in the fluxes. *)
From Verif Require Import Base Num M_Petrosian S_Petrosian.
Local Open Scope R_scope.

(** every entry of [y'] within [d] of that of [y] *)
Definition near (d : R) (y y' : list R) : Prop :=
  length y' = length y /\ forall i, (i < length y)%nat -> Rabs (at_ y' i - at_ y i) <= d.

(** the Petrosian profile searched for eta: 1 at radius 0, then local over mean surface brightness *)
Definition eta_profile (A L : list R) : list R := 1 :: map (petro_ratio A L) (seq 1 (length A - 1)).

(** on the nodes [xs], errors of the interpolant are bounded by a multiple of the errors of the samples *)
Definition steady (interp : list xr -> list xr -> result (xr -> xr)) (xs : list R) : Prop := exists K, 0 <= K /\
  forall ys ys' d, length ys = length xs -> near d ys ys' ->
  exists f f', interp (map Fin xs) (map Fin ys) = Ok f /\ interp (map Fin xs) (map Fin ys') = Ok f' /\
    forall x, at_ xs 0 <= x <= at_ xs (length xs - 1) ->
    exists v v', f (Fin x) = Fin v /\ f' (Fin x) = Fin v' /\ Rabs (v' - v) <= K * d.

(** [i] is the sample reported for the target [v], without a tie: some sample lies strictly beyond [v], all
    earlier ones strictly before it, and among these [i] is closer to [v] than every other *)
Definition clear_cut (growing : bool) (v : R) (y : list R) (i : nat) : Prop :=
  exists c, (i <= c < length y)%nat /\
    (if growing then v < at_ y c else at_ y c < v) /\
    (forall j, (j < c)%nat -> if growing then at_ y j < v else v < at_ y j) /\
    forall j, (j <= c)%nat -> j <> i -> Rabs (at_ y i - v) < Rabs (at_ y j - v).
