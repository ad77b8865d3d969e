(** Specifications for disturbed measurements: residual background, noise, a change of length unit. *)
From Verif Require Import Base Num M_Petrosian S_Petrosian S_Conv.
Local Open Scope R_scope.

(** fluxes within the areas [A] when every pixel value is [b] too high *)
Definition with_sky (b : R) (A L : list R) : list R := map2 (fun a l => l + b * a) A L.
(** local over mean surface brightness, both [b] too high *)
Definition sky_ratio (b : R) (A L : list R) (i : nat) : R := (local_sb A L i + b) / (mean_sb A L i + b).

(** floating-point arrays without uncertainties *)
Definition plain (rs A L : list R) : pdata xr := mkdata DFloat (map Fin rs) (map Fin A) (map Fin L) None None.

(** straight lines between neighbouring samples: scipy's "linear" *)
Definition straight (interp : list xr -> list xr -> result (xr -> xr)) : Prop :=
  forall xs ys : list R, increasing xs -> length xs = length ys -> (2 <= length xs)%nat ->
  exists f, interp (map Fin xs) (map Fin ys) = Ok f /\
    forall i x, (S i < length xs)%nat -> at_ xs i <= x <= at_ xs (S i) ->
    f (Fin x) = Fin (at_ ys i + (x - at_ xs i) / (at_ xs (S i) - at_ xs i) * (at_ ys (S i) - at_ ys i)).

(** radii and areas as an aperture series gives them, with positive enclosed fluxes whose mean surface
    brightness in no aperture is below that of its outermost annulus *)
Definition declining (rs A L : list R) : Prop :=
  (2 < length rs)%nat /\ length A = length rs /\ length L = length rs /\
  increasing rs /\ 0 < at_ rs 0 /\ increasing A /\ 0 < at_ A 0 /\
  forall i, (1 <= i < length rs)%nat -> 0 < mean_sb A L i /\ local_sb A L i <= mean_sb A L i.
