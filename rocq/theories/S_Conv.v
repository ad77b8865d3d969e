(** Specification of an ideal Sersic galaxy measured in elliptical apertures. *)
From Verif Require Import Base Num M_Sersic M_Petrosian S_Petrosian.
Local Open Scope R_scope.

(** area of an ellipse with semi-major axis r and ellipticity e *)
Definition ellipse_area (e r : R) : R := PI * (r * r) * (1 - e).
(** [L] are the fluxes of the Sersic profile within the radii [rs] *)
Definition sersic_fluxes (A re n e : R) (rs L : list R) : Prop :=
  Forall2 (fun r l => sersic_enclosed (Fin r) (Fin A) (Fin re) (Fin n) (Fin e) = Fin l) rs L.
(** consecutive entries are less than [d] apart *)
Definition fine (d : R) (l : list R) : Prop := forall i, (S i < length l)%nat -> at_ l (S i) - at_ l i < d.
Definition last_of (l : list R) : R := at_ l (length l - 1).
Definition between (a b y : R) : Prop := (a <= y <= b) \/ (b <= y <= a).
(** an interpolation method that succeeds and never leaves the values at the two neighbouring samples:
    true for scipy's "linear", "nearest", "previous", "next", false for splines *)
Definition no_overshoot (interp : list xr -> list xr -> result (xr -> xr)) : Prop :=
  forall xs ys : list R, increasing xs -> length xs = length ys -> (2 <= length xs)%nat ->
  exists f, interp (map Fin xs) (map Fin ys) = Ok f /\
    forall i x, (S i < length xs)%nat -> at_ xs i <= x <= at_ xs (S i) ->
    exists y, f (Fin x) = Fin y /\ between (at_ ys i) (at_ ys (S i)) y.

(** radii less than [d] apart (the first one less than [d] from the centre), reaching at least
    [reach], with the fluxes of the profile *)
Definition sampled (A re n e d reach : R) (rs L : list R) : Prop :=
  (2 < length rs)%nat /\ increasing rs /\ 0 < at_ rs 0 /\ fine d (0 :: rs) /\ reach <= last_of rs /\
  sersic_fluxes A re n e rs L.

(** [r] is the radius that encloses the share [f / ef] of the flux within [epsilon * rt] *)
Definition true_radius (A re n e rt epsilon ef f r : R) : Prop :=
  0 < r /\ exists Fe,
    sersic_enclosed (Fin (epsilon * rt)) (Fin A) (Fin re) (Fin n) (Fin e) = Fin Fe /\
    sersic_enclosed (Fin r) (Fin A) (Fin re) (Fin n) (Fin e) = Fin (Fe * (f / ef)).

(** the arrays handed to [Petrosian]: floating-point areas, no uncertainties *)
Definition ideal_data (e : R) (rs L : list R) : pdata xr :=
  mkdata DFloat (map Fin rs) (map Fin (map (ellipse_area e) rs)) (map Fin L) None None.
(** the settings, with an interpolation method that does not overshoot and a grid finer than [d] *)
Definition settings (mk : kind -> list xr -> list xr -> result (xr -> xr)) (eta epsilon ef d : R) (rs : list R)
    (s : psettings xr) : Prop :=
  s_eta s = Fin eta /\ s_epsilon s = Fin epsilon /\ s_epsilon_fraction s = Fin ef /\
  exists k, s_kind s = Some k /\ no_overshoot (mk k) /\ last_of rs < d * INR (s_num s - 1).
(** the attributes of an object with settings [s] that hold the radius / the flux of the share [f] *)
Definition radius_of (s : psettings xr) (f : R) (a : attr (T:=xr)) : Prop :=
  a = A_fraction_to_r (Fin f) \/ (a = A_r_half_light /\ f = 1 / 2) \/
  (a = A_r_total_flux /\ s_total_flux_fraction s = Fin f).
Definition flux_of (s : psettings xr) (f : R) (a : attr (T:=xr)) : Prop :=
  (a = A_half_flux /\ f = 1 / 2) \/ (a = A_total_flux /\ s_total_flux_fraction s = Fin f).
Definition concentration_of (f1 f2 : R) (a : attr (T:=xr)) : Prop :=
  (a = A_c2080 /\ f1 = 1 / 5 /\ f2 = 4 / 5) \/ (a = A_c5090 /\ f1 = 1 / 2 /\ f2 = 9 / 10).
