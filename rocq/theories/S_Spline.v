(** Specification of interpolation that may leave the values at the neighbouring samples, as splines do. *)
From Verif Require Import Base Num M_Petrosian S_Petrosian S_Conv.
Local Open Scope R_scope.

(** interpolation of these samples succeeds, and between two samples it leaves the interval between their
    values by at most [w] *)
Definition overshoots_within (w : R) (interp : list xr -> list xr -> result (xr -> xr)) (xs ys : list R) : Prop :=
  exists f, interp (map Fin xs) (map Fin ys) = Ok f /\
    forall i x, (S i < length xs)%nat -> at_ xs i <= x <= at_ xs (S i) ->
    exists y z, f (Fin x) = Fin y /\ between (at_ ys i) (at_ ys (S i)) z /\ Rabs (y - z) <= w.

(** the samples of the Petrosian profile of fluxes [L] within areas [As]: 1 in the centre, and from the second
    radius on the brightness of the annulus over the mean brightness inside *)
Definition profile_samples (As L ys : list R) : Prop :=
  length ys = length L /\ at_ ys 0 = 1 /\ forall i, (1 <= i < length L)%nat -> at_ ys i = petro_ratio As L i.

(** both curves the measurement interpolates: that of the profile, by at most [w], and that of growth, by at
    most [v] *)
Definition calm (w v : R) (interp : list xr -> list xr -> result (xr -> xr)) (rs As L : list R) : Prop :=
  overshoots_within v interp rs L /\
  forall ys, profile_samples As L ys -> overshoots_within w interp (0 :: tl rs) ys.

(** the settings: an interpolation method and a grid finer than [d] *)
Definition set_to (eta epsilon ef d : R) (rs : list R) (k : kind) (s : psettings xr) : Prop :=
  s_eta s = Fin eta /\ s_epsilon s = Fin epsilon /\ s_epsilon_fraction s = Fin ef /\
  s_kind s = Some k /\ last_of rs < d * INR (s_num s - 1).
(** the same, with overshoots of up to [w] on the data of an ideal galaxy *)
Definition settings_within (mk : kind -> list xr -> list xr -> result (xr -> xr)) (eta epsilon ef d w e : R)
    (rs L : list R) (s : psettings xr) : Prop :=
  exists k, set_to eta epsilon ef d rs k s /\ calm w w (mk k) rs (map (ellipse_area e) rs) L.

(** [f] passes through the samples, and on each step it has a slope that changes at a rate of at most [M] *)
Definition bends_within (M : R) (f : R -> R) (xs ys : list R) : Prop :=
  length xs = length ys /\ (forall i, (i < length xs)%nat -> f (at_ xs i) = at_ ys i) /\
  forall i, (S i < length xs)%nat -> exists f',
    (forall x, at_ xs i <= x <= at_ xs (S i) -> derivable_pt_lim f x (f' x)) /\
    forall x y, at_ xs i <= x <= y -> y <= at_ xs (S i) -> Rabs (f' y - f' x) <= M * (y - x).
