(** Small specifications for utils.py, independent of the model. *)
From Verif Require Import Base Num L_Numpy M_Utils.

(** [x] is on the far side of [v]. *)
Definition crossed (growing : bool) (v x : xr) : Prop :=
  if growing then xle v x else xle x v.

(** [c] is the position of the first entry on the far side of [v]. *)
Definition first_crossing (growing : bool) (v : xr) (a : list xr) (c : nat) : Prop :=
  (exists x, nth_error a c = Some x /\ crossed growing v x) /\
  (forall j y, j < c -> nth_error a j = Some y -> ~ crossed growing v y).

(** distance from [x] to the finite value [v] *)
Definition dist (v : R) (x : xr) : xr :=
  match x with
  | NaN => NaN
  | PInf | NInf => PInf
  | Fin r => Fin (Rabs (r - v))
  end.

(** header keywords of an HST image: finite, sensitivity and wavelength positive *)
Definition good_header (h : hst_header) (flam plam zpt : R) : Prop :=
  PHOTFLAM h = Fin flam /\ PHOTPLAM h = Fin plam /\ PHOTZPT h = Fin zpt /\ (0 < flam)%R /\ (0 < plam)%R.
(** decimal logarithm *)
Definition log10 (x : R) : R := (ln x / ln 10)%R.
(** AB magnitude of the flux [x] *)
Definition ab_mag (flam plam zpt x : R) : R :=
  (- (5 / 2) * log10 x - 5 / 2 * log10 flam + zpt - 5 * log10 plam + 18692 / 1000)%R.

(** square pixels of [s] units, [u] being the size of the unit in degrees; the two scales agree
    to 1e-8 + 1e-5 times the second *)
Definition good_wcs (w : wcs) (s u : R) : Prop :=
  exists s', scale0 w = Fin s /\ scale1 w = Fin s' /\ (Rabs (s - s') <= 1 / 100000000 + 1 / 100000 * Rabs s')%R /\
    cunit w = Fin u /\ (0 < s)%R /\ (0 < u)%R.

(** a window of [d] pixels centred on [pos] fits an axis of [n] pixels *)
Definition window_inside (d : nat) (pos : Z) (n : nat) : Prop :=
  (0 <= pos - Z.of_nat d / 2 /\ pos + Z.of_nat d / 2 <= Z.of_nat n)%Z.
(** sizes accepted along one axis *)
Definition axis_ok (d : nat) (pos : Z) (n : nat) : Prop :=
  d <= 1 \/ (Nat.Even d /\ window_inside d pos n).
