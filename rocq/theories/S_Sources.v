(** Small specifications for the source getters: what a cell means as a plain number or angle. *)
From Coq Require Import String.
From Verif Require Import Base Num M_Utils M_Petrosian M_Sources.
Local Open Scope R_scope.

(** [c] holds the whole number [z], the number [x] *)
Definition whole (c : cell) (z : Z) : Prop := c = CInt z.
(** the pure number in a cell; a Quantity without dimension has unit size 1 *)
Definition number (c : cell) (x : R) : Prop :=
  c = CNum (Fin x) \/ c = CQty {| qval := Fin x; qunit := Fin 1 |}.
(** the angle, in degrees: plain numbers of the column "orientation" are degrees *)
Definition angle_deg (c : cell) (d : R) : Prop :=
  c = CNum (Fin d) \/ (exists v u, c = CQty {| qval := Fin v; qunit := Fin u |} /\ v * u = d).
(** the angle, in radians: plain numbers are radians, a Quantity has the unit radian *)
Definition angle_rad (c : cell) (t : R) : Prop :=
  c = CNum (Fin t) \/ c = CQty {| qval := Fin t; qunit := Fin (180 / PI) |}.

(** first cell under a name *)
Definition under (cells : list (string * cell)) (name : string) (c : cell) : Prop :=
  exists before after, cells = (before ++ (name, c) :: after)%list /\ forall c', ~ In (name, c') before.
Definition without (cells : list (string * cell)) (name : string) : Prop := forall c, ~ In (name, c) cells.

(** one of the two radii of a Petrosian object, with its method in arcsec *)
Definition pair_of mk (o : petrosian xr) (a : attr (T:=xr)) (get : wcs -> result xr) : Prop :=
  (a = A_r_half_light /\ get = r_half_light_arcsec mk o) \/
  (a = A_r_total_flux /\ get = r_total_flux_arcsec mk o).

(** a parameter given, or its default *)
Definition value (d : R) (o : option R) : R := match o with Some x => x | None => d end.
