(** Specifications for match_catalogs. *)
From Verif Require Import Base Num.
Local Open Scope R_scope.

(** a direction given by right ascension and declination in degrees *)
Definition toward (ra dec : R) (v : R * R * R) : Prop :=
  v = (cos (dec * PI / 180) * cos (ra * PI / 180), cos (dec * PI / 180) * sin (ra * PI / 180), sin (dec * PI / 180)).

(** s is the angle between two directions, in radians: the arc of the sphere, from the scalar product *)
Definition apart (ra1 dec1 ra2 dec2 s : R) : Prop :=
  0 <= s <= PI /\ forall a b c d e f, toward ra1 dec1 (a, b, c) -> toward ra2 dec2 (d, e, f) ->
    cos s = a * d + b * e + c * f.

(** a search for neighbours in space: the index of a point that is not farther than any other *)
Definition finds_nearest (query : list (R * R * R) -> R * R * R -> nat) : Prop :=
  forall l a b c, l <> [] -> exists d e f, nth_error l (query l (a, b, c)) = Some (d, e, f) /\
    forall d' e' f', In (d', e', f') l ->
      (d - a) ^ 2 + (e - b) ^ 2 + (f - c) ^ 2 <= (d' - a) ^ 2 + (e' - b) ^ 2 + (f' - c) ^ 2.

(** declinations, in the unit of u degrees, are between the poles *)
Definition polar (dec : list R) (u : R) : Prop := forall d, In d dec -> -90 <= d * u <= 90.

(** right ascensions, in the unit of u degrees, that differ by whole turns *)
Inductive same_turn (u : R) : list R -> list R -> Prop :=
| st_nil : same_turn u [] []
| st_cons a b (k : Z) la lb : b * u = a * u + 360 * IZR k -> same_turn u la lb -> same_turn u (a :: la) (b :: lb).
