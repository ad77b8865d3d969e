(** Small specifications for the radius searches of core.py. *)
From Verif Require Import Base Num L_Numpy S_Utils S_Petrosian.
Local Open Scope R_scope.

Definition is_min (x : list R) (lo : R) : Prop := In lo x /\ forall r, In r x -> lo <= r.
Definition is_max (x : list R) (hi : R) : Prop := In hi x /\ forall r, In r x -> r <= hi.

(** [n] equally spaced points from [lo] to [hi] *)
Definition even_grid (lo hi : R) (n : nat) (g : list R) : Prop :=
  length g = n /\
  forall i, (i < n)%nat -> at_ g i = lo + INR i * ((hi - lo) / INR (n - 1)).

(** [g], [q]: radii and values after resampling the curve (x, y): the curve itself when
    no interpolation is asked for, otherwise [max num (length x)] equally spaced radii and the
    interpolant's values there. *)
Definition resampled {K} (mk : K -> list xr -> list xr -> result (xr -> xr))
    (kind : option K) (num : nat) (x : list R) (y : list xr) (g : list R) (q : list xr) : Prop :=
  match kind with
  | None => g = x /\ q = y
  | Some k => exists f lo hi, mk k (map Fin x) y = Ok f /\ is_min x lo /\ is_max x hi /\
      even_grid lo hi (Nat.max num (length x)) g /\ q = map f (map Fin g)
  end.

(** the value [v] is reached by the samples [q] *)
Definition reached (growing : bool) (v : xr) (q : list xr) : Prop :=
  exists z, In z q /\ crossed growing v z.

(** [i] is the sample closest to [v] among those up to the first crossing *)
Definition closest_sample (growing : bool) (v : R) (q : list xr) (i : nat) : Prop :=
  exists c x, first_crossing growing (Fin v) q c /\ (i <= c)%nat /\ nth_error q i = Some x /\
    (forall j y, (j <= c)%nat -> nth_error q j = Some y -> xle (dist v x) (dist v y)) /\
    (forall j y, (j < i)%nat -> nth_error q j = Some y -> xlt (dist v x) (dist v y)).

(** the radius reported for the target [v] *)
Definition found_radius (growing : bool) (v : R) (g : list R) (q : list xr) (out : xr) : Prop :=
  (~ reached growing (Fin v) q /\ out = NaN) \/
  (reached growing (Fin v) q /\ exists i a, out = Fin a /\ nth_error g i = Some a /\
     (Forall xok q -> closest_sample growing v q i)).
