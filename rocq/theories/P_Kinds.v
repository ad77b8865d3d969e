(** Property theorems: resolution of measured radii, kinds of interpolation, and missing Petrosian radii (C140-C143). *)
From Verif Require Import Base Num Numpy M_Utils M_Petrosian M_Interp M_Cubic M_Kinds S_PetObj S_Zoom S_Utils S_Petrosian S_PetroR S_Conv S_Robust S_Noise S_Cubic S_Resolution S_Kinds.
From Verif Require L_Resolution L_Kinds L_Kinds2 L_Kinds3 E_Kinds.
Local Open Scope R_scope.

(** C140: a radius is reported within one step of the resampling grid of the place where the interpolated curve has
    the wanted value; without interpolation it is the better of the two samples around that place *)
Theorem C140_petrosian : forall mk x rs y ps eta k num f g r,
  (1 <= length rs)%nat -> length ps = length rs -> increasing (0 :: rs) ->
  mk k (map Fin (0 :: rs)) (Fin 1 :: ps) = Ok f -> (forall t, 0 <= t <= last_of rs -> f (Fin t) = Fin (g t)) ->
  falls_to (spacing 0 (last_of rs) (Nat.max num (length rs + 1))) g 0 (last_of rs) eta r ->
  exists a, calculate_petrosian_r mk (x :: map Fin rs) (y :: ps) None (Fin eta) (Some k) num = Ok (Fin a, NaN) /\
    Rabs (a - r) < spacing 0 (last_of rs) (Nat.max num (length rs + 1)).
Proof. exact L_Resolution.petrosian_resolution. Qed.
Print Assumptions C140_petrosian.

Theorem C140_fraction : forall mk frac rs L a pe eps ef k num f g r,
  (2 <= length rs)%nat -> length L = length rs -> increasing rs -> at_ rs 0 <= a * eps <= last_of rs -> ef <> 0 ->
  mk k (map Fin rs) (map Fin L) = Ok f -> (forall t, at_ rs 0 <= t <= last_of rs -> f (Fin t) = Fin (g t)) ->
  rises_to (spacing (at_ rs 0) (last_of rs) (Nat.max num (length rs))) g (at_ rs 0) (last_of rs) (g (a * eps) * (frac / ef)) r ->
  exists b, fraction_to_r mk (Fin frac) (map Fin rs) (map Fin L) (Fin a) None pe (Fin eps) (Fin ef) (Some k) num = Ok (Fin b, NaN) /\
    Rabs (b - r) < spacing (at_ rs 0) (last_of rs) (Nat.max num (length rs)).
Proof. exact L_Resolution.fraction_resolution. Qed.
Print Assumptions C140_fraction.

Theorem C140_samples : forall mk x rs y V eta num c,
  (S c < length rs)%nat -> length V = length rs -> at_ V (S c) <= eta -> eta < at_ V c -> eta < 1 ->
  (forall i, (S i <= c)%nat -> at_ V (S i) < at_ V i) -> at_ V 0 < 1 ->
  calculate_petrosian_r mk (x :: map Fin rs) (y :: map Fin V) None (Fin eta) None num
  = Ok (Fin (if Rle_dec (at_ V c - eta) (eta - at_ V (S c)) then at_ rs c else at_ rs (S c)), NaN).
Proof. exact L_Resolution.petrosian_samples. Qed.
Print Assumptions C140_samples.

Example C140_example : exists f, mk_linear KLinear (map Fin [0; 1; 2; 3]) (Fin 1 :: map Fin [3 / 4; 1 / 2; 1 / 4]) = Ok f /\
  (forall t, 0 <= t <= last_of [1; 2; 3] -> f (Fin t) = Fin (E_Kinds.fall t)) /\
  falls_to (spacing 0 (last_of [1; 2; 3]) (Nat.max 10 4)) E_Kinds.fall 0 (last_of [1; 2; 3]) (2 / 5) (12 / 5) /\
  spacing 0 (last_of [1; 2; 3]) (Nat.max 10 4) = 1 / 3.
Proof. exact E_Kinds.C140_ex1. Qed.
Example C140_example_fraction : exists f, mk_linear KLinear (map Fin [1; 2; 3]) (map Fin [1; 3; 5]) = Ok f /\
  (forall t, at_ [1; 2; 3] 0 <= t <= last_of [1; 2; 3] -> f (Fin t) = Fin (E_Kinds.grow t)) /\
  rises_to (spacing (at_ [1; 2; 3] 0) (last_of [1; 2; 3]) (Nat.max 10 3)) E_Kinds.grow (at_ [1; 2; 3] 0) (last_of [1; 2; 3])
    (E_Kinds.grow (3 / 2 * 2) * (1 / 2 / 1)) (7 / 4).
Proof. exact E_Kinds.C140_ex2. Qed.
Example C140_example_samples :
  calculate_petrosian_r mk_linear (NaN :: map Fin [1; 2; 3]) (NaN :: map Fin [9 / 10; 1 / 2; 1 / 10]) None (Fin (1 / 5)) None 5 = Ok (Fin 3, NaN) /\
  calculate_petrosian_r mk_linear (NaN :: map Fin [1; 2; 3]) (NaN :: map Fin [9 / 10; 1 / 2; 1 / 10]) None (Fin (3 / 10)) None 5 = Ok (Fin 2, NaN).
Proof. exact E_Kinds.C140_ex3. Qed.

(** C141: the kinds of interpolation other than cubic: their values, no overshooting, errors not amplified, units *)
Theorem C141_values : forall other k xs ys, uncurved k -> increasing xs -> (2 <= length xs)%nat -> length ys = length xs ->
  exists f, mk_scipy other k (map Fin xs) (map Fin ys) = Ok f /\
    forall x, at_ xs 0 <= x <= last_of xs -> exists y, f (Fin x) = Fin y /\ kind_value k xs ys x y.
Proof. exact L_Kinds.kind_values. Qed.
Print Assumptions C141_values.

Theorem C141_between : forall other k, uncurved k -> no_overshoot (mk_scipy other k).
Proof. exact L_Kinds.straight_between. Qed.
Print Assumptions C141_between.

Theorem C141_errors : forall other k xs, uncurved k -> increasing xs -> (2 <= length xs)%nat ->
  forall ys ys' d, length ys = length xs -> near d ys ys' ->
  exists f f', mk_scipy other k (map Fin xs) (map Fin ys) = Ok f /\ mk_scipy other k (map Fin xs) (map Fin ys') = Ok f' /\
    forall x, at_ xs 0 <= x <= last_of xs -> exists v v', f (Fin x) = Fin v /\ f' (Fin x) = Fin v' /\ Rabs (v' - v) <= d.
Proof. exact L_Kinds.straight_steady. Qed.
Print Assumptions C141_errors.

Theorem C141_units : forall other,
  (scale_equivariant other -> scale_equivariant (mk_scipy other)) /\ (stretch_equivariant other -> stretch_equivariant (mk_scipy other)).
Proof. exact (fun other => conj (L_Kinds2.scipy_scale other) (L_Kinds2.scipy_stretch other)). Qed.
Print Assumptions C141_units.

Example C141_example : increasing [1; 2; 3] /\ scale_equivariant mk_linear /\ stretch_equivariant mk_linear /\
  exists f1 f2 f3 f4, mk_scipy mk_linear KNearest (map Fin [1; 2; 3]) (map Fin [5; 7; 6]) = Ok f1 /\ f1 (Fin (3 / 2)) = Fin 5 /\
    mk_scipy mk_linear KNearestUp (map Fin [1; 2; 3]) (map Fin [5; 7; 6]) = Ok f2 /\ f2 (Fin (3 / 2)) = Fin 7 /\
    mk_scipy mk_linear KPrevious (map Fin [1; 2; 3]) (map Fin [5; 7; 6]) = Ok f3 /\ f3 (Fin (8 / 3)) = Fin 7 /\
    mk_scipy mk_linear KNext (map Fin [1; 2; 3]) (map Fin [5; 7; 6]) = Ok f4 /\ f4 (Fin (8 / 3)) = Fin 6.
Proof. exact E_Kinds.C141_ex. Qed.

(** C142: without a Petrosian radius, "nearest", "nearest-up", "previous" and "next" still report the radius of a
    fraction, that of the light within the last radius; the other kinds report NaN *)
Theorem C142_reported : forall other k frac rs flux p eps ef pe num, blind_to_nan k -> increasing rs -> (2 <= length rs)%nat ->
  p * eps = last_of rs ->
  fraction_to_r (mk_scipy other) frac (map Fin rs) flux NaN None pe (Fin eps) ef (Some k) num =
  fraction_to_r (mk_scipy other) frac (map Fin rs) flux (Fin p) None pe (Fin eps) ef (Some k) num.
Proof. exact L_Kinds2.blind_fraction. Qed.
Print Assumptions C142_reported.

Theorem C142_missing : forall other k frac rs flux eps ef pe num v err, sees_nan k -> (2 <= length rs)%nat -> ef <> 0 ->
  fraction_to_r (mk_scipy other) (Fin frac) (map Fin rs) flux NaN None pe (Fin eps) (Fin ef) (Some k) num = Ok (v, err) ->
  v = NaN /\ err = NaN.
Proof. exact L_Kinds2.seen_fraction. Qed.
Print Assumptions C142_missing.

Theorem C142_attributes : forall other k (o : petrosian xr) rs frac eps p, blind_to_nan k -> increasing rs -> (2 <= length rs)%nat ->
  d_r (p_data o) = map Fin rs -> d_flux_err (p_data o) = None -> s_kind (p_set o) = Some k -> s_epsilon (p_set o) = Fin eps ->
  p * eps = last_of rs -> read (mk_scipy other) o A_r_petrosian = Ok (VNum NaN) -> read (mk_scipy other) o A_r_petrosian_err = Ok (VNum NaN) ->
  forall a, radius_of (p_set o) frac a ->
  read (mk_scipy other) o a = match fraction_to_r (mk_scipy other) (Fin frac) (map Fin rs) (d_flux (p_data o)) (Fin p) None (Some NaN) (Fin eps)
      (s_epsilon_fraction (p_set o)) (Some k) (s_num (p_set o)) with Ok r => Ok (VNum (fst r)) | Err e => Err e end.
Proof. exact L_Kinds2.blind_object. Qed.
Print Assumptions C142_attributes.

(** C143: a source of uniform surface brightness has no Petrosian radius; its half-light radius is missing, or, with the
    kinds of C142, that of the light within the last radius *)
Theorem C143_radius : forall mk rs A b eta s, (2 < length rs)%nat -> length A = length rs -> increasing rs -> 0 < at_ rs 0 ->
  increasing A -> 0 < at_ A 0 -> b <> 0 -> s_eta s = Fin eta ->
  (forall k, s_kind s = Some k -> keeps_level (mk k) (0 :: tl rs)) ->
  exists o, Petrosian_new (plain rs A (map (Rmult b) A)) s = Ok o /\
    (eta < 1 -> read mk o A_r_petrosian = Ok (VNum NaN) /\ read mk o A_r_petrosian_err = Ok (VNum NaN)) /\
    (1 <= eta -> read mk o A_r_petrosian = Ok (VNum (Fin 0))).
Proof. exact L_Kinds2.uniform_radius. Qed.
Print Assumptions C143_radius.

Theorem C143_level : (forall other k xs, uncurved k -> increasing xs -> (2 <= length xs)%nat -> keeps_level (mk_scipy other k) xs) /\
  (forall interp xs, cubic_spline interp -> increasing xs -> (4 <= length xs)%nat -> keeps_level interp xs).
Proof. exact (conj L_Kinds2.uncurved_level L_Kinds2.spline_level). Qed.
Print Assumptions C143_level.

Theorem C143_missing : forall other rs A b eta eps ef s k, (2 < length rs)%nat -> length A = length rs -> increasing rs -> 0 < at_ rs 0 ->
  increasing A -> 0 < at_ A 0 -> b <> 0 -> s_eta s = Fin eta -> eta < 1 -> s_epsilon s = Fin eps -> s_epsilon_fraction s = Fin ef -> ef <> 0 ->
  s_kind s = Some k -> sees_nan k -> uncurved k \/ (4 <= length rs)%nat ->
  exists o, Petrosian_new (plain rs A (map (Rmult b) A)) s = Ok o /\ read (mk_scipy other) o A_r_petrosian = Ok (VNum NaN) /\
    (forall frac a, radius_of s frac a -> read (mk_scipy other) o a = Ok (VNum NaN)) /\
    (forall frac a, flux_of s frac a -> read (mk_scipy other) o a = Ok (VNum NaN)) /\
    read (mk_scipy other) o A_c2080 = Ok (VNum NaN) /\ read (mk_scipy other) o A_c5090 = Ok (VNum NaN).
Proof. exact L_Kinds3.uniform_seen. Qed.
Print Assumptions C143_missing.

Theorem C143_reported : forall other rs A b eta eps ef s k, (2 < length rs)%nat -> length A = length rs -> increasing rs -> 0 < at_ rs 0 ->
  increasing A -> 0 < at_ A 0 -> b <> 0 -> s_eta s = Fin eta -> eta < 1 -> s_epsilon s = Fin eps -> s_epsilon_fraction s = Fin ef -> ef <> 0 ->
  s_kind s = Some k -> blind_to_nan k -> eps <> 0 ->
  exists o, Petrosian_new (plain rs A (map (Rmult b) A)) s = Ok o /\ read (mk_scipy other) o A_r_petrosian = Ok (VNum NaN) /\
    forall frac, exists g q v, resampled (mk_scipy other) (Some k) (s_num s) rs (map Fin (map (Rmult b) A)) g q /\
      found_radius true (b * last_of A * (frac / ef)) g q v /\
      (0 < b -> 0 <= frac / ef <= 1 -> v <> NaN) /\
      forall a, radius_of s frac a -> read (mk_scipy other) o a = Ok (VNum v).
Proof. exact L_Kinds3.uniform_blind. Qed.
Print Assumptions C143_reported.

Example C143_example : exists o o', Petrosian_new (plain [1; 2; 3] [1; 4; 9] (map (Rmult 1) [1; 4; 9])) (E_Kinds.setU KNearest) = Ok o /\
  read (mk_scipy mk_linear) o A_r_petrosian = Ok (VNum NaN) /\ read (mk_scipy mk_linear) o A_r_half_light = Ok (VNum (Fin 2)) /\
  Petrosian_new (plain [1; 2; 3] [1; 4; 9] (map (Rmult 1) [1; 4; 9])) (E_Kinds.setU KLinear) = Ok o' /\
  read (mk_scipy mk_linear) o' A_r_petrosian = Ok (VNum NaN) /\ read (mk_scipy mk_linear) o' A_r_half_light = Ok (VNum NaN).
Proof. exact E_Kinds.C143_ex. Qed.
Example C142_example : blind_to_nan KNearest /\ sees_nan KLinear /\ increasing [1; 2; 3] /\ 3 / 2 * 2 = last_of [1; 2; 3].
Proof. exact E_Kinds.C142_ex. Qed.
