(** Property theorems for petrofit/utils.py: C01-C10, C57, C58. *)
From Coq Require Import String Ascii Permutation.
From Verif Require Import Base Num Numpy M_Utils L_Numpy S_Utils S_NatSort.
From Verif Require L_Utils L_Utils2 L_Utils3 L_NatSort E_Utils.


(** C01.  [a] is any NaN-free array (infinities allowed), [v] any finite value. *)
Theorem C01_closest_value_index : forall (v : R) (a : list xr) (growing : bool),
  Forall xok a ->
  (closest_value_index (Fin v) a growing = None <->
     forall x, In x a -> ~ crossed growing (Fin v) x) /\
  (forall i, closest_value_index (Fin v) a growing = Some i ->
     exists c x, first_crossing growing (Fin v) a c /\ i <= c /\
       nth_error a i = Some x /\
       (forall j y, j <= c -> nth_error a j = Some y -> xle (dist v x) (dist v y)) /\
       (forall j y, j < i -> nth_error a j = Some y -> xlt (dist v x) (dist v y))).
Proof. exact L_Utils.closest_value_index_spec. Qed.
Print Assumptions C01_closest_value_index.

Example C01_example :
  Forall xok [Fin 9; Fin 6; Fin 7; Fin 4; Fin 1] /\
  closest_value_index (Fin 5) [Fin 9; Fin 6; Fin 7; Fin 4; Fin 1] false = Some 1.
Proof. exact E_Utils.C01_ex. Qed.

(** C02. *)
Theorem C02_closest_monotone : forall (v1 v2 : R) (a : list xr) (i1 i2 : nat),
  Forall xok a -> (v1 <= v2)%R ->
  (closest_value_index (Fin v1) a true = Some i1 ->
   closest_value_index (Fin v2) a true = Some i2 -> i1 <= i2) /\
  (closest_value_index (Fin v1) a false = Some i1 ->
   closest_value_index (Fin v2) a false = Some i2 -> i2 <= i1) /\
  (closest_value_index (Fin v2) a true <> None ->
   closest_value_index (Fin v1) a true <> None) /\
  (closest_value_index (Fin v1) a false <> None ->
   closest_value_index (Fin v2) a false <> None).
Proof. exact E_Utils.C02_all. Qed.
Print Assumptions C02_closest_monotone.

Example C02_example :
  Forall xok [Fin 1; Fin 3; Fin 2; Fin 5] /\
  closest_value_index (Fin 2) [Fin 1; Fin 3; Fin 2; Fin 5] true = Some 0 /\
  closest_value_index (Fin 4) [Fin 1; Fin 3; Fin 2; Fin 5] true = Some 1.
Proof. exact E_Utils.C02_ex. Qed.

(** C03. *)
Theorem C03_make_radius_list : forall (max_pix : R) (n : Z),
  (0 < max_pix)%R -> (0 < n)%Z ->
  exists l : list R,
    make_radius_list (Fin max_pix) n = map Fin l /\
    length l = Z.to_nat n /\
    (forall k x, nth_error l k = Some x -> (0 < x)%R) /\
    (forall k x y, nth_error l k = Some x -> nth_error l (S k) = Some y ->
       (x < y)%R /\ (y - x = max_pix / IZR n)%R) /\
    nth_error l 0 = Some (max_pix / IZR n)%R /\
    nth_error l (Z.to_nat n - 1) = Some max_pix.
Proof. exact L_Utils2.make_radius_list_spec. Qed.
Print Assumptions C03_make_radius_list.

Theorem C03_make_radius_list_log : forall (max_pix : R) (n : Z),
  (0 < max_pix)%R -> (2 <= n)%Z ->
  exists (l : list R) (q : R),
    make_radius_list_log (Fin max_pix) n = Ok (map Fin l) /\
    length l = Z.to_nat n /\
    nth_error l 0 = Some 1%R /\
    nth_error l (Z.to_nat n - 1) = Some max_pix /\
    (0 < q)%R /\
    (forall k x y, nth_error l k = Some x -> nth_error l (S k) = Some y -> (y = q * x)%R).
Proof. exact L_Utils2.make_radius_list_log_spec. Qed.
Print Assumptions C03_make_radius_list_log.

Theorem C03_make_radius_list_log_one : forall (max_pix : R),
  (0 < max_pix)%R -> make_radius_list_log (Fin max_pix) 1 = Ok [Fin 1].
Proof. exact L_Utils2.make_radius_list_log_one. Qed.
Print Assumptions C03_make_radius_list_log_one.

Example C03_example : make_radius_list (Fin 6) 3 = [Fin 2; Fin 4; Fin 6].
Proof. exact E_Utils.C03_ex. Qed.

(** C04. *)
Theorem C04_ellip_elong_inverse : forall (k : flavour) (x : R),
  (x <> 1%R -> exists g, ellip_to_elong k (Fin x) = Ok (Fin g) /\
                         elong_to_ellip k (Fin g) = Ok (Fin x)) /\
  (x <> 0%R -> exists e, elong_to_ellip k (Fin x) = Ok (Fin e) /\
                         ellip_to_elong k (Fin e) = Ok (Fin x)).
Proof. exact E_Utils.C04_inverse. Qed.
Print Assumptions C04_ellip_elong_inverse.

Theorem C04_range_increasing : forall (k : flavour) (e e' : R),
  (0 <= e)%R -> (e < e')%R -> (e' < 1)%R ->
  exists g g', ellip_to_elong k (Fin e) = Ok (Fin g) /\
               ellip_to_elong k (Fin e') = Ok (Fin g') /\ (1 <= g < g')%R.
Proof. exact L_Utils2.ellip_to_elong_range. Qed.
Print Assumptions C04_range_increasing.

Theorem C04_zero_division :
  ellip_to_elong PyFloat (Fin 1) = Err ZeroDivisionError /\
  elong_to_ellip PyFloat (Fin 0) = Err ZeroDivisionError /\
  ellip_to_elong NpFloat (Fin 1) = Ok PInf /\
  elong_to_ellip NpFloat (Fin 0) = Ok NInf.
Proof. exact L_Utils2.ellip_zero_division. Qed.
Print Assumptions C04_zero_division.

Example C04_example : ellip_to_elong PyFloat (Fin (1/2)) = Ok (Fin 2).
Proof. exact E_Utils.C04_ex. Qed.

(** C05. *)
Theorem C05_elliptical_area : forall (A g : R),
  (0 <= A)%R -> (0 < g)%R ->
  exists a b, elliptical_area_to_r (Fin A) (Fin g) = (Fin a, Fin b) /\
    (0 <= a)%R /\ (PI * a * b = A)%R /\ (a = g * b)%R.
Proof. exact L_Utils2.elliptical_area_spec. Qed.
Print Assumptions C05_elliptical_area.

Theorem C05_circle_area : forall (A : R),
  (0 <= A)%R ->
  exists r, circle_area_to_r (Fin A) = Fin r /\ (0 <= r)%R /\ (PI * r ^ 2 = A)%R /\
    elliptical_area_to_r (Fin A) (Fin 1) = (Fin r, Fin r).
Proof. exact L_Utils2.circle_area_spec. Qed.
Print Assumptions C05_circle_area.

Example C05_example : circle_area_to_r (Fin (4 * PI)) = Fin 2.
Proof. exact E_Utils.C05_ex. Qed.

(** C06.  Latin-1 strings. *)
Theorem C06_natural_sort : forall l : list (list ascii),
  (forall s, In s l -> ~ superscript_run s) ->
  exists l', natural_sort (map IStr l) = Ok (map IStr l') /\
    Permutation l l' /\
    (forall i j s t, i < j -> nth_error l' i = Some s -> nth_error l' j = Some t ->
       natural_cmp s t Lt \/ natural_cmp s t Eq) /\
    (forall P : list ascii -> bool,
       (forall s t, P s = true -> P t = true -> natural_cmp s t Eq) ->
       filter P l' = filter P l).
Proof. exact L_NatSort.natural_sort_strings. Qed.
Print Assumptions C06_natural_sort.

Theorem C06_numbered_names : forall prefix n m d e s t,
  decimal_of n d -> decimal_of m e -> (n < m)%N ->
  ~ starts_with_digit s -> ~ starts_with_digit t ->
  natural_cmp (prefix ++ d ++ s) (prefix ++ e ++ t) Lt.
Proof. exact L_NatSort.natural_numbered. Qed.
Print Assumptions C06_numbered_names.

Theorem C06_numbers_raise : forall l,
  (exists x, In x l /\ (exists z, x = INum z)) ->
  (forall s, In (IStr s) l -> ~ superscript_run s) ->
  natural_sort l = Err TypeError.
Proof. exact L_NatSort.natural_sort_err. Qed.
Print Assumptions C06_numbers_raise.

Theorem C06_superscripts_raise : forall l,
  (exists s, In s l /\ superscript_run s) -> natural_sort (map IStr l) = Err ValueError.
Proof. exact L_NatSort.natural_sort_superscript. Qed.
Print Assumptions C06_superscripts_raise.

Local Open Scope string_scope.
Example C06_example :
  natural_sort (map IStr [E_Utils.str "img10"; E_Utils.str "Img9"; E_Utils.str "img09"])
  = Ok (map IStr [E_Utils.str "Img9"; E_Utils.str "img09"; E_Utils.str "img10"]) /\
  ~ superscript_run (E_Utils.str "img10").
Proof. exact E_Utils.C06_ex. Qed.

(** C07. *)
Theorem C07_abmag_scalar : forall h flam plam zpt x, good_header h flam plam zpt ->
  hst_flux_to_abmag (FluxScalar (Fin x)) h
  = Ok (MagScalar (if Rle_dec x 0 then NaN else Fin (ab_mag flam plam zpt x))).
Proof. exact L_Utils2.hst_scalar. Qed.
Print Assumptions C07_abmag_scalar.

Theorem C07_fainter : forall flam plam zpt,
  (forall x y, 0 < x -> x < y -> ab_mag flam plam zpt y < ab_mag flam plam zpt x)%R /\
  (forall x, 0 < x -> ab_mag flam plam zpt (100 * x) = ab_mag flam plam zpt x - 5)%R.
Proof. exact L_Utils2.ab_mag_spec. Qed.
Print Assumptions C07_fainter.

Theorem C07_abmag_array : forall (h : hst_header) (l : list R),
  exists ms, hst_flux_to_abmag (FluxFloatArray (map Fin l)) h = Ok (MagArray ms) /\
    length ms = length l /\
    forall k x, nth_error l k = Some x ->
      exists m, nth_error ms k = Some m /\
        hst_flux_to_abmag (FluxScalar (Fin x)) h = Ok (MagScalar m).
Proof. exact L_Utils2.hst_array. Qed.
Print Assumptions C07_abmag_array.

Theorem C07_abmag_int_array : forall (h : hst_header) (l : list Z),
  hst_flux_to_abmag (FluxIntArray l) h = Err ValueError.
Proof. exact L_Utils2.hst_int_array. Qed.
Print Assumptions C07_abmag_int_array.

Example C07_example :
  good_header {| PHOTFLAM := Fin 1; PHOTZPT := Fin (-21); PHOTPLAM := Fin 10 |} 1 10 (-21) /\
  ab_mag 1 10 (-21) 100 = (-21 - 10 + 18692 / 1000)%R.
Proof. exact E_Utils.C07_ex. Qed.

(** C08.  For every scalar type (so also binary64). *)
Theorem C08_cutout_window : forall {T} {N : Num T} (image target : img T) (x y : Z),
  Nat.Even (iny target) -> Nat.Even (inx target) ->
  window_inside (iny target) y (iny image) ->
  window_inside (inx target) x (inx image) ->
  let y0 := (y - Z.of_nat (iny target) / 2)%Z in
  let x0 := (x - Z.of_nat (inx target) / 2)%Z in
  exists out, cutout_subtract image target x y = (Ok out, out) /\
    iny out = iny image /\ inx out = inx image /\
    forall j i, j < iny image -> i < inx image ->
      (forall tj ti, tj < iny target -> ti < inx target ->
         Z.of_nat j = (y0 + Z.of_nat tj)%Z -> Z.of_nat i = (x0 + Z.of_nat ti)%Z ->
         px out j i = nsub (px image j i) (px target tj ti)) /\
      (~ (y0 <= Z.of_nat j < y0 + Z.of_nat (iny target) /\
          x0 <= Z.of_nat i < x0 + Z.of_nat (inx target))%Z ->
         px out j i = px image j i).
Proof. exact @L_Utils3.cutout_subtract_window. Qed.
Print Assumptions C08_cutout_window.

Theorem C08_cutout_reject : forall {T} {N : Num T} (image target : img T) (x y : Z),
  (fst (cutout_subtract image target x y) = Err ValueError <->
   ~ (axis_ok (iny target) y (iny image) /\
      axis_ok (inx target) x (inx image))) /\
  (forall e, fst (cutout_subtract image target x y) = Err e ->
     e = ValueError /\ snd (cutout_subtract image target x y) = image).
Proof. exact @L_Utils3.cutout_subtract_reject. Qed.
Print Assumptions C08_cutout_reject.

Theorem C08_cutout_inplace : forall {T} {N : Num T} (image target : img T) (x y : Z) out,
  fst (cutout_subtract image target x y) = Ok out ->
  snd (cutout_subtract image target x y) = out.
Proof. exact @L_Utils3.cutout_subtract_inplace. Qed.
Print Assumptions C08_cutout_inplace.

Theorem C08_cutout_thin : forall {T} {N : Num T} (image target : img T) (x y : Z) out,
  iny target = 1 \/ inx target = 1 ->
  fst (cutout_subtract image target x y) = Ok out -> img_eq out image.
Proof. exact @L_Utils3.cutout_subtract_thin. Qed.
Print Assumptions C08_cutout_thin.

Example C08_example :
  Nat.Even 2 /\ window_inside 2 1 3 /\
  axis_ok 2 1 3 /\ ~ axis_ok 3 1 3 /\ ~ axis_ok 2 0 3.
Proof. exact E_Utils.C08_ex. Qed.

(** C09. *)
Theorem C09_interpolated_none : forall {T} {N : Num T} {K} (mk : interp_oracle) (x y : list T) num,
  get_interpolated_values mk x y num (@None K) = Ok (x, y).
Proof. exact @L_Utils3.giv_none. Qed.
Print Assumptions C09_interpolated_none.

Theorem C09_interpolated_grid :
  forall {K} (mk : interp_oracle) (k : K) (x : list R) (ys : list xr) num f,
  2 <= length x -> mk k (map Fin x) ys = Ok f ->
  exists (g : list R) (lo hi : R),
    get_interpolated_values mk (map Fin x) ys num (Some k)
      = Ok (map Fin g, map f (map Fin g)) /\
    length g = Nat.max num (length x) /\
    (In lo x /\ forall r, In r x -> (lo <= r)%R) /\
    (In hi x /\ forall r, In r x -> (r <= hi)%R) /\
    nth_error g 0 = Some lo /\
    nth_error g (length g - 1) = Some hi /\
    (forall i a b, nth_error g i = Some a -> nth_error g (S i) = Some b ->
       (b - a = (hi - lo) / INR (length g - 1))%R) /\
    (forall a, In a g -> (lo <= a <= hi)%R).
Proof. exact @L_Utils3.giv_grid. Qed.
Print Assumptions C09_interpolated_grid.

Example C09_example :
  get_interpolated_values (fun (_ : unit) _ _ => Ok (fun q => q)) [Fin 0; Fin 4] [Fin 0; Fin 4] 3 (Some tt)
  = Ok ([Fin 0; Fin 2; Fin 4], [Fin 0; Fin 2; Fin 4]).
Proof. exact E_Utils.C09_ex. Qed.

(** C10. *)
Theorem C10_pixel_angular_round : forall w s u (p d du : R),
  good_wcs w s u -> (0 < du)%R ->
  (exists q, pixel_to_angular (Fin p) w = Ok q /\ angular_to_pixel q w = Ok (Fin p)) /\
  (exists pix q v, angular_to_pixel {| qval := Fin d; qunit := Fin du |} w = Ok pix /\
     pixel_to_angular pix w = Ok q /\ qunit q = arcsec /\ q_to q (Fin du) = Fin v /\ v = d).
Proof. exact E_Utils.C10_round. Qed.
Print Assumptions C10_pixel_angular_round.

Theorem C10_linear : forall w s u p, good_wcs w s u ->
  pixel_to_angular (Fin p) w = Ok {| qval := Fin (p * (3600 * (s * u))); qunit := Fin (1 / 3600) |}.
Proof. exact L_Utils2.pixel_angular_linear. Qed.
Print Assumptions C10_linear.

Theorem C10_assert : forall w (a b : R) (p : xr) (q : quantity),
  scale0 w = Fin a -> scale1 w = Fin b ->
  (Rabs (a - b) > 1 / 100000000 + 1 / 100000 * Rabs b)%R ->
  pixel_to_angular p w = Err AssertionError /\ angular_to_pixel q w = Err AssertionError.
Proof. exact E_Utils.C10_assert. Qed.
Print Assumptions C10_assert.

Example C10_example :
  good_wcs {| scale0 := Fin (1/3600); scale1 := Fin (1/3600); cunit := Fin 1 |} (1/3600) 1.
Proof. exact E_Utils.C10_ex. Qed.

(** C57.  In binary64 the last radius need not be max_pix. *)
Theorem C57_make_radius_list_f64_end_refuted :
  exists (max_pix : f64) (n : Z) (last : f64),
    (0 < n)%Z /\ nltb n0 max_pix = true /\
    nth_error (make_radius_list max_pix n) (Z.to_nat n - 1) = Some last /\
    neqb last max_pix = false.
Proof. exact E_Utils.C57_end. Qed.
Print Assumptions C57_make_radius_list_f64_end_refuted.

(** C58.  In binary64 rounding ties break the monotonicity of C02. *)
Theorem C58_closest_monotone_f64_refuted :
  exists (a : list f64) (v1 v2 : f64) (i1 i2 : nat),
    nltb v1 v2 = true /\ existsb nisnan a = false /\
    closest_value_index v1 a true = Some i1 /\
    closest_value_index v2 a true = Some i2 /\ i2 < i1.
Proof. exact E_Utils.C58_mono. Qed.
Print Assumptions C58_closest_monotone_f64_refuted.
