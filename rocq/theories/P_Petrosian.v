(** Property theorems for petrofit/petrosian/core.py: C15-C26, C59, C60. *)
From Coq Require Import String.
From Verif Require Import Base Num Numpy M_Utils M_Petrosian M_Interp L_Numpy S_Utils S_Petrosian
  S_PetroR S_PetObj.
From Verif Require L_Petrosian L_Petrosian2 L_PetroR L_FracR L_PetObj E_Petrosian.

(** C15. *)
Theorem C15_petrosian_formula : forall A L : list R,
  length A = length L -> 2 < length A -> increasing A -> nonzero_tail A -> nonzero_tail L ->
  exists P, calculate_petrosian DFloat (map Fin A) (map Fin L) None None = Ok (P, None) /\
    length P = length A /\
    nth_error P 0 = Some NaN /\
    forall i, 1 <= i < length A -> nth_error P i = Some (Fin (petro_ratio A L i)).
Proof. exact L_Petrosian.petrosian_formula. Qed.
Print Assumptions C15_petrosian_formula.

Theorem C15_accepted_inputs : forall (d : dtype) (A L : list R),
  (is_ok (calculate_petrosian d (map Fin A) (map Fin L) None None) = true <->
   length A = length L /\ 2 < length A /\ nondecreasing A) /\
  (forall e, calculate_petrosian d (map Fin A) (map Fin L) None None = Err e -> e = AssertionError).
Proof. exact L_Petrosian.petrosian_accepts. Qed.
Print Assumptions C15_accepted_inputs.

Example C15_example :
  let A := [1; 3; 6]%R in let L := [2; 4; 5]%R in
  length A = length L /\ 2 < length A /\ increasing A /\
  nonzero_tail A /\ nonzero_tail L /\ petro_ratio A L 1 = (3/4)%R.
Proof. exact E_Petrosian.C15_ex. Qed.

(** C16. *)
Theorem C16_repeated_areas : forall A L : list R,
  length A = length L -> 2 < length A -> nondecreasing A ->
  exists P, calculate_petrosian DFloat (map Fin A) (map Fin L) None None = Ok (P, None) /\
    (forall i, i < length A ->
       nth_error P i = Some (raw_entry A L (distinct_below A i))) /\
    (* equal areas only at the end *)
    (forall m, m < length A -> (forall i, i < m -> (at_ A i < at_ A (S i))%R) ->
       (forall i, m <= i < length A -> at_ A i = at_ A m) ->
       forall i, i < length A -> nth_error P i = Some (raw_entry A L (Nat.min i m))) /\
    (* an equal pair followed by a larger area *)
    (forall k j, at_ A k = at_ A (S k) -> S k < j -> j < length A ->
       distinct_below A j < j /\ nth_error P j = Some (raw_entry A L (distinct_below A j))).
Proof. exact L_Petrosian.petrosian_repeats. Qed.
Print Assumptions C16_repeated_areas.

Theorem C16_misaligned_witness : exists A L : list R,
  increasing (firstn 2 A) /\ nondecreasing A /\ nondecreasing L /\
  (* constant surface brightness 1: the true profile is 1 everywhere *)
  A = [1; 2; 2; 3]%R /\ L = A /\
  calculate_petrosian DFloat (map Fin A) (map Fin L) None None
    = Ok ([NaN; Fin 1; Fin 1; Fin 0], None).
Proof. exact L_Petrosian.petrosian_repeats_witness. Qed.
Print Assumptions C16_misaligned_witness.

Example C16_example :
  nondecreasing [1; 2; 2; 3; 3]%R /\ distinct_below [1; 2; 2; 3; 3]%R 4 = 2.
Proof. exact E_Petrosian.C16_ex. Qed.

(** C17. *)
Theorem C17_integer_areas : forall (AZ : list Z) (L : list R),
  let A := map IZR AZ in
  length A = length L -> 2 < length A -> increasing A -> nonzero_tail A -> nonzero_tail L ->
  (forall i z, 1 <= i < length A -> truncated (local_sb A L i) z -> (- 2 ^ 63 <= z < 2 ^ 63)%Z) ->
  exists PI PF, calculate_petrosian DInt (map Fin A) (map Fin L) None None = Ok (PI, None) /\
    calculate_petrosian DFloat (map Fin A) (map Fin L) None None = Ok (PF, None) /\
    forall i, 1 <= i < length A ->
      (forall z, truncated (local_sb A L i) z ->
         nth_error PI i = Some (Fin (IZR z / mean_sb A L i))) /\
      (nth_error PI i = nth_error PF i <-> is_integer (local_sb A L i)).
Proof. exact L_Petrosian.petrosian_integer_areas. Qed.
Print Assumptions C17_integer_areas.

Example C17_example :
  let A := map IZR [1; 2; 4]%Z in let L := [1; 2; 3]%R in
  length A = length L /\ 2 < length A /\ increasing A /\ nonzero_tail A /\ nonzero_tail L /\
  (forall i z, 1 <= i < length A -> truncated (local_sb A L i) z -> (- 2 ^ 63 <= z < 2 ^ 63)%Z) /\
  truncated (local_sb A L 2) 0 /\ ~ is_integer (local_sb A L 2).
Proof. exact E_Petrosian.C17_ex. Qed.

(** C18. *)
Theorem C18_scale_free : forall (A L : list R) (c k : R),
  length A = length L -> c <> 0%R -> (0 < k)%R -> nonzero_tail A -> nonzero_tail L ->
  calculate_petrosian DFloat (map Fin (map (Rmult k) A)) (map Fin (map (Rmult c) L)) None None
  = calculate_petrosian DFloat (map Fin A) (map Fin L) None None.
Proof. exact L_Petrosian.petrosian_scale_free. Qed.
Print Assumptions C18_scale_free.

Theorem C18_constant_brightness : forall (A L : list R) (s : R),
  2 < length A -> increasing A -> nonzero_tail A -> s <> 0%R -> L = map (Rmult s) A ->
  exists P, calculate_petrosian DFloat (map Fin A) (map Fin L) None None = Ok (P, None) /\
    forall i, 1 <= i < length A -> nth_error P i = Some (Fin 1).
Proof. exact L_Petrosian.petrosian_constant_sb. Qed.
Print Assumptions C18_constant_brightness.

Theorem C18_declining_bounded : forall A L : list R,
  length A = length L -> 2 < length A -> increasing A -> (0 < at_ A 0)%R ->
  (forall i, i < length L -> (0 < at_ L i)%R) ->
  (forall i, 1 <= i < length A -> (0 <= local_sb A L i)%R) ->
  (local_sb A L 1 <= mean_sb A L 0)%R ->
  (forall i, 1 <= i -> S i < length A -> (local_sb A L (S i) <= local_sb A L i)%R) ->
  exists P, calculate_petrosian DFloat (map Fin A) (map Fin L) None None = Ok (P, None) /\
    forall i, 1 <= i < length A ->
      exists v, nth_error P i = Some (Fin v) /\ (0 <= v <= 1)%R.
Proof. exact L_Petrosian.petrosian_declining. Qed.
Print Assumptions C18_declining_bounded.

Example C18_example :
  let A := [1; 2; 3]%R in let L := [3; 5; 6]%R in
  length A = length L /\ 2 < length A /\ increasing A /\ (0 < at_ A 0)%R /\
  (forall i, i < length L -> (0 < at_ L i)%R) /\
  (forall i, 1 <= i < length A -> (0 <= local_sb A L i)%R) /\
  (local_sb A L 1 <= mean_sb A L 0)%R /\
  (forall i, 1 <= i -> S i < length A -> (local_sb A L (S i) <= local_sb A L i)%R).
Proof. exact E_Petrosian.C18_ex. Qed.

(** C19. *)
Theorem C19_petrosian_errors : forall (A L : list R) (ea fe : option (list R)),
  length A = length L -> 2 < length A -> increasing A -> nonzero_tail A -> nonzero_tail L ->
  ~ (ea = None /\ fe = None) ->
  let EA := match ea with None => zeros (length A) | Some l => l end in
  let EL := match fe with None => zeros (length A) | Some l => l end in
  length EA = length A -> length EL = length A ->
  exists P E,
    calculate_petrosian DFloat (map Fin A) (map Fin L)
      (option_map (map Fin) ea) (option_map (map Fin) fe) = Ok (P, Some E) /\
    calculate_petrosian DFloat (map Fin A) (map Fin L) None None = Ok (P, None) /\
    length E = length A /\ nth_error E 0 = Some NaN /\
    forall i, 1 <= i < length A ->
      (at_ L (i - 1) = at_ L i -> nth_error E i = Some NaN) /\
      (at_ L (i - 1) <> at_ L i ->
         nth_error E i = Some (Fin (propagated_error A L EA EL i)) /\
         (0 <= propagated_error A L EA EL i)%R /\
         ((forall j, at_ EA j = 0%R) -> (forall j, at_ EL j = 0%R) ->
            propagated_error A L EA EL i = 0%R)).
Proof. exact E_Petrosian.C19_all. Qed.
Print Assumptions C19_petrosian_errors.

Theorem C19_wrong_length : forall (d : dtype) (A L : list R) (ea fe : option (list xr)),
  length A = length L -> 2 < length A -> nondecreasing A ->
  (match ea with Some l => length l <> length A | None => False end) \/
  (match fe with Some l => length l <> length A | None => False end) ->
  calculate_petrosian d (map Fin A) (map Fin L) ea fe = Err AssertionError.
Proof. exact L_Petrosian2.petrosian_errors_reject. Qed.
Print Assumptions C19_wrong_length.

Example C19_example :
  let A := [1; 3; 6]%R in let L := [2; 4; 5]%R in
  at_ L 0 <> at_ L 1 /\ propagated_error A L (zeros 3) [1; 0; 0]%R 1 = (3/8)%R.
Proof. exact E_Petrosian.C19_ex. Qed.

(** C20.  [mk] is the interpolation method, arbitrary. *)
Theorem C20_petrosian_radius :
  forall (mk : kind -> list xr -> list xr -> result (xr -> xr)) x rs y ps eta ik num v err,
  1 <= length rs ->
  calculate_petrosian_r mk (x :: map Fin rs) (y :: ps) None (Fin eta) ik num = Ok (v, err) ->
  err = NaN /\
  exists g q, resampled mk ik num (0%R :: rs) (Fin 1 :: ps) g q /\
    (v = NaN <-> ~ reached false (Fin eta) q) /\
    found_radius false eta g q v /\
    (forall lo hi a, is_min (0%R :: rs) lo -> is_max (0%R :: rs) hi -> v = Fin a ->
       (lo <= a <= hi)%R).
Proof. exact E_Petrosian.C20_all. Qed.
Print Assumptions C20_petrosian_radius.

Theorem C20_total :
  forall (mk : kind -> list xr -> list xr -> result (xr -> xr)) x rs y ps eta ik num,
  1 <= length rs -> length ps = length rs ->
  (forall k, ik = Some k -> exists f, mk k (map Fin (0%R :: rs)) (Fin 1 :: ps) = Ok f) ->
  exists v, calculate_petrosian_r mk (x :: map Fin rs) (y :: ps) None eta ik num = Ok (v, NaN).
Proof. exact L_PetroR.petro_r_total. Qed.
Print Assumptions C20_total.

Theorem C20_monotone_in_eta :
  forall (mk : kind -> list xr -> list xr -> result (xr -> xr))
    x rs y ps eta1 eta2 ik num v1 v2 e1 e2,
  1 <= length rs -> (ik = None -> nondecreasing (0%R :: rs)) ->
  (forall g q, resampled mk ik num (0%R :: rs) (Fin 1 :: ps) g q -> Forall xok q) ->
  (eta1 <= eta2)%R ->
  calculate_petrosian_r mk (x :: map Fin rs) (y :: ps) None (Fin eta1) ik num = Ok (v1, e1) ->
  calculate_petrosian_r mk (x :: map Fin rs) (y :: ps) None (Fin eta2) ik num = Ok (v2, e2) ->
  (v1 <> NaN -> v2 <> NaN) /\
  (forall a1 a2, v1 = Fin a1 -> v2 = Fin a2 -> (a2 <= a1)%R).
Proof. exact L_PetroR.petro_r_mono. Qed.
Print Assumptions C20_monotone_in_eta.

Theorem C20_first_entries_ignored :
  forall T (N : Num T) (mk : kind -> list T -> list T -> result (T -> T))
    x x' rs y y' ps e e' es eta ik num,
  calculate_petrosian_r mk (x :: rs) (y :: ps) None eta ik num
  = calculate_petrosian_r mk (x' :: rs) (y' :: ps) None eta ik num /\
  calculate_petrosian_r mk (x :: rs) (y :: ps) (Some (e :: es)) eta ik num
  = calculate_petrosian_r mk (x' :: rs) (y' :: ps) (Some (e' :: es)) eta ik num.
Proof. exact @L_PetroR.petro_r_heads. Qed.
Print Assumptions C20_first_entries_ignored.

Example C20_example : forall mk : kind -> list xr -> list xr -> result (xr -> xr),
  calculate_petrosian_r mk [NaN; Fin 1; Fin 2; Fin 3]
    [NaN; Fin (4/5); Fin (2/5); Fin (1/10)] None (Fin (1/5)) None 5000 = Ok (Fin 3, NaN).
Proof. exact E_Petrosian.C20_ex. Qed.

(** C21. *)
Theorem C21_error_of_radius :
  forall (mk : kind -> list xr -> list xr -> result (xr -> xr)) x rs y ps e es eta ik num v err,
  1 <= length rs -> length ps = length rs -> length es = length rs ->
  calculate_petrosian_r mk (x :: map Fin rs) (y :: ps) (Some (e :: es)) (Fin eta) ik num
    = Ok (v, err) ->
  (v = NaN /\ err = NaN) \/
  exists g q qu ql up lo,
    resampled mk ik num (0%R :: rs) (Fin 1 :: ps) g q /\
    resampled mk ik num (0%R :: rs) (Fin 1 :: map2 xadd ps es) g qu /\
    resampled mk ik num (0%R :: rs) (Fin 1 :: map2 xsub ps es) g ql /\
    found_radius false eta g q v /\
    found_radius false eta g qu up /\ found_radius false eta g ql lo /\
    err = xdiv (xsub up lo) (Fin 2).
Proof. exact L_PetroR.petro_r_err_spec. Qed.
Print Assumptions C21_error_of_radius.

Theorem C21_nonnegative_constant_errors :
  forall (mk : kind -> list xr -> list xr -> result (xr -> xr)) x rs y ps e err eta num v w,
  1 <= length rs -> length ps = length rs -> increasing (0%R :: rs) ->
  increasing (map Ropp (1%R :: ps)) -> (0 <= err)%R ->
  (forall p, In p ps -> (p + err < 1)%R) ->
  calculate_petrosian_r mk (x :: map Fin rs) (y :: map Fin ps)
     (Some (e :: repeat (Fin err) (length rs))) (Fin eta) None num = Ok (v, w) ->
  w = NaN \/ exists s, w = Fin s /\ (0 <= s)%R.
Proof. exact E_Petrosian.C21_nonneg. Qed.
Print Assumptions C21_nonnegative_constant_errors.

Theorem C21_nonnegative_resampled :
  forall (mk : kind -> list xr -> list xr -> result (xr -> xr)) x rs y ps e es eta ik num v err,
  1 <= length rs -> length ps = length rs -> length es = length rs ->
  (ik = None -> nondecreasing (0%R :: rs)) ->
  (forall g q qu ql, resampled mk ik num (0%R :: rs) (Fin 1 :: map2 xadd ps es) g qu ->
     resampled mk ik num (0%R :: rs) (Fin 1 :: map2 xsub ps es) q ql ->
     Forall xok qu /\ Forall xok ql /\
     (forall i j a b, i < j -> nth_error qu i = Some a -> nth_error qu j = Some b -> xlt b a) /\
     (forall i a b, nth_error ql i = Some a -> nth_error qu i = Some b -> xle a b)) ->
  calculate_petrosian_r mk (x :: map Fin rs) (y :: ps) (Some (e :: es)) (Fin eta) ik num
    = Ok (v, err) ->
  err = NaN \/ exists s, err = Fin s /\ (0 <= s)%R.
Proof. exact L_PetroR.petro_r_err_nonneg. Qed.
Print Assumptions C21_nonnegative_resampled.

Theorem C21_negative_witness : forall mk : kind -> list xr -> list xr -> result (xr -> xr),
  exists (rs ps es : list R) (eta : R) (num : nat),
    increasing rs /\ Forall (fun r => (0 <= r)%R) rs /\ Forall (fun e => (0 <= e)%R) es /\
    calculate_petrosian_r mk (map Fin rs) (map Fin ps) (Some (map Fin es)) (Fin eta) None num
      = Ok (Fin 1, Fin (-1/2)).
Proof. exact E_Petrosian.C21_negative. Qed.
Print Assumptions C21_negative_witness.

Example C21_example :
  increasing (0 :: [1; 2; 3])%R /\ increasing (map Ropp (1 :: [1/2; 1/4; 1/8]))%R /\
  (forall p, In p [1/2; 1/4; 1/8]%R -> (p + 1/10 < 1)%R).
Proof. exact E_Petrosian.C21_ex. Qed.

(** C22. *)
Theorem C22_outside_data :
  forall (mk : kind -> list xr -> list xr -> result (xr -> xr))
    frac r flux p fe pe eps ef ik num lo hi,
  is_min r lo -> is_max r hi ->
  ((hi < p * eps)%R ->
     fraction_to_r mk frac (map Fin r) flux (Fin p) fe pe (Fin eps) ef ik num = Ok (NaN, NaN)) /\
  ((p * eps < lo)%R ->
     (exists f, mk (match ik with None => KCubic | Some k => k end) (map Fin r) flux = Ok f) ->
     fraction_to_r mk frac (map Fin r) flux (Fin p) fe pe (Fin eps) ef ik num = Err ValueError).
Proof. exact E_Petrosian.C22_outside. Qed.
Print Assumptions C22_outside_data.

Theorem C22_sampled_radius :
  forall (mk : kind -> list xr -> list xr -> result (xr -> xr))
    frac r flux p pe eps ef ik num v err,
  2 <= length r ->
  (forall lo hi, is_min r lo -> is_max r hi -> (lo <= p * eps <= hi)%R) ->
  fraction_to_r mk (Fin frac) (map Fin r) flux (Fin p) None pe (Fin eps) (Fin ef) ik num
    = Ok (v, err) ->
  exists f g q, mk (match ik with None => KCubic | Some k => k end) (map Fin r) flux = Ok f /\
    resampled mk ik num r flux g q /\ err = NaN /\
    (forall F, f (Fin (p * eps)) = Fin F -> found_radius true (F * (frac / ef)) g q v) /\
    (forall lo hi a, is_min r lo -> is_max r hi -> v = Fin a -> (lo <= a <= hi)%R) /\
    (v = NaN \/ exists i a, v = Fin a /\ nth_error g i = Some a).
Proof. exact L_FracR.frac_spec. Qed.
Print Assumptions C22_sampled_radius.

Theorem C22_nan_radius :
  forall (mk : kind -> list xr -> list xr -> result (xr -> xr))
    frac r flux pe eps ef ik num v err,
  2 <= length r -> ef <> 0%R ->
  (forall f, mk (match ik with None => KCubic | Some k => k end) (map Fin r) flux = Ok f ->
     f NaN = NaN) ->
  fraction_to_r mk (Fin frac) (map Fin r) flux NaN None pe (Fin eps) (Fin ef) ik num
    = Ok (v, err) ->
  v = NaN /\ err = NaN.
Proof. exact L_FracR.frac_nan. Qed.
Print Assumptions C22_nan_radius.

(** an interpolant that answers a NaN query with a data value: a radius is reported *)
Theorem C22_nan_radius_witness :
  exists mk : kind -> list xr -> list xr -> result (xr -> xr),
  fraction_to_r mk (Fin (1/2)) [Fin 1; Fin 2; Fin 3] [Fin 1; Fin 2; Fin 4] NaN None None
    (Fin 2) (Fin 1) None 3 = Ok (Fin 2, NaN).
Proof. exact (ex_intro _ _ E_Petrosian.C22_nan_witness). Qed.
Print Assumptions C22_nan_radius_witness.

Theorem C22_monotone :
  forall (mk : kind -> list xr -> list xr -> result (xr -> xr))
    f1 f2 r flux p pe eps ef ik num v1 v2 e1 e2,
  2 <= length r -> (ik = None -> nondecreasing r) ->
  (forall lo hi, is_min r lo -> is_max r hi -> (lo <= p * eps <= hi)%R) ->
  (forall g q, resampled mk ik num r flux g q -> Forall xok q) ->
  (forall f, mk (match ik with None => KCubic | Some k => k end) (map Fin r) flux = Ok f ->
     exists F, f (Fin (p * eps)) = Fin F /\ (0 <= F)%R) ->
  (0 < ef)%R -> (f1 <= f2)%R ->
  fraction_to_r mk (Fin f1) (map Fin r) flux (Fin p) None pe (Fin eps) (Fin ef) ik num
    = Ok (v1, e1) ->
  fraction_to_r mk (Fin f2) (map Fin r) flux (Fin p) None pe (Fin eps) (Fin ef) ik num
    = Ok (v2, e2) ->
  (v2 <> NaN -> v1 <> NaN) /\
  (forall a1 a2, v1 = Fin a1 -> v2 = Fin a2 -> (a1 <= a2)%R).
Proof. exact L_FracR.frac_mono. Qed.
Print Assumptions C22_monotone.

(** the identity is the interpolant of the curve flux = r *)
Example C22_example :
  let mk := fun (_ : kind) (_ _ : list xr) => Ok (fun q : xr => q) in
  fraction_to_r mk (Fin (1/2)) [Fin 1; Fin 2; Fin 3] [Fin 1; Fin 2; Fin 3] (Fin 1) None None
    (Fin 2) (Fin 1) (Some KLinear) 3 = Ok (Fin 1, NaN) /\
  fraction_to_r mk (Fin 1) [Fin 1; Fin 2; Fin 3] [Fin 1; Fin 2; Fin 3] (Fin 1) None None
    (Fin 2) (Fin 1) (Some KLinear) 3 = Ok (Fin 2, NaN).
Proof. exact E_Petrosian.C22_ex. Qed.

(** C23. *)
Theorem C23_concentration_index :
  forall (mk : kind -> list xr -> list xr -> result (xr -> xr))
    f1 f2 r flux rp fe pe eps ef ik num r1 e1 r2 e2,
  fraction_to_r mk f1 r flux rp fe pe eps ef ik num = Ok (r1, e1) ->
  fraction_to_r mk f2 r flux rp fe pe eps ef ik num = Ok (r2, e2) ->
  (r1 = NaN \/ r2 = NaN ->
    calculate_concentration_index mk f1 f2 r flux rp fe pe eps ef ik num = Ok (NaN, NaN, NaN)) /\
  (forall a b, r1 = Fin a -> r2 = Fin b -> (0 < a)%R -> (0 < b)%R ->
    calculate_concentration_index mk f1 f2 r flux rp fe pe eps ef ik num
      = Ok (Fin a, Fin b, Fin (5 * Rlog10 (b / a)))).
Proof. exact L_FracR.conc_spec. Qed.
Print Assumptions C23_concentration_index.

Theorem C23_sign :
  forall (mk : kind -> list xr -> list xr -> result (xr -> xr))
    f1 f2 r flux p pe eps ef ik num a b c,
  2 <= length r -> (ik = None -> nondecreasing r) ->
  (forall lo hi, is_min r lo -> is_max r hi -> (lo <= p * eps <= hi)%R) ->
  (forall g q, resampled mk ik num r flux g q -> Forall xok q) ->
  (forall f, mk (match ik with None => KCubic | Some k => k end) (map Fin r) flux = Ok f ->
     exists F, f (Fin (p * eps)) = Fin F /\ (0 <= F)%R) ->
  (0 < ef)%R -> (f1 <= f2)%R -> (0 < a)%R -> (0 < b)%R ->
  calculate_concentration_index mk (Fin f1) (Fin f2) (map Fin r) flux (Fin p) None pe
    (Fin eps) (Fin ef) ik num = Ok (Fin a, Fin b, c) ->
  exists v, c = Fin v /\ (0 <= v)%R /\
    calculate_concentration_index mk (Fin f2) (Fin f1) (map Fin r) flux (Fin p) None pe
      (Fin eps) (Fin ef) ik num = Ok (Fin b, Fin a, Fin (- v)) /\
    (f1 = f2 -> v = 0%R).
Proof. exact L_FracR.conc_sign. Qed.
Print Assumptions C23_sign.

Example C23_example :
  let mk := fun (_ : kind) (_ _ : list xr) => Ok (fun q : xr => q) in
  calculate_concentration_index mk (Fin (1/2)) (Fin 1) [Fin 1; Fin 2; Fin 3]
    [Fin 1; Fin 2; Fin 3] (Fin 1) None None (Fin 2) (Fin 1) (Some KLinear) 3
  = Ok (Fin 1, Fin 2, Fin (5 * Rlog10 (2 / 1))).
Proof. exact E_Petrosian.C23_ex. Qed.

(** C24.  Any scalar type, any history [h] of assignments and reads. *)
Theorem C24_history :
  forall T (N : Num T) (NL : NumLog T) (mk : kind -> list T -> list T -> result (T -> T))
    (d : pdata T) (s : psettings T) (o : petrosian T) (h : list action),
  Petrosian_new d s = Ok o ->
  exists o', Petrosian_new d (final_settings s h) = Ok o' /\
    forall a, read mk (run mk o h) a = read mk o' a.
Proof. exact @L_PetObj.history. Qed.
Print Assumptions C24_history.

Theorem C24_independent :
  forall T (N : Num T) (NL : NumLog T) (mk : kind -> list T -> list T -> result (T -> T))
    (o : petrosian T) (x : T),
  (forall a, a = Set_epsilon x \/ a = Set_epsilon_fraction x \/ a = Set_total_flux_fraction x ->
     read mk (do_assign o a) A_r_petrosian = read mk o A_r_petrosian /\
     read mk (do_assign o a) A_r_petrosian_err = read mk o A_r_petrosian_err) /\
  (forall a, read mk (do_assign o a) A_petrosian_list = read mk o A_petrosian_list /\
     read mk (do_assign o a) A_petrosian_err = read mk o A_petrosian_err).
Proof. exact @L_PetObj.independent. Qed.
Print Assumptions C24_independent.

Example C24_example :
  (exists o, Petrosian_new E_Petrosian.ex_data (E_Petrosian.ex_set (1/5)) = Ok o) /\
  final_settings (E_Petrosian.ex_set (1/5))
    [Read A_r_petrosian; Assign (Set_eta (Fin (3/10))); Assign (Set_epsilon (Fin 3));
     Read A_total_flux; Assign (Set_eta (Fin (1/2)))]
  = mkset (Fin (1/2)) (Fin 3) (Fin (99/100)) (Fin (99/100)) (Some KLinear) 3.
Proof. exact E_Petrosian.C24_ex. Qed.

(** C25. *)
Theorem C25_half_flux_err :
  forall T (N : Num T) (NL : NumLog T) (mk : kind -> list T -> list T -> result (T -> T))
    (o : petrosian T),
  read mk o A_half_flux_err = Err AttributeError.
Proof. exact @L_PetObj.half_flux_err_broken. Qed.
Print Assumptions C25_half_flux_err.

Theorem C25_flux_without_interpolation :
  forall T (N : Num T) (NL : NumLog T) (mk : kind -> list T -> list T -> result (T -> T))
    (o : petrosian T) r lo hi,
  s_kind (p_set o) = None ->
  pymin (d_r (p_data o)) = Ok lo -> pymax (d_r (p_data o)) = Ok hi ->
  nleb lo r = true -> nleb r hi = true ->
  (read mk o A_r_total_flux = Ok (VNum r) -> read mk o A_total_flux = Err NotImplementedError) /\
  (read mk o A_r_half_light = Ok (VNum r) -> read mk o A_half_flux = Err NotImplementedError).
Proof. exact @L_PetObj.total_flux_kind_none. Qed.
Print Assumptions C25_flux_without_interpolation.

Example C25_example :
  exists o, Petrosian_new E_Petrosian.ex_data E_Petrosian.ex_set_none = Ok o /\
    read mk_linear o A_r_total_flux = Ok (VNum (Fin 2)) /\
    read mk_linear o A_total_flux = Err NotImplementedError.
Proof. exact E_Petrosian.C25_ex. Qed.

(** C26. *)
Theorem C26_rescaling :
  forall (mk : kind -> list xr -> list xr -> result (xr -> xr)) (c : R) (d : pdata xr)
    (s : psettings xr),
  scale_equivariant mk -> (0 < c)%R -> d_dtype d = DFloat ->
  match Petrosian_new d s with
  | Err e => Petrosian_new (scaled_data c d) s = Err e
  | Ok o => exists o', Petrosian_new (scaled_data c d) s = Ok o' /\
      read mk o' A_r_petrosian = read mk o A_r_petrosian /\
      read mk o' A_r_petrosian_err = read mk o A_r_petrosian_err /\
      (forall f, read mk o' (A_fraction_to_r f) = read mk o (A_fraction_to_r f)) /\
      read mk o' A_r_half_light = read mk o A_r_half_light /\
      read mk o' A_r_total_flux = read mk o A_r_total_flux /\
      (forall f1 f2, read mk o' (A_concentration f1 f2) = read mk o (A_concentration f1 f2)) /\
      (forall F, read mk o A_total_flux = Ok (VNum F) ->
         read mk o' A_total_flux = Ok (VNum (scale c F))) /\
      (forall e, read mk o A_total_flux = Err e -> read mk o' A_total_flux = Err e) /\
      (forall F, read mk o A_half_flux = Ok (VNum F) ->
         read mk o' A_half_flux = Ok (VNum (scale c F)))
  end.
Proof. exact E_Petrosian.C26_all. Qed.
Print Assumptions C26_rescaling.

Theorem C26_total_flux_err :
  forall (mk : kind -> list xr -> list xr -> result (xr -> xr)) (c : R) (o o' : petrosian xr)
    (d : pdata xr) (set : psettings xr) (fe : list xr) (r : xr) (F e s : R) (g : xr -> result xr),
  scale_equivariant mk -> (0 < c)%R -> d_dtype d = DFloat -> d_flux_err d = Some fe ->
  Petrosian_new d set = Ok o -> Petrosian_new (scaled_data c d) set = Ok o' ->
  read mk o A_r_total_flux = Ok (VNum r) -> read mk o A_r_total_flux_err = Ok (VNum (Fin s)) ->
  read mk o A_total_flux = Ok (VNum (Fin F)) ->
  interp1d mk (Some KNearest) (d_r d) fe = Ok g -> g r = Ok (Fin e) ->
  read mk o A_total_flux_err = Ok (VNum (Fin (sqrt (e^2 + s^2)))) /\
  read mk o' A_total_flux_err = Ok (VNum (Fin (sqrt ((c * e)^2 + s^2)))) /\
  (sqrt ((c * e)^2 + s^2) = c * sqrt (e^2 + s^2) <-> s = 0 \/ c = 1)%R.
Proof. exact E_Petrosian.C26_err. Qed.
Print Assumptions C26_total_flux_err.

(** linear interpolation commutes with rescaling *)
Example C26_example : scale_equivariant mk_linear /\
  exists o, Petrosian_new E_Petrosian.ex_data (E_Petrosian.ex_set (1/5)) = Ok o.
Proof. exact (conj E_Petrosian.mk_linear_equivariant (E_Petrosian.ex_obj _)). Qed.

(** C59. *)
Theorem C59_integer_areas_with_errors :
  forall (AZ : list Z) (L : list R) (ea fe : option (list xr)),
  ~ (ea = None /\ fe = None) ->
  exists e, calculate_petrosian DInt (map Fin (map IZR AZ)) (map Fin L) ea fe = Err e /\
    (e = ValueError <->
       length AZ = length L /\ 2 < length AZ /\ nondecreasing (map IZR AZ) /\
       (forall l, ea = Some l -> length l = length AZ) /\
       (forall l, fe = Some l -> length l = length AZ)).
Proof. exact L_Petrosian2.petrosian_errors_integer. Qed.
Print Assumptions C59_integer_areas_with_errors.

Example C59_example : nondecreasing (map IZR [1; 2; 4]%Z).
Proof. exact E_Petrosian.C59_ex. Qed.

(** C60. *)
Theorem C60_error_window :
  forall (mk : kind -> list xr -> list xr -> result (xr -> xr))
    frac r flux p fe pe eps ef ik num lo hi a,
  2 <= length r -> length flux = length r -> length fe = length r ->
  is_min r lo -> is_max r hi ->
  (forall ys, length ys = length r ->
     exists f, mk (match ik with None => KCubic | Some k => k end) (map Fin r) ys = Ok f) ->
  fraction_to_r mk (Fin frac) (map Fin r) flux (Fin p) None (Some (Fin pe)) (Fin eps) (Fin ef)
    ik num = Ok (Fin a, NaN) ->
  (p * eps - pe < lo \/ hi < p * eps + pe \/ hi < p * eps - pe \/ p * eps + pe < lo)%R ->
  fraction_to_r mk (Fin frac) (map Fin r) flux (Fin p) (Some fe) (Some (Fin pe)) (Fin eps)
    (Fin ef) ik num = Err ValueError.
Proof. exact L_FracR.frac_err_window. Qed.
Print Assumptions C60_error_window.

Theorem C60_same_radius :
  forall (mk : kind -> list xr -> list xr -> result (xr -> xr))
    frac r flux p fe pe eps ef ik num v err,
  fraction_to_r mk frac r flux p (Some fe) pe eps ef ik num = Ok (v, err) ->
  fraction_to_r mk frac r flux p None pe eps ef ik num = Ok (v, NaN).
Proof. exact L_FracR.frac_err_radius. Qed.
Print Assumptions C60_same_radius.

Example C60_example :
  let mk := fun (_ : kind) (_ _ : list xr) => Ok (fun q : xr => q) in
  fraction_to_r mk (Fin (1/2)) [Fin 1; Fin 2; Fin 3] [Fin 1; Fin 2; Fin 3] (Fin 1) None
    (Some (Fin 2)) (Fin 2) (Fin 1) (Some KLinear) 3 = Ok (Fin 1, NaN) /\
  (1 * 2 - 2 < 1)%R.
Proof. exact E_Petrosian.C60_ex. Qed.
