(** Property theorems: cubic interpolation in other units and with disturbed samples (C137, C138). *)
From Coq Require Import String.
From Verif Require Import Base Num Numpy M_Utils M_Photometry S_Photometry M_Petrosian M_Interp M_Cubic M_Sersic Gamma S_Sersic S_Utils S_PetObj S_Zoom S_Petrosian S_PetroR S_Conv S_Robust S_Noise S_Spline S_Cubic S_Epsilon
  M_PSF S_PSF M_Fitting S_Fitting M_Integrate S_Integrate M_Exact S_Exact S_Galaxy S_Render S_Image.
From Verif Require E_Robust E_Noise L_CubicEq L_CubicEq2 E_Cubic E_CubicEq E_Petrosian E_Zoom L_Zoom.
Local Open Scope list_scope.
Local Open Scope R_scope.

(** C137: cubic interpolation does not depend on units and origins, is linear in the samples, and multiplies their errors
    by a bounded factor *)
Theorem C137_units : scale_equivariant mk_cubic /\ stretch_equivariant mk_cubic.
Proof. exact (conj L_CubicEq.cubic_scale L_CubicEq.cubic_stretch). Qed.
Print Assumptions C137_units.

Theorem C137_linear : forall interp xs ys zs a b, cubic_spline interp -> increasing xs -> (4 <= length xs)%nat ->
  length ys = length xs -> length zs = length xs ->
  exists F G H, interp (map Fin xs) (map Fin ys) = Ok F /\ interp (map Fin xs) (map Fin zs) = Ok G /\
    interp (map Fin xs) (map Fin (map2 (fun y z => a * y + b * z) ys zs)) = Ok H /\
    forall x, at_ xs 0 <= x <= last_of xs -> exists u v, F (Fin x) = Fin u /\ G (Fin x) = Fin v /\ H (Fin x) = Fin (a * u + b * v).
Proof. exact L_CubicEq2.cubic_linear. Qed.
Print Assumptions C137_linear.

Theorem C137_moved : forall interp xs ys t, cubic_spline interp -> increasing xs -> (4 <= length xs)%nat -> length ys = length xs ->
  exists F G, interp (map Fin xs) (map Fin ys) = Ok F /\ interp (map Fin (map (fun x => x + t) xs)) (map Fin ys) = Ok G /\
    forall x, at_ xs 0 <= x <= last_of xs -> exists v, F (Fin x) = Fin v /\ G (Fin (x + t)) = Fin v.
Proof. exact L_CubicEq2.cubic_moved. Qed.
Print Assumptions C137_moved.

Theorem C137_steady : forall interp xs q, cubic_spline interp -> increasing xs -> (4 <= length xs)%nat -> steps_within q xs ->
  forall ys ys' d, length ys = length xs -> near d ys ys' ->
  exists F F', interp (map Fin xs) (map Fin ys) = Ok F /\ interp (map Fin xs) (map Fin ys') = Ok F' /\
    forall x, at_ xs 0 <= x <= last_of xs ->
    exists v v', F (Fin x) = Fin v /\ F' (Fin x) = Fin v' /\ Rabs (v' - v) <= (1 + 2 * ((1 + 2 * q) * q ^ 2)) * d.
Proof. exact L_CubicEq2.cubic_steady. Qed.
Print Assumptions C137_steady.

Example C137_example : cubic_spline (mk_cubic KCubic) /\ increasing [0; 1; 2; 3] /\ steps_within 1 [0; 1; 2; 3].
Proof. exact (conj (proj1 (proj2 E_CubicEq.C138_ex)) (conj (proj1 E_Cubic.C133_ex) (proj1 (proj2 E_Cubic.C133_ex)))). Qed.

(** C138: measurements with cubic interpolation, in other units of flux and of length and with small errors *)
Theorem C138_flux_unit : forall c d s, (0 < c)%R -> d_dtype d = DFloat ->
  match Petrosian_new d s with
  | Err e => Petrosian_new (scaled_data c d) s = Err e
  | Ok o => exists o', Petrosian_new (scaled_data c d) s = Ok o' /\
      read mk_cubic o' A_r_petrosian = read mk_cubic o A_r_petrosian /\
      read mk_cubic o' A_r_petrosian_err = read mk_cubic o A_r_petrosian_err /\
      (forall f, read mk_cubic o' (A_fraction_to_r f) = read mk_cubic o (A_fraction_to_r f)) /\
      read mk_cubic o' A_r_half_light = read mk_cubic o A_r_half_light /\
      read mk_cubic o' A_r_total_flux = read mk_cubic o A_r_total_flux /\
      (forall f1 f2, read mk_cubic o' (A_concentration f1 f2) = read mk_cubic o (A_concentration f1 f2)) /\
      (forall F, read mk_cubic o A_total_flux = Ok (VNum F) ->
         read mk_cubic o' A_total_flux = Ok (VNum (scale c F))) /\
      (forall e, read mk_cubic o A_total_flux = Err e -> read mk_cubic o' A_total_flux = Err e) /\
      (forall F, read mk_cubic o A_half_flux = Ok (VNum F) ->
         read mk_cubic o' A_half_flux = Ok (VNum (scale c F)))
  end.
Proof. exact (fun c d s => E_Petrosian.C26_all mk_cubic c d s L_CubicEq.cubic_scale). Qed.
Print Assumptions C138_flux_unit.

Theorem C138_length_unit : forall c k d s, (0 < c)%R -> (0 < k)%R -> d_dtype d = DFloat ->
  match Petrosian_new d s with
  | Err e => Petrosian_new (zoomed_data c k d) s = Err e
  | Ok o => exists o', Petrosian_new (zoomed_data c k d) s = Ok o' /\
      (forall a, is_length a -> read mk_cubic o' a = scale_val c (read mk_cubic o a)) /\
      (forall a, is_unitless a -> read mk_cubic o' a = read mk_cubic o a) /\
      forall f1 f2, read mk_cubic o' (A_concentration f1 f2) =
        match read mk_cubic o (A_concentration f1 f2) with
        | Ok (VTriple r1 r2 x) => Ok (VTriple (scale c r1) (scale c r2) x)
        | v => v
        end
  end.
Proof. exact (fun c k d s => L_Zoom.zoom_spec mk_cubic c k d s L_CubicEq.cubic_stretch). Qed.
Print Assumptions C138_length_unit.

Theorem C138_radius : forall mk k rs A L eta s, (4 <= length rs)%nat -> length A = length rs -> length L = length rs ->
  increasing rs -> 0 < at_ rs 0 -> increasing A -> 0 < at_ A 0 -> nonzero_tail L -> s_eta s = Fin eta ->
  s_kind s = Some k -> cubic_spline (mk k) ->
  forall g y i, resampled mk (s_kind s) (s_num s) (0 :: tl rs) (map Fin (eta_profile A L)) g (map Fin y) ->
  clear_cut false eta y i ->
  exists d, 0 < d /\ forall L', near d L L' -> exists o,
    Petrosian_new (plain rs A L') s = Ok o /\ read mk o A_r_petrosian = Ok (VNum (Fin (at_ g i))).
Proof. exact L_CubicEq2.cubic_noise_radius. Qed.
Print Assumptions C138_radius.

Theorem C138_fraction : forall mk k rs A L eta s, (4 <= length rs)%nat -> length A = length rs -> length L = length rs ->
  increasing rs -> 0 < at_ rs 0 -> increasing A -> 0 < at_ A 0 -> nonzero_tail L -> s_eta s = Fin eta ->
  s_kind s = Some k -> cubic_spline (mk k) ->
  forall ep ef fr g y i g2 z j f F,
  s_epsilon s = Fin ep -> s_epsilon_fraction s = Fin ef -> ef <> 0 ->
  resampled mk (s_kind s) (s_num s) (0 :: tl rs) (map Fin (eta_profile A L)) g (map Fin y) -> clear_cut false eta y i ->
  at_ rs 0 <= at_ g i * ep <= last_of rs -> mk k (map Fin rs) (map Fin L) = Ok f -> f (Fin (at_ g i * ep)) = Fin F ->
  resampled mk (s_kind s) (s_num s) rs (map Fin L) g2 (map Fin z) -> clear_cut true (F * (fr / ef)) z j ->
  exists d, 0 < d /\ forall L', near d L L' -> exists o,
    Petrosian_new (plain rs A L') s = Ok o /\
    forall x, radius_of s fr x -> read mk o x = Ok (VNum (Fin (at_ g2 j))).
Proof. exact L_CubicEq2.cubic_noise_fraction. Qed.
Print Assumptions C138_fraction.

Example C138_example : declining E_Robust.rsR E_Robust.AR E_Robust.LR /\ cubic_spline (mk_cubic KCubic) /\
  resampled mk_cubic (s_kind E_CubicEq.setQ) (s_num E_CubicEq.setQ) (0 :: tl E_Robust.rsR) (map Fin (eta_profile E_Robust.AR E_Robust.LR)) E_Noise.gN (map Fin E_CubicEq.yQ) /\
  clear_cut false (4 / 25) E_CubicEq.yQ 3 /\ 1 < at_ E_CubicEq.yQ 1 /\
  resampled mk_cubic (s_kind E_CubicEq.setQ) (s_num E_CubicEq.setQ) E_Robust.rsR (map Fin E_Robust.LR) E_Noise.g2N (map Fin E_CubicEq.zQ) /\
  clear_cut true (21 * ((1 / 2) / (99 / 100))) E_CubicEq.zQ 0 /\
  exists d, 0 < d /\ forall L', near d E_Robust.LR L' -> exists o, Petrosian_new (plain E_Robust.rsR E_Robust.AR L') E_CubicEq.setQ = Ok o /\
    read mk_cubic o A_r_petrosian = Ok (VNum (Fin 3)) /\ read mk_cubic o A_r_half_light = Ok (VNum (Fin 1)).
Proof. exact E_CubicEq.C138_ex. Qed.
