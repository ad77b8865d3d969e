(** Property theorems: measurements with interpolation that overshoots, as splines do (C131-C132). *)
From Coq Require Import String.
From Verif Require Import Base Num Numpy M_Utils M_Photometry S_Photometry M_Petrosian M_Interp M_Sersic Gamma S_Sersic S_Utils S_Petrosian S_Conv S_Robust S_Spline
  M_PSF S_PSF M_Fitting S_Fitting M_Integrate S_Integrate M_Exact S_Exact S_Galaxy S_Render S_Image.
From Verif Require L_Spline L_Spline2 L_Spline3 L_Spline4 E_Conv E_Spline E_Spline2.
Local Open Scope list_scope.
Local Open Scope R_scope.

(** C131: an interpolation whose slope changes at a rate of at most M leaves the samples by little, and the
    radii, fluxes and concentrations of an ideal galaxy converge although the interpolation overshoots *)
Theorem C131_curvature : forall (interp : list xr -> list xr -> result (xr -> xr)) F f xs ys M d,
  increasing xs -> 0 <= M -> fine d xs -> bends_within M f xs ys ->
  interp (map Fin xs) (map Fin ys) = Ok F ->
  (forall x, at_ xs 0 <= x <= last_of xs -> F (Fin x) = Fin (f x)) ->
  overshoots_within (M * d ^ 2) interp xs ys.
Proof. exact L_Spline.curvature_bounds. Qed.
Print Assumptions C131_curvature.

Theorem C131_radius : forall A re n e rt eta eps, 0 < A -> 0 < re -> 0 < n -> e < 1 -> 0 < rt ->
  petrosian_profile (Fin rt) (Fin re) (Fin n) = Fin eta -> 0 < eps ->
  exists d w, 0 < d /\ 0 < w /\ forall mk rs L s, sampled A re n e d (rt + eps) rs L -> s_eta s = Fin eta ->
    (forall k, s_kind s = Some k -> calm w w (mk k) rs (map (ellipse_area e) rs) L /\ last_of rs < d * INR (s_num s - 1)) ->
    exists o a, Petrosian_new (ideal_data e rs L) s = Ok o /\
      read mk o A_r_petrosian = Ok (VNum (Fin a)) /\ Rabs (a - rt) < eps.
Proof. exact L_Spline.radius_converges. Qed.
Print Assumptions C131_radius.

Theorem C131_fraction : forall A re n e rt eta epsilon ef, 0 < A -> 0 < re -> 0 < n -> e < 1 -> 0 < rt ->
  petrosian_profile (Fin rt) (Fin re) (Fin n) = Fin eta -> 0 < epsilon ->
  forall f r eps, 0 < f / ef -> true_radius A re n e rt epsilon ef f r -> 0 < eps ->
  exists d w, 0 < d /\ 0 < w /\ forall mk rs L s,
    sampled A re n e d (Rmax rt (Rmax r (epsilon * rt)) + eps) rs L -> settings_within mk eta epsilon ef d w e rs L s ->
    exists o, Petrosian_new (ideal_data e rs L) s = Ok o /\
      forall a, radius_of s f a -> exists b, read mk o a = Ok (VNum (Fin b)) /\ Rabs (b - r) < eps.
Proof. exact L_Spline2.fraction_converges. Qed.
Print Assumptions C131_fraction.

Theorem C131_flux : forall A re n e rt eta epsilon ef, 0 < A -> 0 < re -> 0 < n -> e < 1 -> 0 < rt ->
  petrosian_profile (Fin rt) (Fin re) (Fin n) = Fin eta -> 0 < epsilon ->
  forall f r Ft eps, 0 < f / ef -> true_radius A re n e rt epsilon ef f r ->
  sersic_enclosed (Fin r) (Fin A) (Fin re) (Fin n) (Fin e) = Fin Ft -> 0 < eps ->
  exists d w, 0 < d /\ 0 < w /\ forall mk rs L s,
    sampled A re n e d (Rmax rt (Rmax r (epsilon * rt)) + eps) rs L -> settings_within mk eta epsilon ef d w e rs L s ->
    exists o, Petrosian_new (ideal_data e rs L) s = Ok o /\
      forall a, flux_of s f a -> exists F, read mk o a = Ok (VNum (Fin F)) /\ Rabs (F - Ft) < eps.
Proof. exact L_Spline2.flux_converges. Qed.
Print Assumptions C131_flux.

Theorem C131_concentration : forall A re n e rt eta epsilon ef, 0 < A -> 0 < re -> 0 < n -> e < 1 -> 0 < rt ->
  petrosian_profile (Fin rt) (Fin re) (Fin n) = Fin eta -> 0 < epsilon ->
  forall f1 f2 r1 r2 eps, 0 < f1 / ef -> 0 < f2 / ef ->
  true_radius A re n e rt epsilon ef f1 r1 -> true_radius A re n e rt epsilon ef f2 r2 -> 0 < eps ->
  exists d w, 0 < d /\ 0 < w /\ forall mk rs L s,
    sampled A re n e d (Rmax rt (Rmax (Rmax r1 r2) (epsilon * rt)) + eps) rs L -> settings_within mk eta epsilon ef d w e rs L s ->
    exists o, Petrosian_new (ideal_data e rs L) s = Ok o /\
      (exists a b c, read mk o (A_concentration (Fin f1) (Fin f2)) = Ok (VTriple (Fin a) (Fin b) (Fin c)) /\
         Rabs (a - r1) < eps /\ Rabs (b - r2) < eps /\ Rabs (c - 5 * (ln (r2 / r1) / ln 10)) < eps) /\
      forall a, concentration_of f1 f2 a -> exists c, read mk o a = Ok (VNum (Fin c)) /\
         Rabs (c - 5 * (ln (r2 / r1) / ln 10)) < eps.
Proof. exact L_Spline2.concentration_converges. Qed.
Print Assumptions C131_concentration.

Example C131_example : petrosian_profile (Fin 1) (Fin 1) (Fin (1 / 2)) = Fin (ln 2) /\
  true_radius 1 1 (1 / 2) 0 1 2 (99 / 100) (99 / 100) 2 /\
  forall d w, 0 < d -> 0 < w ->
    (forall k, ~ no_overshoot (E_Spline.mk_raised w k)) /\
    exists rs L num, sampled 1 1 (1 / 2) 0 d (Rmax 1 (Rmax 2 (2 * 1)) + 1) rs L /\
      settings_within (E_Spline.mk_raised w) (ln 2) 2 (99 / 100) d w 0 rs L (E_Conv.set_ex num).
Proof. exact E_Spline.C131_ex. Qed.
Example C131_example2 : bends_within 1 E_Spline.parabola [0; 1; 3] [0; 1; 0] /\ fine (5 / 2) [0; 1; 3] /\
  E_Spline.parabola (3 / 2) = 9 / 8 /\
  forall k, overshoots_within (1 * (5 / 2) ^ 2)
      (fun _ _ => Ok (fun x => match x with Fin q => Fin (E_Spline.parabola q) | _ => x end)) [0; 1; 3] [0; 1; 0]
    /\ no_overshoot (mk_linear k).
Proof. exact E_Spline.C131_bend. Qed.

(** C132: the same for galaxies drawn on pixels *)
Theorem C132_petrosian : forall A re n e rt eta eps, 0 < A -> 0 < re -> 0 < n -> 0 <= e < 1 -> 0 < rt ->
  petrosian_profile (Fin rt) (Fin re) (Fin n) = Fin eta -> 0 < eps ->
  exists d w, 0 < d /\ 0 < w /\ forall rs, (2 < List.length rs)%nat -> increasing rs -> 0 < at_ rs 0 -> fine d (0 :: rs) -> rt + eps <= last_of rs ->
  exists K0, forall K X Y t x0 y0 m k mk s, K0 <= K -> shows_sersic A (K * re) n e X Y t (K * last_of rs) x0 y0 m ->
    s_eta s = Fin eta -> (forall q, s_kind s = Some q -> last_of rs < d * INR (s_num s - 1)) ->
    exists F Ar,
      radial_photometry exact_overlap k m (Fin (X - x0), Fin (Y - y0)) (map Fin (map (Rmult K) rs)) None None (Fin (/ (1 - e))) (Fin t)
        = Ok (map Fin F, map Fin Ar, map (fun _ => NaN) (map (Rmult K) rs)) /\
      ((forall q, s_kind s = Some q -> calm w (K * K * w) (mk q) (map (Rmult K) rs) Ar F) ->
       exists o a, Petrosian_new (plain (map (Rmult K) rs) Ar F) s = Ok o /\
         read mk o A_r_petrosian = Ok (VNum (Fin a)) /\ Rabs (a / K - rt) < eps).
Proof. exact L_Spline3.petrosian_of_image2. Qed.
Print Assumptions C132_petrosian.

Theorem C132_fraction : forall A re n e rt eta epsilon ef, 0 < A -> 0 < re -> 0 < n -> 0 <= e < 1 -> 0 < rt ->
  petrosian_profile (Fin rt) (Fin re) (Fin n) = Fin eta -> 0 < epsilon ->
  forall f r eps, 0 < f / ef -> true_radius A re n e rt epsilon ef f r -> 0 < eps ->
  exists d w, 0 < d /\ 0 < w /\ forall rs, (2 < List.length rs)%nat -> increasing rs -> 0 < at_ rs 0 -> fine d (0 :: rs) ->
    Rmax rt (Rmax r (epsilon * rt)) + eps <= last_of rs ->
  exists K0, forall K X Y t x0 y0 m k q mk s, K0 <= K -> shows_sersic A (K * re) n e X Y t (K * last_of rs) x0 y0 m ->
    set_to eta epsilon ef d rs q s ->
  exists F Ar,
    radial_photometry exact_overlap k m (Fin (X - x0), Fin (Y - y0)) (map Fin (map (Rmult K) rs)) None None (Fin (/ (1 - e))) (Fin t)
      = Ok (map Fin F, map Fin Ar, map (fun _ => NaN) (map (Rmult K) rs)) /\
    (calm w (K * K * w) (mk q) (map (Rmult K) rs) Ar F ->
     exists o, Petrosian_new (plain (map (Rmult K) rs) Ar F) s = Ok o /\
       forall a, radius_of s f a -> exists b, read mk o a = Ok (VNum (Fin b)) /\ Rabs (b / K - r) < eps).
Proof. exact L_Spline4.image_fraction2. Qed.
Print Assumptions C132_fraction.

Theorem C132_flux : forall A re n e rt eta epsilon ef, 0 < A -> 0 < re -> 0 < n -> 0 <= e < 1 -> 0 < rt ->
  petrosian_profile (Fin rt) (Fin re) (Fin n) = Fin eta -> 0 < epsilon ->
  forall f r Ft eps, 0 < f / ef -> true_radius A re n e rt epsilon ef f r ->
  sersic_enclosed (Fin r) (Fin A) (Fin re) (Fin n) (Fin e) = Fin Ft -> 0 < eps ->
  exists d w, 0 < d /\ 0 < w /\ forall rs, (2 < List.length rs)%nat -> increasing rs -> 0 < at_ rs 0 -> fine d (0 :: rs) ->
    Rmax rt (Rmax r (epsilon * rt)) + eps <= last_of rs ->
  exists K0, forall K X Y t x0 y0 m k q mk s, K0 <= K -> shows_sersic A (K * re) n e X Y t (K * last_of rs) x0 y0 m ->
    set_to eta epsilon ef d rs q s ->
  exists F Ar,
    radial_photometry exact_overlap k m (Fin (X - x0), Fin (Y - y0)) (map Fin (map (Rmult K) rs)) None None (Fin (/ (1 - e))) (Fin t)
      = Ok (map Fin F, map Fin Ar, map (fun _ => NaN) (map (Rmult K) rs)) /\
    (calm w (K * K * w) (mk q) (map (Rmult K) rs) Ar F ->
     exists o, Petrosian_new (plain (map (Rmult K) rs) Ar F) s = Ok o /\
       forall a, flux_of s f a -> exists v, read mk o a = Ok (VNum (Fin v)) /\ Rabs (v / (K * K) - Ft) < eps).
Proof. exact L_Spline4.image_flux2. Qed.
Print Assumptions C132_flux.

Theorem C132_concentration : forall A re n e rt eta epsilon ef, 0 < A -> 0 < re -> 0 < n -> 0 <= e < 1 -> 0 < rt ->
  petrosian_profile (Fin rt) (Fin re) (Fin n) = Fin eta -> 0 < epsilon ->
  forall f1 f2 r1 r2 eps, 0 < f1 / ef -> 0 < f2 / ef ->
  true_radius A re n e rt epsilon ef f1 r1 -> true_radius A re n e rt epsilon ef f2 r2 -> 0 < eps ->
  exists d w, 0 < d /\ 0 < w /\ forall rs, (2 < List.length rs)%nat -> increasing rs -> 0 < at_ rs 0 -> fine d (0 :: rs) ->
    Rmax rt (Rmax (Rmax r1 r2) (epsilon * rt)) + eps <= last_of rs ->
  exists K0, forall K X Y t x0 y0 m k q mk s, K0 <= K -> shows_sersic A (K * re) n e X Y t (K * last_of rs) x0 y0 m ->
    set_to eta epsilon ef d rs q s ->
  exists F Ar,
    radial_photometry exact_overlap k m (Fin (X - x0), Fin (Y - y0)) (map Fin (map (Rmult K) rs)) None None (Fin (/ (1 - e))) (Fin t)
      = Ok (map Fin F, map Fin Ar, map (fun _ => NaN) (map (Rmult K) rs)) /\
    (calm w (K * K * w) (mk q) (map (Rmult K) rs) Ar F ->
     exists o, Petrosian_new (plain (map (Rmult K) rs) Ar F) s = Ok o /\
      (exists a b c, read mk o (A_concentration (Fin f1) (Fin f2)) = Ok (VTriple (Fin a) (Fin b) (Fin c)) /\
         Rabs (a / K - r1) < eps /\ Rabs (b / K - r2) < eps /\ Rabs (c - 5 * (ln (r2 / r1) / ln 10)) < eps) /\
      forall a, concentration_of f1 f2 a -> exists c, read mk o a = Ok (VNum (Fin c)) /\
         Rabs (c - 5 * (ln (r2 / r1) / ln 10)) < eps).
Proof. exact L_Spline4.image_concentration2. Qed.
Print Assumptions C132_concentration.

Example C132_example : petrosian_profile (Fin 1) (Fin 1) (Fin (1 / 2)) = Fin (ln 2) /\
  true_radius 1 1 (1 / 2) 0 1 2 (99 / 100) (99 / 100) 2 /\
  forall d w, 0 < d -> 0 < w -> exists rs num, (2 < List.length rs)%nat /\ increasing rs /\ 0 < at_ rs 0 /\ fine d (0 :: rs) /\
    Rmax 1 (Rmax 2 (2 * 1)) + 1 <= last_of rs /\ set_to (ln 2) 2 (99 / 100) d rs KLinear (E_Conv.set_ex num) /\
    radius_of (E_Conv.set_ex num) (99 / 100) A_r_total_flux /\ flux_of (E_Conv.set_ex num) (99 / 100) A_total_flux /\
    forall K, 1 <= K -> (exists M m, shows_sersic 1 (K * 1) (1 / 2) 0 M M 0 (K * last_of rs) 0 0 m) /\
      forall F Ar, List.length F = List.length rs -> calm w (K * K * w) (E_Spline.mk_raised w KLinear) (map (Rmult K) rs) Ar F.
Proof. exact E_Spline2.C132_ex. Qed.
