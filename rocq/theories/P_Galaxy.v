(** Property theorems: measuring galaxies drawn on pixels (C116-C119). *)
From Coq Require Import String.
From Verif Require Import Base Num Numpy M_Utils M_Photometry S_Photometry M_Petrosian M_Interp M_Sersic Gamma S_Sersic S_Utils S_Petrosian S_Conv S_Robust
  M_PSF S_PSF M_Fitting S_Fitting M_Integrate S_Integrate M_Exact S_Exact S_Galaxy S_Render.
From Verif Require L_Galaxy L_Galaxy2 L_Galaxy3 E_Integrate E_Galaxy.
Local Open Scope list_scope.
Local Open Scope R_scope.

(** C116: photometry of an image that shows a falling profile gives the flux of the profile *)
Theorem C116_sandwich : forall k image v x y r elong t d s lo hi, 0 < r -> 0 < elong -> 0 <= d -> falls s ->
  on_image x y r (r / elong) t (iny image) (inx image) -> finite_img image v ->
  drawn_within d s x y elong t (iny image) (inx image) v ->
  flux_within (fun p => s (p + d)) elong r lo -> flux_within (fun p => s (Rmax 0 (p - d))) elong r hi ->
  exists f f0 A, radial_photometry exact_overlap k image (Fin x, Fin y) [Fin r] None None (Fin elong) (Fin t) = Ok ([Fin f], [Fin A], [NaN]) /\
    rounded6 (PI * r * (r / elong)) A /\ rounded6 f0 f /\ lo <= f0 <= hi.
Proof. exact L_Galaxy.sandwich. Qed.
Print Assumptions C116_sandwich.

Theorem C116_fluxes : forall k image v x y rs elong t d s, 0 < elong -> 0 <= d -> falls s -> finite_img image v ->
  drawn_within d s x y elong t (iny image) (inx image) v ->
  (forall i, (i < List.length rs)%nat -> 0 < at_ rs i /\ on_image x y (at_ rs i) (at_ rs i / elong) t (iny image) (inx image)) ->
  exists F A, radial_photometry exact_overlap k image (Fin x, Fin y) (map Fin rs) None None (Fin elong) (Fin t)
      = Ok (map Fin F, map Fin A, map (fun _ => NaN) rs) /\
    List.length F = List.length rs /\ List.length A = List.length rs /\
    forall i, (i < List.length rs)%nat ->
      Rabs (at_ A i - PI * at_ rs i * (at_ rs i / elong)) <= 5 / 10000000 /\
      forall I, flux_within s elong (at_ rs i) I -> Rabs (at_ F i - I) <= 2 * PI * at_ rs i / elong * d * s 0 + 5 / 10000000.
Proof. exact L_Galaxy.galaxy_fluxes. Qed.
Print Assumptions C116_fluxes.

Example C116_example : exists image v, iny image = 5%nat /\ inx image = 5%nat /\ finite_img image v /\
  v 2%nat 2%nat = 1 /\ v 2%nat 3%nat = exp (- 1) /\
  drawn_within (sqrt 2) E_Galaxy.disc_law 2 2 1 0 5 5 v /\ on_image 2 2 1 (1 / 1) 0 5 5.
Proof. exact E_Galaxy.C116_ex. Qed.

(** C117: every rendering mode draws a profile well enough for that *)
Theorem C117_pixels : forall dblquad f g size flag k center nx ny x0 y0 m, integrates dblquad -> real_function f g -> continuous2 g ->
  size_means size flag nx ny -> origin_is center nx ny x0 y0 -> (0 <= nx)%Z -> (0 <= ny)%Z -> (0 < k)%Z ->
  rendered dblquad f size flag k center m ->
  exists v, image_of m (Z.to_nat ny) (Z.to_nat nx) v /\
    forall j i lo hi, (j < Z.to_nat ny)%nat -> (i < Z.to_nat nx)%nat ->
      (forall u w, Rabs (u - (x0 + INR i)) <= 1/2 -> Rabs (w - (y0 + INR j)) <= 1/2 -> lo <= g u w <= hi) -> lo <= v j i <= hi.
Proof. exact L_Galaxy2.rendered_bounds. Qed.
Print Assumptions C117_pixels.

Theorem C117_fluxes : forall dblquad f s X Y elong t size flag factor center nx ny x0 y0 m k rs, integrates dblquad -> 0 < elong -> falls s ->
  real_function f (fun u w => s (ell_radius X Y elong t u w)) -> continuous2 (fun u w => s (ell_radius X Y elong t u w)) ->
  size_means size flag nx ny -> origin_is center nx ny x0 y0 -> (0 <= nx)%Z -> (0 <= ny)%Z -> (0 < factor)%Z ->
  rendered dblquad f size flag factor center m ->
  (forall i, (i < List.length rs)%nat -> 0 < at_ rs i /\ on_image (X - x0) (Y - y0) (at_ rs i) (at_ rs i / elong) t (Z.to_nat ny) (Z.to_nat nx)) ->
  exists F A, radial_photometry exact_overlap k m (Fin (X - x0), Fin (Y - y0)) (map Fin rs) None None (Fin elong) (Fin t)
      = Ok (map Fin F, map Fin A, map (fun _ => NaN) rs) /\
    List.length F = List.length rs /\ List.length A = List.length rs /\
    forall i, (i < List.length rs)%nat ->
      Rabs (at_ A i - PI * at_ rs i * (at_ rs i / elong)) <= 5 / 10000000 /\
      forall I, flux_within s elong (at_ rs i) I ->
        Rabs (at_ F i - I) <= 2 * sqrt 2 * PI * at_ rs i * Rmax 1 (/ elong) * s 0 + 5 / 10000000.
Proof. exact L_Galaxy2.rendered_fluxes. Qed.
Print Assumptions C117_fluxes.

Example C117_example : falls E_Galaxy.disc_law /\
  real_function E_Galaxy.disc_fn (fun u w => E_Galaxy.disc_law (ell_radius 2 2 1 0 u w)) /\
  continuous2 (fun u w => E_Galaxy.disc_law (ell_radius 2 2 1 0 u w)) /\
  (exists m, rendered E_Integrate.quad E_Galaxy.disc_fn (VInt 5) false 1 None m) /\ on_image (2 - 0) (2 - 0) 1 (1 / 1) 0 5 5 /\
  flux_within E_Galaxy.disc_law 1 1 (2 * PI * (1 - 2 * exp (- 1))).
Proof. exact E_Galaxy.C117_ex. Qed.

(** C118: the curve of growth of a rendered Sersic galaxy *)
Theorem C118_sersic : forall dblquad A re n X Y e t size flag factor center nx ny x0 y0 m k rs b, integrates dblquad ->
  0 <= A -> 0 < re -> 0 < n -> 0 <= e < 1 -> half_light n b ->
  size_means size flag nx ny -> origin_is center nx ny x0 y0 -> (0 <= nx)%Z -> (0 <= ny)%Z -> (0 < factor)%Z ->
  rendered dblquad (fun x y => gen_sersic2d x y (Fin A) (Fin re) (Fin n) (Fin X) (Fin Y) (Fin e) (Fin t) (Fin 0)) size flag factor center m ->
  (forall i, (i < List.length rs)%nat -> 0 < at_ rs i /\ on_image (X - x0) (Y - y0) (at_ rs i) (at_ rs i * (1 - e)) t (Z.to_nat ny) (Z.to_nat nx)) ->
  exists F Ar, radial_photometry exact_overlap k m (Fin (X - x0), Fin (Y - y0)) (map Fin rs) None None (Fin (/ (1 - e))) (Fin t)
      = Ok (map Fin F, map Fin Ar, map (fun _ => NaN) rs) /\
    List.length F = List.length rs /\ List.length Ar = List.length rs /\
    forall i, (i < List.length rs)%nat -> exists L,
      sersic_enclosed (Fin (at_ rs i)) (Fin A) (Fin re) (Fin n) (Fin e) = Fin L /\
      Rabs (at_ F i - L) <= 2 * sqrt 2 * PI * at_ rs i * (A * exp b) + 5 / 10000000 /\
      Rabs (at_ Ar i - PI * (at_ rs i * at_ rs i) * (1 - e)) <= 5 / 10000000.
Proof. exact L_Galaxy2.sersic_measured. Qed.
Print Assumptions C118_sersic.

Example C118_example : half_light (1 / 2) (ln 2) /\ (exists m, rendered E_Integrate.quad (E_Galaxy.gauss 1 2) (VInt 5) false 1 None m) /\
  forall i, (i < 2)%nat -> 0 < at_ [1; 2] i /\ on_image (2 - 0) (2 - 0) (at_ [1; 2] i) (at_ [1; 2] i * (1 - 0)) 0 5 5.
Proof. exact E_Galaxy.C118_ex. Qed.

(** C119: on fine enough pixels the measured Petrosian radius is the true one *)
Theorem C119_petrosian : forall A re n e rt eta eps, 0 < A -> 0 < re -> 0 < n -> 0 <= e < 1 -> 0 < rt ->
  petrosian_profile (Fin rt) (Fin re) (Fin n) = Fin eta -> 0 < eps ->
  exists d, 0 < d /\ forall rs, (2 < List.length rs)%nat -> increasing rs -> 0 < at_ rs 0 -> fine d (0 :: rs) -> rt + eps <= last_of rs ->
  exists K0, forall K dblquad X Y t size flag factor center nx ny x0 y0 m k mk s,
    K0 <= K -> integrates dblquad ->
    size_means size flag nx ny -> origin_is center nx ny x0 y0 -> (0 <= nx)%Z -> (0 <= ny)%Z -> (0 < factor)%Z ->
    rendered dblquad (fun x y => gen_sersic2d x y (Fin A) (Fin (K * re)) (Fin n) (Fin X) (Fin Y) (Fin e) (Fin t) (Fin 0)) size flag factor center m ->
    on_image (X - x0) (Y - y0) (K * last_of rs) (K * last_of rs * (1 - e)) t (Z.to_nat ny) (Z.to_nat nx) ->
    s_eta s = Fin eta ->
    (forall q, s_kind s = Some q -> no_overshoot (mk q) /\ last_of rs < d * INR (s_num s - 1)) ->
    exists F Ar o a,
      radial_photometry exact_overlap k m (Fin (X - x0), Fin (Y - y0)) (map Fin (map (Rmult K) rs)) None None (Fin (/ (1 - e))) (Fin t)
        = Ok (map Fin F, map Fin Ar, map (fun _ => NaN) (map (Rmult K) rs)) /\
      Petrosian_new (plain (map (Rmult K) rs) Ar F) s = Ok o /\
      read mk o A_r_petrosian = Ok (VNum (Fin a)) /\ Rabs (a / K - rt) < eps.
Proof. exact L_Galaxy3.petrosian_of_image. Qed.
Print Assumptions C119_petrosian.

Example C119_example : petrosian_profile (Fin 1) (Fin 1) (Fin (1 / 2)) = Fin (ln 2) /\ integrates E_Integrate.quad /\
  (forall d, 0 < d -> exists rs num, (2 < List.length rs)%nat /\ increasing rs /\ 0 < at_ rs 0 /\ fine d (0 :: rs) /\ 2 <= last_of rs /\
    forall q, no_overshoot (mk_linear q) /\ last_of rs < d * INR (num - 1)) /\
  forall K last, 0 < K -> 0 < last -> exists N M m, (0 <= N)%Z /\ rendered E_Integrate.quad (E_Galaxy.gauss K M) (VInt N) false 1 None m /\
    size_means (VInt N) false N N /\ on_image (M - 0) (M - 0) (K * last) (K * last * (1 - 0)) 0 (Z.to_nat N) (Z.to_nat N).
Proof. exact E_Galaxy.C119_ex. Qed.
