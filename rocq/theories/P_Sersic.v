(** Property theorems for the analytic profiles of petrofit/modeling/models.py: C33-C38, C64, C65. *)
From Verif Require Import Base Num Gamma M_Sersic S_Sersic.
From Verif Require L_Sersic L_Sersic2 E_Sersic.
Local Open Scope R_scope.

(** C33.  The special functions used in the model are the right ones. *)
Theorem C33_special_functions : forall s, 0 < s ->
  lower_gamma s 0 = 0 /\ tends_to_at_zero (lower_gamma s) 0 /\
  (forall x, 0 < x -> derivable_pt_lim (lower_gamma s) x (Rpower x (s - 1) * exp (- x))) /\
  tends_to_at_infinity (lower_gamma s) (GammaR s) /\
  (forall p, 0 <= p < 1 -> 0 <= gammaincinvR s p /\ lower_gamma s (gammaincinvR s p) = p * GammaR s).
Proof. exact E_Sersic.gamma_functions. Qed.
Print Assumptions C33_special_functions.

Theorem C33_half_light_constant : forall n, 0 < n ->
  exists b, half_light n b /\ forall b', half_light n b' -> b' = b.
Proof. exact L_Sersic.half_light_exists. Qed.
Print Assumptions C33_half_light_constant.

Theorem C33_enclosed_flux : forall A re n e b, 0 < A -> 0 < re -> 0 < n -> e < 1 -> half_light n b ->
  exists L total,
    computes (fun r => sersic_enclosed r (Fin A) (Fin re) (Fin n) (Fin e)) L /\
    L 0 = 0 /\ tends_to_at_zero L 0 /\
    (forall r, 0 < r -> derivable_pt_lim L r (2 * PI * r * (1 - e) * sersic_law A re n b r)) /\
    (forall r r', 0 <= r < r' -> L r < L r') /\
    tends_to_at_infinity L total /\
    sersic_enclosed PInf (Fin A) (Fin re) (Fin n) (Fin e) = Fin total /\
    2 * L re = total.
Proof. exact L_Sersic.enclosed_spec. Qed.
Print Assumptions C33_enclosed_flux.

Example C33_example :
  sersic_enclosed (Fin 1) (Fin 1) (Fin 1) (Fin (1 / 2)) (Fin 0) = Fin (PI / ln 2) /\
  sersic_enclosed PInf (Fin 1) (Fin 1) (Fin (1 / 2)) (Fin 0) = Fin (2 * PI / ln 2).
Proof. exact E_Sersic.C33_ex. Qed.

(** C34. *)
Theorem C34_inverse : forall A re n e, 0 < A -> 0 < re -> 0 < n -> e < 1 ->
  exists total, sersic_enclosed PInf (Fin A) (Fin re) (Fin n) (Fin e) = Fin total /\ 0 < total /\
    (forall r, 0 <= r -> exists f, 0 <= f < total /\
       sersic_enclosed (Fin r) (Fin A) (Fin re) (Fin n) (Fin e) = Fin f /\
       sersic_enclosed_inv (Fin f) (Fin A) (Fin re) (Fin n) (Fin e) = Fin r) /\
    (forall f, 0 <= f < total -> exists r, 0 <= r /\
       sersic_enclosed_inv (Fin f) (Fin A) (Fin re) (Fin n) (Fin e) = Fin r /\
       sersic_enclosed (Fin r) (Fin A) (Fin re) (Fin n) (Fin e) = Fin f) /\
    (forall f f' r r', 0 <= f < f' -> f' < total ->
       sersic_enclosed_inv (Fin f) (Fin A) (Fin re) (Fin n) (Fin e) = Fin r ->
       sersic_enclosed_inv (Fin f') (Fin A) (Fin re) (Fin n) (Fin e) = Fin r' -> r < r') /\
    sersic_enclosed_inv (Fin total) (Fin A) (Fin re) (Fin n) (Fin e) = PInf /\
    (forall f, f < 0 \/ total < f ->
       sersic_enclosed_inv (Fin f) (Fin A) (Fin re) (Fin n) (Fin e) = NaN).
Proof. exact L_Sersic.inverse_spec. Qed.
Print Assumptions C34_inverse.

Example C34_example :
  sersic_enclosed_inv (Fin (PI / ln 2)) (Fin 1) (Fin 1) (Fin (1 / 2)) (Fin 0) = Fin 1.
Proof. exact E_Sersic.C34_ex. Qed.

(** C35. *)
Theorem C35_petrosian_profile : forall re n r, 0 < re -> 0 < n -> 0 < r ->
  exists v, petrosian_profile (Fin r) (Fin re) (Fin n) = Fin v /\ 0 < v < 1 /\
    (forall A e b L, 0 < A -> e < 1 -> half_light n b ->
       sersic_enclosed (Fin r) (Fin A) (Fin re) (Fin n) (Fin e) = Fin L ->
       v = sersic_law A re n b r / (L / (PI * (r * r) * (1 - e)))) /\
    (forall k, 0 < k -> petrosian_profile (Fin (k * r)) (Fin (k * re)) (Fin n) = Fin v) /\
    (forall r' v', r < r' -> petrosian_profile (Fin r') (Fin re) (Fin n) = Fin v' -> v' < v).
Proof. exact L_Sersic.profile_spec. Qed.
Print Assumptions C35_petrosian_profile.

Example C35_example : petrosian_profile (Fin 1) (Fin 1) (Fin (1 / 2)) = Fin (ln 2).
Proof. exact E_Sersic.C35_ex. Qed.

(** C36. *)
Theorem C36_intensities : forall i n, 0 < n ->
  I0_to_Ie (Ie_to_I0 (Fin i) (Fin n)) (Fin n) = Fin i /\
  Ie_to_I0 (I0_to_Ie (Fin i) (Fin n)) (Fin n) = Fin i /\
  (forall re b, 0 < re -> half_light n b -> Ie_to_I0 (Fin i) (Fin n) = Fin (sersic_law i re n b 0)).
Proof. exact L_Sersic.intensity_spec. Qed.
Print Assumptions C36_intensities.

Example C36_example : Ie_to_I0 (Fin 3) (Fin (1 / 2)) = Fin 6.
Proof. exact E_Sersic.C36_ex. Qed.

(** C37. *)
Theorem C37_gen_sersic : forall A re n x0 y0 e th c, 0 < re -> 0 < n -> e < 1 -> -2 < c ->
  exists f, (forall x y, gen_sersic2d (Fin x) (Fin y) (Fin A) (Fin re) (Fin n) (Fin x0) (Fin y0)
                (Fin e) (Fin th) (Fin c) = Fin (f x y)) /\
    (c = 0 -> forall b x y, half_light n b -> f x y = sersic2d b A re n x0 y0 e th x y) /\
    (forall s, s = 1 \/ s = -1 ->
       f (x0 + s * re * cos th) (y0 + s * re * sin th) = A /\
       f (x0 - s * ((1 - e) * re) * sin th) (y0 + s * ((1 - e) * re) * cos th) = A) /\
    (forall x y, f (2 * x0 - x) (2 * y0 - y) = f x y) /\
    (forall x y, gen_sersic2d (Fin x) (Fin y) (Fin A) (Fin re) (Fin n) (Fin x0) (Fin y0)
                (Fin e) (Fin (th + PI)) (Fin c) = Fin (f x y)) /\
    (0 <= A -> forall u v t t', 0 <= t <= t' ->
       f (x0 + t' * u) (y0 + t' * v) <= f (x0 + t * u) (y0 + t * v)).
Proof. exact L_Sersic2.gen_sersic_spec. Qed.
Print Assumptions C37_gen_sersic.

Example C37_example :
  gen_sersic2d (Fin 5) (Fin 7) (Fin 3) (Fin 2) (Fin (1 / 2)) (Fin 5) (Fin 5) (Fin (1 / 4)) (Fin (PI / 2)) (Fin 1) = Fin 3 /\
  gen_sersic2d (Fin 5) (Fin 5) (Fin 3) (Fin 2) (Fin (1 / 2)) (Fin 5) (Fin 5) (Fin (1 / 4)) (Fin (PI / 2)) (Fin 1) = Fin 6.
Proof. exact E_Sersic.C37_ex. Qed.

(** C38. *)
Theorem C38_nuker : forall Ib rb x0 y0 al be ga, 0 < rb -> al <> 0 ->
  (forall x y d, 0 < d -> d * d = (x - x0) * (x - x0) + (y - y0) * (y - y0) ->
     nuker2d (Fin x) (Fin y) (Fin Ib) (Fin rb) (Fin x0) (Fin y0) (Fin al) (Fin be) (Fin ga)
     = Fin (nuker_law Ib rb al be ga (sqrt 2 * d))) /\
  (forall x y, 2 * ((x - x0) * (x - x0) + (y - y0) * (y - y0)) = rb * rb ->
     nuker2d (Fin x) (Fin y) (Fin Ib) (Fin rb) (Fin x0) (Fin y0) (Fin al) (Fin be) (Fin ga) = Fin Ib) /\
  (ga <> 0 \/ be <> 0 ->
     nuker2d (Fin x0) (Fin y0) (Fin Ib) (Fin rb) (Fin x0) (Fin y0) (Fin al) (Fin be) (Fin ga) = NaN).
Proof. exact L_Sersic2.nuker_spec. Qed.
Print Assumptions C38_nuker.

(** with r_break = 1 the amplitude 1 is not reached at distance 1 *)
Theorem C38_not_at_break : exists x y,
  (x - 0) * (x - 0) + (y - 0) * (y - 0) = 1 * 1 /\
  nuker2d (Fin x) (Fin y) (Fin 1) (Fin 1) (Fin 0) (Fin 0) (Fin 2) (Fin 4) (Fin 0) <> Fin 1.
Proof. exact L_Sersic2.nuker_not_at_break. Qed.
Print Assumptions C38_not_at_break.

Example C38_example :
  nuker2d (Fin 1) (Fin 0) (Fin 3) (Fin (sqrt 2)) (Fin 0) (Fin 0) (Fin 2) (Fin 4) (Fin 1) = Fin 3 /\
  nuker2d (Fin 0) (Fin 0) (Fin 3) (Fin (sqrt 2)) (Fin 0) (Fin 0) (Fin 2) (Fin 4) (Fin 1) = NaN.
Proof. exact E_Sersic.C38_ex. Qed.

(** C64. *)
Theorem C64_core_sersic : forall Ib re rb n x0 y0 al ga e th b,
  0 < re -> 0 < rb -> 0 < n -> 0 < al -> e < 1 -> half_light n b ->
  (forall x y d, 0 < d ->
     d * d = along x0 y0 th x y * along x0 y0 th x y
             + across x0 y0 th x y / (1 - e) * (across x0 y0 th x y / (1 - e)) ->
     core_sersic2d (Fin x) (Fin y) (Fin Ib) (Fin re) (Fin rb) (Fin n) (Fin x0) (Fin y0)
       (Fin al) (Fin ga) (Fin e) (Fin th)
     = Fin (core_sersic_law Ib re rb n b al ga (d / re))) /\
  core_sersic_law Ib re rb n b al ga rb = Ib /\
  (forall x y, (rb * re) * (rb * re) = along x0 y0 th x y * along x0 y0 th x y
             + across x0 y0 th x y / (1 - e) * (across x0 y0 th x y / (1 - e)) ->
     core_sersic2d (Fin x) (Fin y) (Fin Ib) (Fin re) (Fin rb) (Fin n) (Fin x0) (Fin y0)
       (Fin al) (Fin ga) (Fin e) (Fin th) = Fin Ib) /\
  core_sersic2d (Fin x0) (Fin y0) (Fin Ib) (Fin re) (Fin rb) (Fin n) (Fin x0) (Fin y0)
       (Fin al) (Fin ga) (Fin e) (Fin th) = NaN.
Proof. exact L_Sersic2.core_sersic_spec. Qed.
Print Assumptions C64_core_sersic.

Example C64_example :
  core_sersic2d (Fin 6) (Fin 0) (Fin 5) (Fin 2) (Fin 3) (Fin 1) (Fin 0) (Fin 0) (Fin 10) (Fin (1 / 10)) (Fin 0) (Fin 0) = Fin 5.
Proof. exact E_Sersic.C64_ex. Qed.

(** C65. *)
Theorem C65_estimates_ordered :
  (forall u u' v v', 1 <= u < u' -> u2080_to_c2080 (Fin u) = v -> u2080_to_c2080 (Fin u') = v' ->
     exists c c' k k', v = Fin c /\ v' = Fin c' /\ 1 <= c < c' /\
       c2080_to_n v = Fin k /\ c2080_to_n v' = Fin k' /\ k < k') /\
  (forall c c', 0 <= c < c' -> exists k k',
     c2080_to_n (Fin c) = Fin k /\ c2080_to_n (Fin c') = Fin k' /\ k < k') /\
  (forall n n', 0 <= n < n' -> exists k k',
     n_to_epsilon (Fin n) = Fin k /\ n_to_epsilon (Fin n') = Fin k' /\ 9 / 10 < k < k') /\
  (forall p p', 1 / 5 <= p < p' -> exists k k',
     p0502_to_epsilon (Fin p) = Fin k /\ p0502_to_epsilon (Fin p') = Fin k' /\ k < k').
Proof. exact L_Sersic2.approx_spec. Qed.
Print Assumptions C65_estimates_ordered.

Theorem C65_outside_range :
  (exists u u' c c', 0 <= u < u' /\ u2080_to_c2080 (Fin u) = Fin c /\ u2080_to_c2080 (Fin u') = Fin c' /\ c' < c) /\
  (exists c k, 0 < c /\ c2080_to_n (Fin c) = Fin k /\ k < 0).
Proof. exact L_Sersic2.approx_limits. Qed.
Print Assumptions C65_outside_range.

Example C65_example :
  exists c k, u2080_to_c2080 (Fin 3) = Fin c /\ c2080_to_n (Fin c) = Fin k /\ 1 < k < 3 / 2.
Proof. exact E_Sersic.C65_ex. Qed.
