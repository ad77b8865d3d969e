(** With the right epsilon the measured radii are those of the whole galaxy. *)
From Coq Require Import String.
From Verif Require Import Base Num Numpy M_Utils M_Photometry S_Photometry M_Petrosian M_Sersic Gamma S_Sersic S_Utils S_Petrosian S_PetroR S_Conv S_Robust S_Noise S_Spline S_Cubic S_Epsilon
  M_PSF S_PSF M_Fitting S_Fitting M_Integrate S_Integrate M_Exact S_Exact S_Galaxy S_Render S_Image
  L_Sersic L_Petrosian L_Conv L_Conv2 L_Cubic3 L_PetroExists L_Cubic4 L_Cubic5.
Local Open Scope list_scope.
Local Open Scope R_scope.

Lemma argR_scale re n k : 0 < re -> argR re n (k * re) = argR 1 n k.
Proof. intros H. unfold argR. f_equal. f_equal. field. lra. Qed.
Lemma share_scale A re n e k ef : 0 < A -> 0 < re -> 0 < n -> e < 1 ->
  (enclR A re n e (k * re) = ef * totalR A re n e <-> lower_gamma (2 * n) (argR 1 n k) = ef * GammaR (2 * n)).
Proof.
  intros HA Hre Hn He. pose proof (scale_pos A re n e HA Hre Hn He) as Hs. unfold enclR, totalR. rewrite argR_scale by auto.
  split; intros H; [|rewrite H; ring]. apply Rmult_eq_reg_l with (scaleR A re n e); [rewrite H; ring|lra].
Qed.

Theorem epsilon_exists n eta ef : 0 < n -> 0 < eta < 1 -> 0 < ef < 1 ->
  exists epsilon, 0 < epsilon /\ forall A re e rt, 0 < A -> 0 < re -> e < 1 -> 0 < rt ->
    petrosian_profile (Fin rt) (Fin re) (Fin n) = Fin eta ->
    forall ep, 0 < ep -> (fits_epsilon A re n e rt ef ep <-> ep = epsilon).
Proof.
  intros Hn Heta Hef.
  destruct (proj1 (proj1 (petrosian_exists 1 n eta ltac:(lra) Hn)) Heta) as (k & Hk & Ek).
  pose proof (total_pos 1 1 n 0 ltac:(lra) ltac:(lra) Hn ltac:(lra)) as Tp.
  assert (Rg : 0 <= ef * totalR 1 1 n 0 < totalR 1 1 n 0) by nra.
  set (R := invR 1 1 n 0 (ef * totalR 1 1 n 0)).
  pose proof (encl_inv 1 1 n 0 _ ltac:(lra) ltac:(lra) Hn ltac:(lra) Rg) as ER. fold R in ER.
  assert (HR : 0 < R).
  { destruct (inv_range 1 1 n 0 (ef * totalR 1 1 n 0) ltac:(lra)) as [H|H]; auto. fold R in H. rewrite <- H, encl_zero in ER. nra. }
  exists (R / k). split; [now apply Rdiv_lt_0_compat|]. intros A re e rt HA Hre He Hrt Ert ep Hep.
  assert (Erk : rt = k * re).
  { apply (proj2 (petrosian_exists re n eta Hre Hn) rt (k * re)); auto; [nra|].
    rewrite petro_fin in * by (auto; nra). rewrite <- Ek. rewrite (argR_scale re n k Hre). reflexivity. }
  subst rt. unfold fits_epsilon.
  rewrite enclosed_inf by auto. assert (0 < ep * (k * re)) by (apply Rmult_lt_0_compat; nra).
  rewrite enclosed_fin by lra. replace (ep * (k * re)) with (ep * k * re) by ring.
  replace (R) with (R * 1) in ER by ring. apply (share_scale 1 1 n 0 R ef) in ER; try lra.
  split.
  - intros (T & ET & E). injection ET as <-. injection E as E. apply share_scale in E; auto.
    assert (Q : enclR 1 1 n 0 (ep * k) = enclR 1 1 n 0 R) by (unfold enclR; rewrite E, ER; reflexivity).
    apply (encl_inj 1 1 n 0) in Q; try lra; [rewrite <- Q; field; lra|nra].
  - intros ->. exists (totalR A re n e). split; auto. f_equal. apply share_scale; auto.
    replace (R / k * k) with R by (field; lra). exact ER.
Qed.

Section Fit.
  Variables A re n e rt ef epsilon total : R.
  Hypotheses (HA : 0 < A) (Hre : 0 < re) (Hn : 0 < n) (He : e < 1) (Hrt : 0 < rt) (Hep : 0 < epsilon).
  Hypothesis HT : sersic_enclosed PInf (Fin A) (Fin re) (Fin n) (Fin e) = Fin total.

  Lemma total_is : total = totalR A re n e.
  Proof. rewrite enclosed_inf in HT by auto. now injection HT. Qed.

  (** the radii then are those of fractions of the whole flux; *)
  Theorem fitted_radius f r : fits_epsilon A re n e rt ef epsilon -> ef <> 0 ->
    (true_radius A re n e rt epsilon ef f r <-> 0 < r /\ sersic_enclosed (Fin r) (Fin A) (Fin re) (Fin n) (Fin e) = Fin (f * total)).
  Proof.
    intros (T & ET & EF) Hef. rewrite HT in ET. injection ET as <-. unfold true_radius. rewrite EF. split.
    - intros (Hr & Fe & E1 & E2). injection E1 as <-. split; auto. rewrite E2. f_equal. field. auto.
    - intros (Hr & E2). split; auto. exists (ef * total). split; auto. rewrite E2. f_equal. field. auto.
  Qed.
  Theorem fitted_half r : fits_epsilon A re n e rt ef epsilon -> ef <> 0 ->
    (true_radius A re n e rt epsilon ef (1 / 2) r <-> r = re).
  Proof.
    intros Hf Hef. rewrite fitted_radius by auto. rewrite total_is, <- encl_half by auto. split.
    - intros (Hr & E). rewrite enclosed_fin in E by lra. injection E as E. apply (encl_inj A re n e); auto; lra.
    - intros ->. split; auto. rewrite enclosed_fin by lra. f_equal. field.
  Qed.
  (** otherwise the half-light radius comes out too small if epsilon is too small, and too large if it is too large *)
  Theorem half_bias r Fe : 0 < ef -> true_radius A re n e rt epsilon ef (1 / 2) r ->
    sersic_enclosed (Fin (epsilon * rt)) (Fin A) (Fin re) (Fin n) (Fin e) = Fin Fe ->
    (r < re <-> Fe < ef * total) /\ (re < r <-> ef * total < Fe).
  Proof.
    intros Hef (Hr & Fe' & E1 & E2) EF. rewrite EF in E1. injection E1 as <-. rewrite enclosed_fin in E2 by lra. injection E2 as E2.
    pose proof (encl_half A re n e Hre Hn) as Hh. rewrite <- total_is in Hh.
    assert (Q : 2 * enclR A re n e r * ef = Fe) by (rewrite E2; field; lra).
    assert (L : forall a b, 0 < a -> 0 < b -> (a < b <-> enclR A re n e a < enclR A re n e b)).
    { intros a b Ha Hb. split; intros H; [apply encl_inc; auto; lra|]. destruct (Rlt_le_dec a b) as [|[G|G]]; auto.
      - pose proof (encl_inc A re n e b a HA Hre Hn He ltac:(lra)). lra.
      - subst. lra. }
    rewrite (L r re), (L re r) by auto. rewrite <- Hh, <- Q. split; split; intros; nra.
  Qed.
End Fit.

Theorem fitted_half_measured A re n e : 0 < A -> 0 < re -> 0 < n -> 0 <= e < 1 -> forall q, 0 < q -> forall rt eta, 0 < rt ->
  petrosian_profile (Fin rt) (Fin re) (Fin n) = Fin eta -> forall epsilon ef, 0 < epsilon -> 0 < ef ->
  fits_epsilon A re n e rt ef epsilon -> forall eps, 0 < eps ->
    exists d, 0 < d /\ forall rs, (2 < List.length rs)%nat -> increasing rs -> 0 < at_ rs 0 -> fine d (0 :: rs) -> steps_within q (0 :: rs) ->
      Rmax rt (Rmax re (epsilon * rt)) + eps <= last_of rs ->
    exists K0, forall K X Y t x0 y0 m k kd mk s, K0 <= K -> shows_sersic A (K * re) n e X Y t (K * last_of rs) x0 y0 m ->
      set_to eta epsilon ef d rs kd s -> cubic_spline (mk kd) ->
    exists F Ar o, radial_photometry exact_overlap k m (Fin (X - x0), Fin (Y - y0)) (map Fin (map (Rmult K) rs)) None None (Fin (/ (1 - e))) (Fin t)
        = Ok (map Fin F, map Fin Ar, map (fun _ => NaN) (map (Rmult K) rs)) /\ Petrosian_new (plain (map (Rmult K) rs) Ar F) s = Ok o /\
      exists b, read mk o A_r_half_light = Ok (VNum (Fin b)) /\ Rabs (b / K - re) < eps.
Proof.
  intros HA Hre Hn He q Hq rt eta Hrt Eta epsilon ef Hep Hef Ft eps Heps.
  assert (TR : true_radius A re n e rt epsilon ef (1 / 2) re).
  { destruct Ft as (T & ET & EF). apply (fitted_half A re n e rt ef epsilon T HA Hre Hn ltac:(lra)); auto; [exists T; auto|lra]. }
  assert (P : 0 < 1 / 2 / ef) by (apply Rdiv_lt_0_compat; lra).
  destruct (image_spline_fraction A re n e HA Hre Hn He q Hq rt eta Hrt Eta epsilon ef Hep (1 / 2) re eps P TR Heps) as (d & Hd & H).
  exists d. split; auto. intros rs L2 I P0 Fi St Hl. destruct (H rs L2 I P0 Fi St Hl) as (K0 & H2). exists K0.
  intros K X Y t x0 y0 m k kd mk s HK Sh Se Cs. destruct (H2 K X Y t x0 y0 m k kd mk s HK Sh Se Cs) as (F & Ar & o & E1 & E2 & E3).
  exists F, Ar, o. repeat (split; auto). apply E3. right. left. auto.
Qed.

Theorem fitted_total_measured A re n e : 0 < A -> 0 < re -> 0 < n -> 0 <= e < 1 -> forall q, 0 < q -> forall rt eta, 0 < rt ->
  petrosian_profile (Fin rt) (Fin re) (Fin n) = Fin eta -> forall epsilon ef, 0 < epsilon -> 0 < ef ->
  fits_epsilon A re n e rt ef epsilon -> forall f r total eps, 0 < f -> 0 < r ->
  sersic_enclosed PInf (Fin A) (Fin re) (Fin n) (Fin e) = Fin total ->
  sersic_enclosed (Fin r) (Fin A) (Fin re) (Fin n) (Fin e) = Fin (f * total) -> 0 < eps ->
    exists d, 0 < d /\ forall rs, (2 < List.length rs)%nat -> increasing rs -> 0 < at_ rs 0 -> fine d (0 :: rs) -> steps_within q (0 :: rs) ->
      Rmax rt (Rmax r (epsilon * rt)) + eps <= last_of rs ->
    exists K0, forall K X Y t x0 y0 m k kd mk s, K0 <= K -> shows_sersic A (K * re) n e X Y t (K * last_of rs) x0 y0 m ->
      set_to eta epsilon ef d rs kd s -> s_total_flux_fraction s = Fin f -> cubic_spline (mk kd) ->
    exists F Ar o, radial_photometry exact_overlap k m (Fin (X - x0), Fin (Y - y0)) (map Fin (map (Rmult K) rs)) None None (Fin (/ (1 - e))) (Fin t)
        = Ok (map Fin F, map Fin Ar, map (fun _ => NaN) (map (Rmult K) rs)) /\ Petrosian_new (plain (map (Rmult K) rs) Ar F) s = Ok o /\
      exists v, read mk o A_total_flux = Ok (VNum (Fin v)) /\ Rabs (v / (K * K) - f * total) < eps.
Proof.
  intros HA Hre Hn He q Hq rt eta Hrt Eta epsilon ef Hep Hef Ft f r total eps Hf Hr ET ER Heps.
  assert (TR : true_radius A re n e rt epsilon ef f r).
  { apply (fitted_radius A re n e rt ef epsilon total ET); auto. lra. }
  assert (P : 0 < f / ef) by (apply Rdiv_lt_0_compat; lra).
  destruct (image_spline_flux A re n e HA Hre Hn He q Hq rt eta Hrt Eta epsilon ef Hep f r (f * total) eps P TR ER Heps) as (d & Hd & H).
  exists d. split; auto. intros rs L2 I P0 Fi St Hl. destruct (H rs L2 I P0 Fi St Hl) as (K0 & H2). exists K0.
  intros K X Y t x0 y0 m k kd mk s HK Sh Se Es Cs. destruct (H2 K X Y t x0 y0 m k kd mk s HK Sh Se Cs) as (F & Ar & o & E1 & E2 & E3).
  exists F, Ar, o. repeat (split; auto). apply E3. right. auto.
Qed.

Theorem fitted_concentration_measured A re n e : 0 < A -> 0 < re -> 0 < n -> 0 <= e < 1 -> forall q, 0 < q -> forall rt eta, 0 < rt ->
  petrosian_profile (Fin rt) (Fin re) (Fin n) = Fin eta -> forall epsilon ef, 0 < epsilon -> 0 < ef ->
  fits_epsilon A re n e rt ef epsilon -> forall f1 f2 r1 r2 total eps, 0 < f1 -> 0 < f2 -> 0 < r1 -> 0 < r2 ->
  sersic_enclosed PInf (Fin A) (Fin re) (Fin n) (Fin e) = Fin total ->
  sersic_enclosed (Fin r1) (Fin A) (Fin re) (Fin n) (Fin e) = Fin (f1 * total) ->
  sersic_enclosed (Fin r2) (Fin A) (Fin re) (Fin n) (Fin e) = Fin (f2 * total) -> 0 < eps ->
    exists d, 0 < d /\ forall rs, (2 < List.length rs)%nat -> increasing rs -> 0 < at_ rs 0 -> fine d (0 :: rs) -> steps_within q (0 :: rs) ->
      Rmax rt (Rmax (Rmax r1 r2) (epsilon * rt)) + eps <= last_of rs ->
    exists K0, forall K X Y t x0 y0 m k kd mk s, K0 <= K -> shows_sersic A (K * re) n e X Y t (K * last_of rs) x0 y0 m ->
      set_to eta epsilon ef d rs kd s -> cubic_spline (mk kd) ->
    exists F Ar o, radial_photometry exact_overlap k m (Fin (X - x0), Fin (Y - y0)) (map Fin (map (Rmult K) rs)) None None (Fin (/ (1 - e))) (Fin t)
        = Ok (map Fin F, map Fin Ar, map (fun _ => NaN) (map (Rmult K) rs)) /\ Petrosian_new (plain (map (Rmult K) rs) Ar F) s = Ok o /\
      forall a, concentration_of f1 f2 a -> exists c, read mk o a = Ok (VNum (Fin c)) /\ Rabs (c - 5 * (ln (r2 / r1) / ln 10)) < eps.
Proof.
  intros HA Hre Hn He q Hq rt eta Hrt Eta epsilon ef Hep Hef Ft f1 f2 r1 r2 total eps Hf1 Hf2 Hr1 Hr2 ET E1 E2 Heps.
  assert (T1 : true_radius A re n e rt epsilon ef f1 r1) by (apply (fitted_radius A re n e rt ef epsilon total ET); auto; lra).
  assert (T2 : true_radius A re n e rt epsilon ef f2 r2) by (apply (fitted_radius A re n e rt ef epsilon total ET); auto; lra).
  assert (P1 : 0 < f1 / ef) by (apply Rdiv_lt_0_compat; lra). assert (P2 : 0 < f2 / ef) by (apply Rdiv_lt_0_compat; lra).
  destruct (image_spline_concentration A re n e HA Hre Hn He q Hq rt eta Hrt Eta epsilon ef Hep f1 f2 r1 r2 eps P1 P2 T1 T2 Heps) as (d & Hd & H).
  exists d. split; auto. intros rs L2 I P0 Fi St Hl. destruct (H rs L2 I P0 Fi St Hl) as (K0 & H2). exists K0.
  intros K X Y t x0 y0 m k kd mk s HK Sh Se Cs. destruct (H2 K X Y t x0 y0 m k kd mk s HK Sh Se Cs) as (F & Ar & o & G1 & G2 & _ & G3).
  exists F, Ar, o. repeat (split; auto).
Qed.
(** the concentration of the whole galaxy depends on its index only *)
Theorem index_concentration n f1 f2 : 0 < n -> 0 < f1 < 1 -> 0 < f2 < 1 -> exists c, forall A re e total r1 r2, 0 < A -> 0 < re -> e < 1 -> 0 < r1 -> 0 < r2 ->
  sersic_enclosed PInf (Fin A) (Fin re) (Fin n) (Fin e) = Fin total ->
  sersic_enclosed (Fin r1) (Fin A) (Fin re) (Fin n) (Fin e) = Fin (f1 * total) ->
  sersic_enclosed (Fin r2) (Fin A) (Fin re) (Fin n) (Fin e) = Fin (f2 * total) -> r2 / r1 = c.
Proof.
  intros Hn Hf1 Hf2. pose proof (total_pos 1 1 n 0 ltac:(lra) ltac:(lra) Hn ltac:(lra)) as Tp.
  set (q f := invR 1 1 n 0 (f * totalR 1 1 n 0)).
  assert (Hq : forall f, 0 < f < 1 -> 0 <= q f /\ lower_gamma (2 * n) (argR 1 n (q f)) = f * GammaR (2 * n)).
  { intros f Hf. split; [apply inv_range; lra|]. apply (share_scale 1 1 n 0); try lra. rewrite Rmult_1_r.
    apply encl_inv; try lra. nra. }
  exists (q f2 / q f1). intros A re e total r1 r2 HA Hre He H1 H2 ET E1 E2.
  rewrite enclosed_inf in ET by auto. injection ET as <-. rewrite enclosed_fin in E1, E2 by lra. injection E1 as E1. injection E2 as E2.
  assert (S : forall f r, 0 < f < 1 -> 0 < r -> enclR A re n e r = f * totalR A re n e -> r = q f * re).
  { intros f r Hf Hr E. destruct (Hq f Hf) as [P Q]. apply (share_scale A re n e (q f) f) in Q; auto.
    rewrite <- Q in E. apply (encl_inj A re n e) in E; auto; try lra. nra. }
  pose proof (S f1 r1 Hf1 H1 E1) as Q1. pose proof (S f2 r2 Hf2 H2 E2) as Q2. rewrite Q1, Q2.
  assert (q f1 <> 0) by (intros Z; rewrite Z in Q1; lra). field. split; lra.
Qed.
