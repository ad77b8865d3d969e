(** Property C158: the fluxes of a Petrosian object in double precision. *)
From Coq Require Import SpecFloat ZArith.
From Verif Require Import Base Num Numpy M_Utils M_Petrosian M_Interp M_Kinds S_Petrosian S_Kinds S_Double S_Sums S_Grid S_Flux6.
From Verif Require L_Flux6 E_Grid E_Grid2 E_Flux6.
Local Open Scope R_scope.

Theorem C158_total_flux : forall other k (o : petrosian f64) M s rp re,
  measurable k o M s -> obj_petro_r (mk_scipy other) o = Ok (rp, re) -> askable o rp (s_total_flux_fraction (p_set o)) ->
  exists x t yp, obj_fraction (mk_scipy other) o (s_total_flux_fraction (p_set o)) = Ok (x, nnan) /\ obj_total_flux (mk_scipy other) o = Ok t /\
    chord_value (radii_of o) (fluxes_of o) (dval rp * dval (s_epsilon (p_set o))) yp /\
    let v := dval (s_total_flux_fraction (p_set o)) / dval (s_epsilon_fraction (p_set o)) * yp in let e := s * spacing_of o in
    (x = nnan /\ t = nnan /\ (forall r y, at_ (radii_of o) 0 <= r <= end_of (radii_of o) -> chord_value (radii_of o) (fluxes_of o) r y -> y < v + e + 35 * u64 * M) \/
     double x /\ double t /\ (dval x = at_ (radii_of o) 0 /\ v - e - 49 * u64 * M <= dval t \/ Rabs (dval t - v) <= e + 84 * u64 * M)).
Proof. exact L_Flux6.flux_total. Qed.
Print Assumptions C158_total_flux.

Theorem C158_half_flux : forall other k (o : petrosian f64) M s rp re,
  measurable k o M s -> obj_petro_r (mk_scipy other) o = Ok (rp, re) -> askable o rp half ->
  exists x t yp, obj_fraction (mk_scipy other) o half = Ok (x, nnan) /\ obj_half_flux (mk_scipy other) o = Ok t /\
    chord_value (radii_of o) (fluxes_of o) (dval rp * dval (s_epsilon (p_set o))) yp /\
    let v := / 2 / dval (s_epsilon_fraction (p_set o)) * yp in let e := s * spacing_of o in
    (x = nnan /\ t = nnan /\ (forall r y, at_ (radii_of o) 0 <= r <= end_of (radii_of o) -> chord_value (radii_of o) (fluxes_of o) r y -> y < v + e + 35 * u64 * M) \/
     double x /\ double t /\ (dval x = at_ (radii_of o) 0 /\ v - e - 49 * u64 * M <= dval t \/ Rabs (dval t - v) <= e + 84 * u64 * M)).
Proof. exact L_Flux6.flux_half. Qed.
Print Assumptions C158_half_flux.

(** radii 1, 2, 4, fluxes 2, 6, 8, r_petrosian 3: total flux 29/4 for the 7 at radius 3 *)
Example C158_example : radii_of E_Flux6.oH = [1; 2; 4] /\ fluxes_of E_Flux6.oH = [2; 6; 8] /\ measurable KLinear E_Flux6.oH 8 4 /\
  askable E_Flux6.oH (f64_ofZ 3) (s_total_flux_fraction (p_set E_Flux6.oH)) /\
  Petrosian_new (mkdata DFloat E_Grid.rG (map f64_ofZ [1; 4; 16]%Z) E_Grid2.fH None None) (mkset E_Grid.halfd (f64_ofZ 1) (f64_ofZ 1) (f64_ofZ 1) (Some KLinear) 5) = Ok E_Flux6.oH /\
  obj_petro_r (mk_scipy E_Grid.otherG) E_Flux6.oH = Ok (f64_ofZ 3, nnan) /\
  obj_fraction (mk_scipy E_Grid.otherG) E_Flux6.oH (f64_ofZ 1) = Ok (SFdiv 53 1024 (f64_ofZ 13) (f64_ofZ 4), nnan) /\
  obj_total_flux (mk_scipy E_Grid.otherG) E_Flux6.oH = Ok (SFdiv 53 1024 (f64_ofZ 29) (f64_ofZ 4)).
Proof.
  split; [unfold radii_of; rewrite (proj1 E_Flux6.data_H); exact E_Grid2.XH|]. split; [unfold fluxes_of; rewrite (proj1 (proj2 E_Flux6.data_H)); exact E_Grid2.YH|].
  exact (conj E_Flux6.measurable_H (conj E_Flux6.askable_H (conj E_Flux6.built E_Flux6.runs))).
Qed.
