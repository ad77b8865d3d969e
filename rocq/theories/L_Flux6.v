(** Fluxes of a Petrosian object in double precision. *)
From Coq Require Import SpecFloat ZArith Reals Lra Lia.
From Verif Require Import Base Num Numpy M_Utils M_Petrosian M_Interp M_Kinds S_Petrosian S_Kinds S_Double S_Sums S_Grid S_Flux6 L_Double L_Double2 L_Double4 L_Grid L_Grid2 L_Grid3 L_Grid4.

Local Open Scope R_scope.

Lemma flux_object other k (o : petrosian f64) M s rp re f : measurable k o M s -> obj_petro_r (mk_scipy other) o = Ok (rp, re) -> askable o rp f ->
  exists x t yp, obj_fraction (mk_scipy other) o f = Ok (x, nnan) /\ obj_flux_at (mk_scipy other) o x = Ok t /\
    chord_value (radii_of o) (fluxes_of o) (dval rp * dval (s_epsilon (p_set o))) yp /\
    let v := dval f / dval (s_epsilon_fraction (p_set o)) * yp in let e := s * spacing_of o in
    (x = nnan /\ t = nnan /\ (forall r y, at_ (radii_of o) 0 <= r <= end_of (radii_of o) -> chord_value (radii_of o) (fluxes_of o) r y -> y < v + e + 35 * u64 * M) \/
     double x /\ double t /\ (dval x = at_ (radii_of o) 0 /\ v - e - 49 * u64 * M <= dval t \/ Rabs (dval t - v) <= e + 84 * u64 * M)).
Proof.
  intros ((K1 & K2 & K3) & (A1 & A2 & A3 & A4 & A5 & A6 & A7) & (B1 & B2 & B3 & B4 & B5) & C1 & C2) Rp ((D1 & D2 & D3 & D4) & (E1 & E2) & E3 & E4 & E5).
  unfold spacing_of, samples_of, radii_of, fluxes_of in *. set (xs := d_r (p_data o)) in *. set (ys := d_flux (p_data o)) in *.
  assert (Ll : length ys = length xs) by (rewrite !map_length in A1; exact A1). rewrite map_length in A2, B4, B5 |- *.
  destruct (frac_fair other k xs ys (s_num (p_set o)) M s rp (s_epsilon (p_set o)) f (s_epsilon_fraction (p_set o))) as (x & yp & H1 & H2 & H3); auto.
  exists x. assert (OF : obj_fraction (mk_scipy other) o f = Ok (x, nnan)).
  { unfold obj_fraction, obj_r_petrosian, obj_r_petrosian_err. rewrite Rp. cbn [bind fst snd]. rewrite K2, K3. exact H1. }
  assert (Ex : exists x0 xt, xs = x0 :: xt) by (clear - A2; destruct xs as [|x0 xt]; [cbn in A2; lia|eauto]). destruct Ex as (x0 & xt & Exs).
  assert (Mn : pymin xs = Ok x0). { rewrite Exs. cbn [pymin]. f_equal. apply low_end; rewrite <- Exs; auto. }
  assert (Mx : pymax xs = Ok (last xs n0)). { rewrite Exs. cbn [pymax]. f_equal. apply high_end; rewrite <- Exs; auto. }
  assert (Vh : dval (last xs n0) = end_of (map dval xs)). { unfold end_of. rewrite map_length, dval_at. f_equal. apply last_nth. lia. }
  assert (Dh : double (last xs n0)). { rewrite Forall_forall in A3. apply A3. rewrite last_nth by lia. apply nth_In. lia. }
  assert (V0 : dval x0 = at_ (map dval xs) 0) by (rewrite Exs; reflexivity). assert (D0 : double x0) by (rewrite Exs in A3; now inversion A3).
  cbv zeta in H3. destruct H3 as [[-> H3]|(G1 & G2 & G3 & y & G4 & G5)].
  - exists nnan, yp. split; auto. split; [|split; auto; left; auto]. unfold obj_flux_at. fold xs. rewrite Mn, Mx. cbn [bind].
    replace (nleb x0 nnan) with false; [reflexivity|]. destruct x0 as [|[]| |]; try reflexivity.
  - pose proof u64_val as U. assert (P : exists y', double (linear_at xs ys x) /\ chord_value (map dval xs) (map dval ys) (dval x) y' /\ Rabs (dval (linear_at xs ys x) - y') <= 14 * u64 * M).
    { destruct (at_point other k xs ys 0%nat M s Ll A2 A3 A4 A5 A6 A7 B1 C1 x G1 G2 G3) as (I1 & y' & I2 & I3). exists y'. auto. }
    destruct P as (y' & I1 & I2 & I3).
    assert (Ey : y' = y). { pose proof (chord_le (map dval xs) (map dval ys) s B1 C1 (dval x) (dval x) y y' (Rle_refl _) G4 I2) as N. replace (dval x - dval x) with 0 in N by ring. rewrite Rmult_0_r in N. apply abs_both in N. lra. }
    subst y'. exists (linear_at xs ys x), yp. split; auto. split.
    { unfold obj_flux_at. fold xs ys. rewrite Mn, Mx. cbn [bind]. rewrite !d_leb by auto. rewrite V0, Vh. destruct G3 as [G31 G32]. rewrite !Rleb_true by auto. cbn [andb].
      assert (Mk : mk_scipy other k xs ys = Ok (linear_at xs ys)).
      { unfold mk_scipy. rewrite Ll, Nat.eqb_refl. destruct K1 as [->|[->| ->]]; auto; (destruct (Nat.ltb_spec (length xs) 2); [lia|reflexivity]). }
      rewrite K2. unfold interp1d. rewrite Mk. cbn [bind]. rewrite Mn, Mx. cbn [bind]. rewrite !d_ltb by auto. rewrite V0, Vh, !Rltb_false by lra. reflexivity. }
    split; auto. right. split; auto. split; auto. apply abs_both in I3. destruct G5 as [[G5 G6]|[G5 G6]]; [left; split; auto; lra|right]. apply abs_both in G5. apply Rabs_le. lra.
Qed.

Lemma flux_total other k (o : petrosian f64) M s rp re : measurable k o M s -> obj_petro_r (mk_scipy other) o = Ok (rp, re) -> askable o rp (s_total_flux_fraction (p_set o)) ->
  exists x t yp, obj_fraction (mk_scipy other) o (s_total_flux_fraction (p_set o)) = Ok (x, nnan) /\ obj_total_flux (mk_scipy other) o = Ok t /\
    chord_value (radii_of o) (fluxes_of o) (dval rp * dval (s_epsilon (p_set o))) yp /\
    let v := dval (s_total_flux_fraction (p_set o)) / dval (s_epsilon_fraction (p_set o)) * yp in let e := s * spacing_of o in
    (x = nnan /\ t = nnan /\ (forall r y, at_ (radii_of o) 0 <= r <= end_of (radii_of o) -> chord_value (radii_of o) (fluxes_of o) r y -> y < v + e + 35 * u64 * M) \/
     double x /\ double t /\ (dval x = at_ (radii_of o) 0 /\ v - e - 49 * u64 * M <= dval t \/ Rabs (dval t - v) <= e + 84 * u64 * M)).
Proof.
  intros A B C. destruct (flux_object other k o M s rp re _ A B C) as (x & t & yp & H1 & H2 & H3). exists x, t, yp. split; auto. split; auto. unfold obj_total_flux. rewrite H1. exact H2.
Qed.
Lemma half_double : double (half : f64) /\ dval (half : f64) = / 2.
Proof.
  split; [split; [reflexivity|exact I]|]. change (half : f64) with (S754_finite false 4503599627370496 (-53)). unfold dval.
  change (powerRZ 2 (-53)) with (/ 2 ^ Pos.to_nat 53). replace (Pos.to_nat 53) with 53%nat by reflexivity. assert (E : 2 ^ 53 = 4503599627370496 * 2) by lra. rewrite E. field.
Qed.
Lemma flux_half other k (o : petrosian f64) M s rp re : measurable k o M s -> obj_petro_r (mk_scipy other) o = Ok (rp, re) -> askable o rp half ->
  exists x t yp, obj_fraction (mk_scipy other) o half = Ok (x, nnan) /\ obj_half_flux (mk_scipy other) o = Ok t /\
    chord_value (radii_of o) (fluxes_of o) (dval rp * dval (s_epsilon (p_set o))) yp /\
    let v := / 2 / dval (s_epsilon_fraction (p_set o)) * yp in let e := s * spacing_of o in
    (x = nnan /\ t = nnan /\ (forall r y, at_ (radii_of o) 0 <= r <= end_of (radii_of o) -> chord_value (radii_of o) (fluxes_of o) r y -> y < v + e + 35 * u64 * M) \/
     double x /\ double t /\ (dval x = at_ (radii_of o) 0 /\ v - e - 49 * u64 * M <= dval t \/ Rabs (dval t - v) <= e + 84 * u64 * M)).
Proof.
  intros A B C. rewrite <- (proj2 half_double). destruct (flux_object other k o M s rp re _ A B C) as (x & t & yp & H1 & H2 & H3). exists x, t, yp. split; auto. split; auto.
  unfold obj_half_flux. rewrite H1. exact H2.
Qed.
