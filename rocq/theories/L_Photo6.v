(** Radial photometry of arbitrary images in double precision. *)
From Coq Require Import SpecFloat ZArith Reals Lra Lia.
From Flocq Require Import Core BinarySingleNaN.
From Verif Require Import Base Num Numpy M_Utils M_Photometry S_Petrosian S_Photometry S_Double S_Sums S_Counts S_Photo6 L_Double L_Double2 L_Double3 L_Double4 L_Sums L_Sums2 L_Grid L_Counts L_Grid4 L_Sums3.
Local Open Scope R_scope.

Lemma round6_any x : double x -> Rabs (dval x) <= bpow radix2 500 ->
  double (nround6 x) /\ Rabs (dval (nround6 x) - dval x) <= / 2000000 + 3 * u64 * (Rabs (dval x) + / 1000000).
Proof.
  intros D F. destruct million as (M1 & M2 & M3). pose proof u64_val as U. rewrite <- M2 in M3.
  assert (Ub : u64 = bpow radix2 (-53)) by exact u64_bpow.
  assert (Bx : Rabs (dval x * 1000000) <= bpow radix2 520).
  { rewrite Rabs_mult, (Rabs_pos_eq 1000000) by lra. change 520%Z with (500 + 20)%Z. rewrite bpow_plus. apply Rmult_le_compat; [apply Rabs_pos|lra|auto|]. change (bpow radix2 20) with 1048576. lra. }
  destruct (d_mul x (f64_ofZ 1000000) D M1) as [A1 V1].
  { rewrite M2. apply rnd_small. eapply Rle_trans; [exact Bx|apply bpow_le; lia]. }
  rewrite M2 in V1. pose proof (rnd_any (dval x * 1000000)) as RA. rewrite <- V1 in RA.
  assert (By : Rabs (dval (nmul x (f64_ofZ 1000000))) <= bpow radix2 520).
  { rewrite V1. rewrite rnd_abs. rewrite <- (rnd_id (bpow radix2 520)) by (apply bpow_fmt; lia). now apply rnd_mono. }
  unfold nround6. cbn [nrint nofZ F64num]. set (y := nmul x (f64_ofZ 1000000)) in *.
  destruct (rint_double y A1) as (A2 & z & N & V2). apply nearest_close in N. apply abs_both in N.
  assert (Fz : fairk 521 (dval (f64_rint y))).
  { rewrite V2. destruct (Z.eq_dec z 0) as [->|Nz]; [now left|]. right. unfold sized. rewrite <- abs_IZR. split.
    - apply Rle_trans with (bpow radix2 0); [apply bpow_le; lia|]. cbn. apply IZR_le. lia.
    - apply abs_both in By. replace (bpow radix2 521) with (2 * bpow radix2 520) by (change 521%Z with (1 + 520)%Z; rewrite bpow_plus; reflexivity).
      assert (1 <= bpow radix2 520) by (change 1 with (bpow radix2 0); apply bpow_le; lia). rewrite abs_IZR. apply Rabs_le. lra. }
  destruct (fd_div 521 20 (f64_rint y) (f64_ofZ 1000000)) as (A3 & _ & d3 & K3 & V3); auto; try lia. change (ndiv (f64_rint y) (nofZ 1000000)) with (ndiv (f64_rint y) (f64_ofZ 1000000)). split; auto.
  rewrite V3, V2, M2. apply abs_both in K3.
  assert (Ti : bpow radix2 (-1000) <= u64 / 100).
  { rewrite Ub. apply Rle_trans with (bpow radix2 (-53) * bpow radix2 (-7)); [rewrite <- bpow_plus; apply bpow_le; lia|]. apply Rmult_le_compat_l; [apply bpow_ge_0|]. change (bpow radix2 (-7)) with (/ 128). lra. }
  set (t0 := bpow radix2 (-1000)) in *. rewrite Rabs_mult, (Rabs_pos_eq 1000000) in RA by lra. set (v := dval x) in *. set (b := Rabs v) in *. assert (Pb : - b <= v <= b) by (apply abs_both; unfold b; lra).
  apply abs_both in RA. assert (B0 : 0 <= b) by apply Rabs_pos. set (u := u64) in *.
  remember (IZR z - dval y) as g eqn:Eg. remember (dval y - v * 1000000) as h eqn:Eh. replace (IZR z) with (v * 1000000 + h + g) by lra.
  replace ((v * 1000000 + h + g) / 1000000 * (1 + d3) - v) with (v * d3 + (h / 1000000) * (1 + d3) + g / 1000000 * (1 + d3)) by field.
  assert (Z2 : Rabs (1 + d3) <= 1 + u) by (apply Rabs_le; lra).
  assert (X : Rabs (v * d3) <= b * u) by (rewrite Rabs_mult; apply Rmult_le_compat_l; [apply Rabs_pos|apply Rabs_le; lra]).
  assert (W : Rabs (h / 1000000 * (1 + d3)) <= (u * b + t0 / 1000000) * (1 + u)).
  { rewrite Rabs_mult. apply Rmult_le_compat; try apply Rabs_pos; auto. apply Rabs_le. lra. }
  assert (Y : Rabs (g / 1000000 * (1 + d3)) <= / 2000000 * (1 + u)).
  { rewrite Rabs_mult. apply Rmult_le_compat; try apply Rabs_pos; auto. apply Rabs_le; lra. }
  assert (Q : u * b * u <= u * b / 100). { assert (0 <= u * b) by (apply Rmult_le_pos; lra). assert (u * b * u <= u * b * / 100) by (apply Rmult_le_compat_l; lra). lra. }
  assert (Q2 : t0 / 1000000 * (1 + u) <= u / 50000000). { assert (0 <= t0) by apply bpow_ge_0. assert (t0 * (1 + u) <= u / 100 * 2) by (apply Rmult_le_compat; lra). lra. }
  eapply Rle_trans; [apply Rabs_triang|]. eapply Rle_trans; [apply Rplus_le_compat_r, Rabs_triang|]. lra.
Qed.

Lemma grow_3 n : grow n + 3 * u64 * (1 + grow n) <= grow (3 + n).
Proof.
  unfold grow. rewrite pow_add. pose proof u64_val as U. assert (1 <= (1 + u64) ^ n) by (apply pow_R1_Rle; lra). set (p := (1 + u64) ^ n) in *.
  assert (1 + 3 * u64 <= (1 + u64) ^ 3) by (cbn [pow]; nra). set (q := (1 + u64) ^ 3) in *. assert ((1 + 3 * u64) * p <= q * p) by (apply Rmult_le_compat_r; lra). lra.
Qed.
Lemma rounded_loss s x size n : double s -> Rabs (dval s) <= bpow radix2 500 -> Rabs x <= size -> Rabs (dval s - x) <= grow n * size ->
  double (nround6 s) /\ Rabs (dval (nround6 s) - x) <= loss (3 + n) size.
Proof.
  intros D B S E. pose proof u64_val as U. destruct (round6_any s D B) as [A R]. split; auto. unfold loss. change ((1 + u64) ^ (3 + n) - 1) with (grow (3 + n)).
  pose proof (grow_0 n) as G. pose proof (grow_3 n) as G3. pose proof (Rabs_pos x) as Px.
  assert (Bs : Rabs (dval s) <= (1 + grow n) * size). { replace (dval s) with (x + (dval s - x)) by ring. eapply Rle_trans; [apply Rabs_triang|]. lra. }
  assert (T : 3 * u64 * Rabs (dval s) <= 3 * u64 * ((1 + grow n) * size)) by (apply Rmult_le_compat_l; lra).
  assert (G4 : (grow n + 3 * u64 * (1 + grow n)) * size <= grow (3 + n) * size) by (apply Rmult_le_compat_r; lra).
  replace (dval (nround6 s) - x) with ((dval (nround6 s) - dval s) + (dval s - x)) by ring. eapply Rle_trans; [apply Rabs_triang|]. lra.
Qed.
Lemma over_le_abs l f : Rabs (over l f) <= over l (fun j i => Rabs (f j i)).
Proof. unfold over, total. induction l as [|p l IH]; cbn [map fold_right]; [rewrite Rabs_R0; lra|]. eapply Rle_trans; [apply Rabs_triang|]. lra. Qed.
Lemma over_bound l f b : (forall p, In p l -> f (fst p) (snd p) <= b) -> over l f <= INR (length l) * b.
Proof.
  unfold over, total. induction l as [|p l IH]; intros H; cbn [map fold_right]; [cbn; lra|]. change (length (p :: l)) with (S (length l)). rewrite S_INR.
  specialize (H p (or_introl eq_refl)) as Hp. assert (H' : forall q, In q l -> f (fst q) (snd q) <= b) by (intros; apply H; now right). specialize (IH H'). lra.
Qed.
Lemma fair_abs x : fair x -> Rabs x <= bpow radix2 200.
Proof. intros H. apply fairk_abs. now apply fair_k. Qed.
Lemma few_53 n : INR (S (S n)) * u64 <= / 2 -> INR n <= bpow radix2 52.
Proof.
  rewrite !S_INR, u64_bpow. intros H. pose proof (pos_INR n) as P. pose proof (bpow_gt_0 radix2 (-53)) as Q.
  apply Rmult_le_reg_r with (bpow radix2 (-53)); auto. rewrite <- bpow_plus. change (bpow radix2 (52 + -53)) with (/ 2). lra.
Qed.
Lemma sum_size n b : INR (S (S n)) * u64 <= / 2 -> b <= INR n * bpow radix2 400 -> 0 <= b -> 4 * b <= bpow radix2 500.
Proof.
  intros H B B0. apply few_53 in H. apply Rle_trans with (bpow radix2 2 * (bpow radix2 52 * bpow radix2 400)); [|rewrite <- !bpow_plus; apply bpow_le; lia].
  change (bpow radix2 2) with 4. apply Rmult_le_compat_l; [lra|]. eapply Rle_trans; [exact B|]. apply Rmult_le_compat_r; [apply bpow_ge_0|auto].
Qed.

Section Radial.
  Variables (overlap : aperture f64 -> nat -> nat -> option (nat -> nat -> f64)) (k : flavour) (image error : img f64) (pos : f64 * f64) (mask : option (img bool)) (elong theta : f64).
  Variable w : f64 -> nat -> nat -> f64.
  Notation gauged := (S_Photo6.gauged overlap k image error pos mask elong theta w).
  Hypotheses (Fit : fits mask image) (Fe : iny error = iny image /\ inx error = inx image).
  Notation near_flux := (S_Photo6.near_flux image mask w).
  Notation near_area := (S_Photo6.near_area image mask w).
  Notation near_err := (S_Photo6.near_err image error mask w).
  Lemma one_gauged r : gauged r -> exists f a e, one_radius overlap k image pos (Some error) (option_map invert mask) elong theta r = Ok (f, a, e) /\
    one_radius overlap k image pos None (option_map invert mask) elong theta r = Ok (f, a, nnan) /\ near_flux r f /\ near_area r a /\ near_err r e.
  Proof.
    intros ((ap & E1 & E2) & Dw & Hp & Np). unfold one_radius. rewrite E1. cbn [bind]. pose proof u64_val as U.
    assert (Fi : fits (option_map invert mask) image) by (destruct mask as [m|]; [exact Fit|exact I]). unfold S_Photo6.near_flux, S_Photo6.near_area, S_Photo6.near_err. cbv zeta. rewrite <- taken_covered in *.
    set (C := covered (iny image) (inx image) (fun j i => dval (w r j i)) (option_map invert mask)) in *.
    assert (Wp : forall j i, In (j, i) C -> 0 < dval (w r j i)) by (intros j i H; now apply covered_in in H).
    assert (Np' : INR (S (length C)) * u64 <= 1). { rewrite !S_INR in *. lra. } 
    assert (G1 : grow (S (length C)) <= 3 / 4). { apply grow_half. rewrite !S_INR in *. lra. }
    assert (G3 : grow (S (S (S (length C)))) <= 1).
    { rewrite grow_S. assert (grow (S (S (length C))) <= 3 / 4) by (apply grow_half; auto). assert (u64 * grow (S (S (length C))) <= / 100 * 1) by (apply Rmult_le_compat; try lra; apply grow_0). lra. }
    destruct (flux_double overlap ap image (option_map invert mask) (w r) E2 Fi Dw) as (s & S1 & S2 & S3); [intros j i H; destruct (Hp j i H) as (A & B & D & _); auto|exact Np'|].
    destruct (S3 s S2) as [Ds Vs]. fold C in Vs.
    destruct (flux_double overlap ap (ones_like image) (option_map invert mask) (w r) E2 Fi Dw) as (t & T1 & T2 & T3).
    { intros j i H. destruct (Hp j i H) as (A & _). destruct one_double as [O1 O2]. cbn [ones_like px]. split; auto. split; auto. rewrite O2. right. unfold moderate. rewrite Rabs_R1.
      assert (1 <= 2 ^ 200) by (apply pow_R1_Rle; lra). split; [|auto]. rewrite <- Rinv_1. apply Rinv_le_contravar; lra. } { exact Np'. }
    destruct (T3 t T2) as [Dt Vt]. cbn [ones_like px iny inx] in Vt. fold C in Vt.
    rewrite (over_ext C _ (fun j i => dval (w r j i))) in Vt by (intros; rewrite (proj2 one_double); ring).
    rewrite (over_ext C (fun j i => Rabs _) (fun j i => dval (w r j i))) in Vt by (intros (j, i) H; cbn [fst snd]; rewrite (proj2 one_double), Rmult_1_l; apply Rabs_pos_eq; apply Rlt_le; now apply Wp).
    destruct (error_double overlap ap image error (option_map invert mask) (w r) E2 Fi Fe Dw) as (s' & v & X1 & X2 & X3 & X4); [intros j i H; destruct (Hp j i H) as (A & _ & _ & B & D); auto|exact Np|].
    assert (s' = s) by congruence. subst s'. destruct (X4 v X3) as [Dv Vv]. fold C in Vv.
    set (Q := over C (fun j i => dval (px image j i) * dval (w r j i))) in *. set (QA := over C (fun j i => Rabs (dval (px image j i) * dval (w r j i)))) in *.
    set (WA := over C (fun j i => dval (w r j i))) in *. set (VA := over C (fun j i => dval (px error j i) * dval (px error j i) * dval (w r j i))) in *.
    change ((1 + u64) ^ S (length C) - 1) with (grow (S (length C))) in Vs, Vt. change ((1 + u64) ^ S (S (S (length C))) - 1) with (grow (S (S (S (length C))))) in Vv.
    assert (Wm : forall j i, In (j, i) C -> Rabs (dval (w r j i)) <= bpow radix2 200) by (intros j i H; apply fair_abs; right; now apply Hp).
    assert (One : 1 <= bpow radix2 200) by (change 1 with (bpow radix2 0); apply bpow_le; lia).
    assert (Qb : QA <= INR (length C) * bpow radix2 400).
    { apply over_bound. intros (j, i) H. cbn [fst snd]. rewrite Rabs_mult. change 400%Z with (200 + 200)%Z. rewrite bpow_plus. apply Rmult_le_compat; try apply Rabs_pos; [apply fair_abs; now apply Hp|now apply Wm]. }
    assert (Wb : WA <= INR (length C) * bpow radix2 400).
    { apply over_bound. intros (j, i) H. cbn [fst snd]. change 400%Z with (200 + 200)%Z. rewrite bpow_plus. specialize (Wm j i H). apply abs_both in Wm. apply Rle_trans with (bpow radix2 200 * 1); [lra|apply Rmult_le_compat_l; lra]. }
    assert (Vb : VA <= INR (length C) * bpow radix2 400).
    { apply over_bound. intros (j, i) H. cbn [fst snd]. change 400%Z with (200 + 200)%Z. rewrite bpow_plus. destruct (Hp j i H) as (_ & _ & _ & _ & Sq). apply fair_abs in Sq. apply abs_both in Sq. specialize (Wm j i H). apply abs_both in Wm. specialize (Wp j i H).
      apply Rmult_le_compat; try lra. apply Rle_0_sqr. }
    assert (Q0 : Rabs Q <= QA) by apply over_le_abs. assert (QP : 0 <= QA) by (pose proof (Rabs_pos Q); lra).
    assert (W0 : 0 <= WA). { unfold WA. destruct (over_scaled C (fun j i => dval (w r j i)) (fun j i => dval (w r j i)) 0 ltac:(lra)) as [H _]; auto. intros (j, i) H. cbn [fst snd]. specialize (Wp j i H). rewrite Rminus_eq_0, Rabs_R0. lra. }
    assert (V0 : 0 <= VA). { unfold VA. destruct (over_scaled C (fun j i => dval (px error j i) * dval (px error j i) * dval (w r j i)) (fun j i => dval (px error j i) * dval (px error j i) * dval (w r j i)) 0 ltac:(lra)) as [H _]; auto.
      intros (j, i) H. cbn [fst snd]. specialize (Wp j i H). rewrite Rminus_eq_0, Rabs_R0. split; [|lra]. apply Rmult_le_pos; [apply Rle_0_sqr|lra]. }
    pose proof (sum_size _ _ Np Qb QP) as Qs. pose proof (sum_size _ _ Np Wb W0) as Ws. pose proof (sum_size _ _ Np Vb V0) as Vz.
    assert (Rs : sqrt VA <= 1 + VA). { pose proof (sqrt_pos VA) as K. pose proof (sqrt_sqrt VA V0) as KK. destruct (Rle_lt_dec (sqrt VA) 1); [lra|]. assert (1 * sqrt VA <= sqrt VA * sqrt VA) by (apply Rmult_le_compat_r; lra). lra. }
    assert (Big4 : 4 <= bpow radix2 500) by (change 4 with (bpow radix2 2); apply bpow_le; lia).
    destruct (rounded_loss s Q QA (S (length C)) Ds) as [Rs1 Rs2]; auto.
    { assert (grow (S (length C)) * QA <= 1 * QA) by (apply Rmult_le_compat_r; lra). apply abs_both in Q0. apply abs_both in Vs. apply Rabs_le. lra. }
    destruct (rounded_loss t WA WA (S (length C)) Dt) as [Rt1 Rt2]; auto.
    { assert (grow (S (length C)) * WA <= 1 * WA) by (apply Rmult_le_compat_r; lra). apply abs_both in Vt. apply Rabs_le. lra. } { rewrite Rabs_pos_eq; lra. }
    destruct (rounded_loss (nsqrt v) (sqrt VA) (sqrt VA) (S (S (S (length C)))) Dv) as [Rv1 Rv2]; auto.
    { pose proof (sqrt_pos VA) as K. assert (grow (S (S (S (length C)))) * sqrt VA <= 1 * sqrt VA) by (apply Rmult_le_compat_r; lra). apply abs_both in Vv. apply Rabs_le. lra. } { rewrite Rabs_pos_eq; [lra|apply sqrt_pos]. }
    exists (nround6 s), (nround6 t), (nround6 (nsqrt v)). rewrite X1, S1. cbn [bind]. rewrite T1. cbn [bind fst snd]. rewrite (d_nan (nround6 s) Rs1).
    split; [reflexivity|]. split; [reflexivity|]. replace (length C + 4)%nat with (3 + S (length C))%nat by lia. replace (length C + 6)%nat with (3 + S (S (S (length C))))%nat by lia. auto.
  Qed.
  Lemma radial_gauged rs : (forall r, In r rs -> gauged r) ->
    exists F A E, radial_photometry overlap k image pos rs (Some error) mask elong theta = Ok (F, A, E) /\
      radial_photometry overlap k image pos rs None mask elong theta = Ok (F, A, map (fun _ => nnan) rs) /\
      Forall2 near_flux rs F /\ Forall2 near_area rs A /\ Forall2 near_err rs E.
  Proof.
    unfold radial_photometry. intros H. assert (G : exists l l', mapM (one_radius overlap k image pos (Some error) (option_map invert mask) elong theta) rs = Ok l /\
      mapM (one_radius overlap k image pos None (option_map invert mask) elong theta) rs = Ok l' /\ map (fun t => fst (fst t)) l' = map (fun t => fst (fst t)) l /\ map (fun t => snd (fst t)) l' = map (fun t => snd (fst t)) l /\
      map snd l' = map (fun _ => nnan) rs /\ Forall2 near_flux rs (map (fun t => fst (fst t)) l) /\ Forall2 near_area rs (map (fun t => snd (fst t)) l) /\ Forall2 near_err rs (map snd l)).
    { induction rs as [|r rs IH]; [exists [], []; cbn; repeat split; constructor|]. destruct IH as (l & l' & I1 & I2 & I3 & I4 & I5 & I6 & I7 & I8); [intros; apply H; now right|].
      destruct (one_gauged r (H r (or_introl eq_refl))) as (f & a & e & O1 & O2 & O3 & O4 & O5). exists ((f, a, e) :: l), ((f, a, nnan) :: l'). cbn [mapM]. rewrite O1, O2. cbn [bind]. rewrite I1, I2. cbn [bind].
      cbn [map fst snd]. rewrite I3, I4, I5. repeat split; auto. }
    destruct G as (l & l' & G1 & G2 & G3 & G4 & G5 & G6 & G7 & G8). rewrite G1, G2. cbn [bind]. eexists. eexists. eexists. split; [reflexivity|]. rewrite G3, G4, G5. auto.
  Qed.
End Radial.
Lemma round6_500 (x : f64) : double x -> Rabs (dval x) <= 2 ^ 500 ->
  double (nround6 x) /\ Rabs (dval (nround6 x) - dval x) <= / 2000000 + 3 * u64 * (Rabs (dval x) + / 1000000).
Proof.
  intros D B. apply round6_any; auto. rewrite bpow_powerRZ. change (powerRZ (IZR radix2) 500) with (2 ^ Pos.to_nat 500). now replace (Pos.to_nat 500) with 500%nat by reflexivity.
Qed.
