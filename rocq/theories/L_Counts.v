(** Rounding to six decimals in double precision, and images of counts. *)
From Coq Require Import SpecFloat ZArith Reals Lra Lia.
From Flocq Require Import Core BinarySingleNaN.
From Verif Require Import Base Num Numpy M_Utils M_Photometry M_Petrosian S_Petrosian S_Photometry S_Double S_Sums S_Counts L_Double L_Double2 L_Double3 L_Double4 L_Sums L_Sums2 L_Grid.
Local Open Scope R_scope.

(** ** np.rint *)
Lemma mantissa s m e : double (S754_finite s m e) -> (Zpos m < 2 ^ 53)%Z.
Proof.
  intros [H _]. cbn [valid_binary] in H. unfold SpecFloat.bounded in H. apply andb_prop in H. destruct H as [H _]. unfold SpecFloat.canonical_mantissa in H.
  apply Zeq_bool_eq in H. unfold SpecFloat.fexp in H. assert (D : (Zpos (digits2_pos m) <= 53)%Z) by lia.
  rewrite Zpos_digits2_pos in D. apply (Zpower_gt_Zdigits radix2 53 (Zpos m)) in D. exact D.
Qed.
Lemma opp_double x : double x -> double (SFopp x) /\ dval (SFopp x) = - dval x.
Proof. intros [A B]. destruct x as [s| | |s m e]; try contradiction; cbn [SFopp dval]. - split; [split; auto|ring]. - split; [split; auto|]. destruct s; cbn [negb]; ring. Qed.
Lemma rint_double x : double x -> double (f64_rint x) /\ exists z, nearest_even (dval x) z /\ dval (f64_rint x) = IZR z.
Proof.
  intros D. destruct x as [s| | |s m e]; try (destruct D; contradiction).
  - split; [exact D|]. exists 0%Z. split; [left; cbn [dval]; rewrite Rminus_eq_0, Rabs_R0; lra|reflexivity].
  - unfold f64_rint. destruct (Z.leb_spec 0 e) as [He|He].
    + split; auto. exists ((if s then -1 else 1) * Zpos m * 2 ^ e)%Z.
      assert (V : dval (S754_finite s m e) = IZR ((if s then -1 else 1) * Zpos m * 2 ^ e)).
      { cbn [dval]. rewrite !mult_IZR. f_equal; [f_equal; now destruct s|]. destruct e; [reflexivity|rewrite <- Zpower_pos_powerRZ; reflexivity|lia]. }
      split; auto. left. rewrite V, Rminus_eq_0, Rabs_R0. lra.
    + pose proof (mantissa _ _ _ D) as Hm. set (d := (2 ^ (- e))%Z). assert (Hd : (0 < d)%Z) by (unfold d; apply Z.pow_pos_nonneg; lia).
      assert (Pd : 0 < IZR d) by (apply IZR_lt; lia).
      assert (V : dval (S754_finite s m e) = (if s then -1 else 1) * (IZR (Zpos m) / IZR d)).
      { cbn [dval]. rewrite Rmult_assoc. f_equal. unfold Rdiv. f_equal. destruct e as [|p|p]; try lia. unfold d. cbn [Z.opp powerRZ]. f_equal.
        change (Z.pow 2 (Z.pos p)) with (Z.pow_pos 2 p). rewrite Zpower_pos_powerRZ. reflexivity. }
      set (q := (Zpos m / d)%Z). set (r := (Zpos m mod d)%Z). assert (Eq : Zpos m = (d * q + r)%Z) by (apply Z.div_mod; lia).
      assert (Hr : (0 <= r < d)%Z) by (apply Z.mod_pos_bound; lia). assert (Hq : (0 <= q <= Zpos m)%Z) by (split; [apply Z.div_pos; lia|apply Z.div_le_upper_bound; nia]).
      set (q' := if (2 * r <? d)%Z then q else if (d <? 2 * r)%Z then (q + 1)%Z else if Z.even q then q else (q + 1)%Z).
      assert (Er : IZR (Zpos m) / IZR d = IZR q + IZR r / IZR d) by (rewrite Eq, plus_IZR, mult_IZR; field; lra).
      assert (F : IZR r = IZR r / IZR d * IZR d) by (field; lra). set (f := IZR r / IZR d) in *.
      assert (Nr : nearest_even (IZR (Zpos m) / IZR d) q' /\ (0 <= q' <= Zpos m + 1)%Z).
      { rewrite Er. unfold q'. destruct (Z.ltb_spec (2 * r) d) as [A|A]; [|destruct (Z.ltb_spec d (2 * r)) as [B|B]].
        - split; [|lia]. left. assert (2 * IZR r < IZR d) by (rewrite <- mult_IZR; now apply IZR_lt). assert (0 <= IZR r) by (apply IZR_le; lia).
          assert (0 <= f < 1 / 2) by (split; nra). rewrite Rabs_left1; lra.
        - split; [|lia]. left. assert (IZR d < 2 * IZR r) by (rewrite <- mult_IZR; now apply IZR_lt). assert (IZR r < IZR d) by (apply IZR_lt; lia).
          assert (1 / 2 < f < 1) by (split; nra). rewrite plus_IZR, Rabs_right; lra.
        - assert (2 * IZR r = IZR d) by (rewrite <- mult_IZR; f_equal; lia). assert (f = 1 / 2) by nra. destruct (Z.even q) eqn:Ev.
          + split; [|lia]. right. split; auto. rewrite Rabs_left1; lra.
          + split; [|lia]. right. split; [rewrite plus_IZR, Rabs_right; lra|]. rewrite Z.even_add, Ev. reflexivity. }
      destruct Nr as [Nr Bq]. 
      assert (Out : let y := if (q' =? 0)%Z then S754_zero s else let y := f64_ofZ q' in if s then SFopp y else y in double y /\ dval y = IZR ((if s then -1 else 1) * q')).
      { cbv zeta. destruct (Z.eqb_spec q' 0) as [E0|E0]; [split; [split; [reflexivity|exact I]|rewrite E0, Z.mul_0_r; reflexivity]|].
        destruct (ofZ_double q' ltac:(lia)) as [A B]. destruct s; [|split; auto; rewrite B; f_equal; lia]. destruct (opp_double _ A) as [A' B']. split; auto. rewrite B', B, mult_IZR. lra. }
      fold d q r q'. cbv zeta in Out |- *. destruct Out as [O1 O2]. split; [exact O1|]. exists ((if s then -1 else 1) * q')%Z. split; [|exact O2]. rewrite V.
      destruct s; [|now rewrite Rmult_1_l, Z.mul_1_l]. unfold nearest_even in *. rewrite mult_IZR.
      replace (-1 * IZR q' - -1 * (IZR (Zpos m) / IZR d)) with (- (IZR q' - IZR (Zpos m) / IZR d)) by ring. rewrite Rabs_Ropp.
      rewrite Z.even_mul. cbn [Z.even orb]. exact Nr.
Qed.
Lemma nearest_close x z : nearest_even x z -> Rabs (IZR z - x) <= 1 / 2.
Proof. intros [H|[H _]]; lra. Qed.
Lemma nearest_whole w z : nearest_even (IZR w) z -> z = w.
Proof.
  intros H. apply nearest_close in H. rewrite <- minus_IZR, <- abs_IZR in H. assert (L : IZR (Z.abs (z - w)) < IZR 1) by lra. apply lt_IZR in L. lia.
Qed.

(** ** np.round(x, 6) *)
Lemma million : double (f64_ofZ 1000000) /\ dval (f64_ofZ 1000000) = 1000000 /\ sized 20 1000000.
Proof.
  destruct (ofZ_double 1000000 ltac:(lia)) as [A B]. split; auto. split; auto. unfold sized. rewrite Rabs_pos_eq by lra. split.
  - apply Rle_trans with (bpow radix2 0); [apply bpow_le; lia|]. cbn. lra.
  - change (bpow radix2 20) with 1048576. lra.
Qed.
Lemma round6_double x : double x -> fair (dval x) ->
  double (nround6 x) /\ Rabs (dval (nround6 x) - dval x) <= / 2000000 + 3 * u64 * (Rabs (dval x) + / 1000000).
Proof.
  intros D F. destruct million as (M1 & M2 & M3). pose proof u64_val as U. rewrite <- M2 in M3.
  destruct (fd_mul 200 20 x (f64_ofZ 1000000)) as (A1 & B1 & d1 & K1 & V1); auto; try lia; [now apply fair_k|now right|]. rewrite M2 in V1.
  unfold nround6. cbn [nrint nofZ F64num]. set (y := nmul x (f64_ofZ 1000000)) in *.
  destruct (rint_double y A1) as (A2 & z & N & V2). apply nearest_close in N. apply abs_both in N.
  assert (Fz : fairk 221 (dval (f64_rint y))).
  { rewrite V2. destruct (Z.eq_dec z 0) as [->|Nz]; [now left|]. right. unfold sized. rewrite <- abs_IZR. split.
    - apply Rle_trans with (bpow radix2 0); [apply bpow_le; lia|]. cbn. apply IZR_le. lia.
    - assert (By : Rabs (dval y) <= bpow radix2 220) by (apply fairk_abs in B1; exact B1). apply abs_both in By. replace (bpow radix2 221) with (2 * bpow radix2 220) by (change 221%Z with (1 + 220)%Z; rewrite bpow_plus; reflexivity).
      assert (1 <= bpow radix2 220) by (change 1 with (bpow radix2 0); apply bpow_le; lia). rewrite abs_IZR. apply Rabs_le. lra. }
  destruct (fd_div 221 20 (f64_rint y) (f64_ofZ 1000000)) as (A3 & _ & d3 & K3 & V3); auto; try lia. change (ndiv (f64_rint y) (nofZ 1000000)) with (ndiv (f64_rint y) (f64_ofZ 1000000)). split; auto.
  rewrite V3, V2, M2. apply abs_both in K1. apply abs_both in K3. rewrite V1 in N. set (v := dval x) in *. set (u := u64) in *. clearbody u.
  remember (IZR z - v * 1000000 * (1 + d1)) as g eqn:Eg. replace (IZR z) with (v * 1000000 * (1 + d1) + g) by lra.
  replace ((v * 1000000 * (1 + d1) + g) / 1000000 * (1 + d3) - v) with (v * ((1 + d1) * (1 + d3) - 1) + g / 1000000 * (1 + d3)) by field.
  remember ((1 + d1) * (1 + d3) - 1) as f eqn:Ef. assert (Ff : - (3 * u) <= f <= 3 * u) by (rewrite Ef; split; nra).
  assert (X : Rabs (v * f) <= Rabs v * (3 * u)) by (rewrite Rabs_mult; apply Rmult_le_compat_l; [apply Rabs_pos|apply Rabs_le; lra]).
  assert (Y : Rabs (g / 1000000 * (1 + d3)) <= / 2000000 * (1 + u)).
  { rewrite Rabs_mult. replace (/ 2000000 * (1 + u)) with (/ 2000000 * (1 + u)) by ring. apply Rmult_le_compat; try apply Rabs_pos; apply Rabs_le; lra. }
  eapply Rle_trans; [apply Rabs_triang|]. lra.
Qed.
Lemma countable_le x : countable x -> Rabs x * 1000000 <= 9007199254740992.
Proof. unfold countable. intros H. replace (2 ^ 53) with 9007199254740992 in H by lra. exact H. Qed.
Lemma round6_count x : double x -> whole (dval x) -> countable (dval x) -> double (nround6 x) /\ dval (nround6 x) = dval x.
Proof.
  intros D [w Ew] C. apply countable_le in C. rewrite Ew in C. rewrite <- abs_IZR in C.
  destruct million as (M1 & M2 & M3). assert (Bw : (Z.abs (w * 1000000) <= 2 ^ 53)%Z).
  { apply le_IZR. rewrite Z.abs_mul, mult_IZR. change (IZR (Z.abs 1000000)) with 1000000. exact C. }
  assert (R1 : rnd (IZR w * 1000000) = IZR w * 1000000).
  { destruct (ofZ_double (w * 1000000) Bw) as [A B]. rewrite mult_IZR in B. rewrite <- B. apply rnd_id. now apply double_format. }
  assert (Sm : Rabs (IZR w * 1000000) < bpow radix2 1024).
  { rewrite <- mult_IZR, <- abs_IZR. apply Rle_lt_trans with (IZR (2 ^ 53)); [now apply IZR_le|]. replace (IZR (2 ^ 53)) with (bpow radix2 53) by reflexivity. apply bpow_lt. lia. }
  destruct (d_mul x (f64_ofZ 1000000) D M1) as [A1 V1]; rewrite M2, Ew, R1 in *; [exact Sm|].
  unfold nround6. cbn [nrint nofZ F64num]. destruct (rint_double (nmul x (f64_ofZ 1000000)) A1) as (A2 & z & N & V2). rewrite V1, <- mult_IZR in N. apply nearest_whole in N. subst z.
  assert (R2 : rnd (IZR w) = IZR w) by (rewrite <- Ew; apply rnd_id; now apply double_format).
  assert (Q : dval (f64_rint (nmul x (f64_ofZ 1000000))) / dval (f64_ofZ 1000000) = IZR w) by (rewrite V2, M2, mult_IZR; field).
  destruct (d_div (f64_rint (nmul x (f64_ofZ 1000000))) (f64_ofZ 1000000) A2 M1) as [A3 V3]; rewrite ?Q, ?R2 in *; [rewrite M2; lra| |split; auto].
  apply Rle_lt_trans with (IZR (2 ^ 53)); [|replace (IZR (2 ^ 53)) with (bpow radix2 53) by reflexivity; apply bpow_lt; lia].
  rewrite <- abs_IZR. apply IZR_le. lia.
Qed.

(** ** radial_photometry of counts *)
Lemma taken_covered ny nx w mask : covered ny nx w (option_map invert mask) = taken ny nx w mask.
Proof. unfold covered, taken. apply filter_ext. intros p. f_equal. destruct mask as [m|]; cbn [option_map invert px selects]; auto. now rewrite negb_involutive. Qed.
Lemma over_whole l f : (forall j i, In (j, i) l -> whole (f j i)) -> whole (over l f) /\ Rabs (over l f) <= over l (fun j i => Rabs (f j i)).
Proof.
  unfold over, total. induction l as [|[j i] l IH]; intros H; cbn [map fold_right fst snd]; [split; [now exists 0%Z|rewrite Rabs_R0; lra]|].
  destruct IH as [(a & A) B]; [intros; apply H; now right|]. destruct (H j i (or_introl eq_refl)) as [b Hb]. split.
  - exists (b + a)%Z. rewrite plus_IZR, A, Hb. reflexivity.
  - eapply Rle_trans; [apply Rabs_triang|]. lra.
Qed.
Lemma countable_53 x : countable x -> Rabs x <= 2 ^ 53.
Proof. unfold countable. pose proof (Rabs_pos x). lra. Qed.
Lemma over_abs_pos l f : 0 <= over l (fun j i => Rabs (f j i)).
Proof. unfold over, total. induction l as [|p l IH]; cbn [map fold_right]; [lra|]. pose proof (Rabs_pos (f (fst p) (snd p))). lra. Qed.

Section Radial.
  Variables (overlap : aperture f64 -> nat -> nat -> option (nat -> nat -> f64)) (k : flavour) (image : img f64) (pos : f64 * f64) (mask : option (img bool)) (elong theta : f64).
  Variable w : f64 -> nat -> nat -> f64.
  Let P (r : f64) := taken (iny image) (inx image) (fun j i => dval (w r j i)) mask.
  Notation counted := (S_Counts.counted overlap k image pos mask elong theta w).
  Hypothesis Fit : fits mask image.
  Lemma one_count r : counted r -> exists f a, one_radius overlap k image pos None (option_map invert mask) elong theta r = Ok (f, a, nnan) /\
    double f /\ double a /\ dval f = over (P r) (fun j i => dval (px image j i)) /\ dval a = INR (length (P r)).
  Proof.
    intros ((ap & E1 & E2) & Dw & Hp & C1 & C2). unfold one_radius. rewrite E1. cbn [bind].
    assert (Fi : fits (option_map invert mask) image) by (destruct mask as [m|]; [exact Fit|exact I]). unfold P in *. rewrite <- taken_covered in *.
    destruct (counts_double overlap ap image (option_map invert mask) (w r) E2 Fi Dw Hp) as (s & S1 & S2 & S3).
    { apply countable_53 in C1. rewrite Rabs_pos_eq in C1 by apply over_abs_pos. exact C1. }
    destruct (S3 s S2) as [Ds Vs]. destruct (area_double overlap ap image (option_map invert mask) (w r) E2 Fi Dw) as (t & T1 & Dt & Vt).
    { intros j i H. now apply Hp. } { apply countable_53 in C2. rewrite Rabs_pos_eq in C2 by apply pos_INR. exact C2. }
    destruct (over_whole (covered (iny image) (inx image) (fun j i => dval (w r j i)) (option_map invert mask)) (fun j i => dval (px image j i))) as [Wh Le]; [intros j i H; now apply Hp|].
    destruct (round6_count s Ds) as [Rs Es]; [now rewrite Vs| |].
    { rewrite Vs. unfold countable in *. rewrite (Rabs_pos_eq (over _ _)) in C1 by apply over_abs_pos. lra. }
    destruct (round6_count t Dt) as [Rt Et]; [exists (Z.of_nat (length (covered (iny image) (inx image) (fun j i => dval (w r j i)) (option_map invert mask)))); rewrite Vt; apply INR_IZR_INZ|now rewrite Vt|].
    exists (nround6 s), (nround6 t). rewrite S1. cbn [bind]. rewrite T1. cbn [bind fst snd]. rewrite (d_nan (nround6 s) Rs). split; [reflexivity|].
    split; auto. split; auto. rewrite Es, Et. auto.
  Qed.
  Lemma radial_counts rs : (forall r, In r rs -> counted r) ->
    exists F A, radial_photometry overlap k image pos rs None mask elong theta = Ok (F, A, map (fun _ => nnan) rs) /\ Forall double F /\ Forall double A /\
      map dval F = map (fun r => over (P r) (fun j i => dval (px image j i))) rs /\ map dval A = map (fun r => INR (length (P r))) rs.
  Proof.
    unfold radial_photometry. intros H. assert (G : exists l, mapM (one_radius overlap k image pos None (option_map invert mask) elong theta) rs = Ok l /\
      Forall double (map (fun t => fst (fst t)) l) /\ Forall double (map (fun t => snd (fst t)) l) /\ map snd l = map (fun _ => nnan) rs /\
      map dval (map (fun t => fst (fst t)) l) = map (fun r => over (P r) (fun j i => dval (px image j i))) rs /\ map dval (map (fun t => snd (fst t)) l) = map (fun r => INR (length (P r))) rs).
    { induction rs as [|r rs IH]; [exists []; cbn; repeat split; constructor|]. destruct IH as (l & I1 & I2 & I3 & I4 & I5 & I6); [intros; apply H; now right|].
      destruct (one_count r (H r (or_introl eq_refl))) as (f & a & O1 & O2 & O3 & O4 & O5). exists ((f, a, nnan) :: l). cbn [mapM]. rewrite O1. cbn [bind]. rewrite I1. cbn [bind].
      cbn [map fst snd]. split; [reflexivity|]. split; [now constructor|]. split; [now constructor|]. rewrite I4, I5, I6, O4, O5. auto. }
    destruct G as (l & G1 & G2 & G3 & G4 & G5 & G6). rewrite G1. cbn [bind]. eexists. eexists. split; [now rewrite G4|]. auto.
  Qed.
End Radial.

(** ** the Petrosian radius of an image of counts *)
Lemma counts_radius overlap k (image : img f64) pos mask elong theta (w : f64 -> nat -> nat -> f64) rs eta B c i num :
  fits mask image -> (forall r, In r rs -> counted overlap k image pos mask elong theta w r) -> (2 < length rs)%nat ->
  let n := fun r => INR (length (taken (iny image) (inx image) (fun j i => dval (w r j i)) mask)) in
  let f := fun r => over (taken (iny image) (inx image) (fun j i => dval (w r j i)) mask) (fun j i => dval (px image j i)) in
  increasing (map n rs) -> 0 < at_ (map n rs) 0 -> (forall r, In r rs -> 0 < f r) -> double eta -> 1 <= B <= 2 ^ 100 -> Rabs (dval eta) <= B ->
  (forall j, (1 <= j <= c)%nat -> Rabs (petro_ratio (map n rs) (map f rs) j) <= B) ->
  clear_cut (32 * u64 * B) (dval eta) (1 :: map (petro_ratio (map n rs) (map f rs)) (seq 1 (length rs - 1))) c i ->
  forall (mk : kind -> list f64 -> list f64 -> result (f64 -> f64)) (mk' : kind -> list xr -> list xr -> result (xr -> xr)),
  exists F A E Q Q' x, radial_photometry overlap k image pos rs None mask elong theta = Ok (F, A, E) /\ calculate_petrosian DFloat A F None None = Ok (Q, None) /\
    calculate_petrosian_r mk rs Q None eta None num = Ok (x, nnan) /\ x = nth i (n0 :: tl rs) n0 /\
    calculate_petrosian DFloat (map Fin (map n rs)) (map Fin (map f rs)) None None = Ok (Q', None) /\
    calculate_petrosian_r mk' (map Fin (map dval rs)) Q' None (Fin (dval eta)) None num = Ok (Fin (dval x), NaN).
Proof.
  intros Fit Hc L3 n f Inc Pn Pf De HB He Hb Cut mk mk'.
  destruct (radial_counts overlap k image pos mask elong theta w Fit rs Hc) as (F & A & R1 & DF & DA & VF & VA). fold n in VA. fold f in VF.
  change (map dval A = map n rs) in VA. change (map dval F = map f rs) in VF.
  assert (LA : length A = length rs) by (rewrite <- (map_length dval A), VA, map_length; reflexivity).
  assert (LF : length F = length rs) by (rewrite <- (map_length dval F), VF, map_length; reflexivity).
  assert (Mod : forall z, (1 <= z)%Z -> (z <= 2 ^ 53)%Z -> moderate (IZR z)).
  { intros z H1 H2. unfold moderate. assert (1 <= IZR z) by (apply IZR_le; lia). rewrite Rabs_pos_eq by lra. split.
    - apply Rle_trans with 1; auto. rewrite <- Rinv_1. apply Rinv_le_contravar; [lra|]. apply pow_R1_Rle. lra.
    - apply Rle_trans with (2 ^ 53); [|apply Rle_pow; [lra|lia]]. replace (2 ^ 53) with (IZR (2 ^ 53)) by (symmetry; exact (pow_IZR 2 53)). apply IZR_le. lia. }
  assert (Mw : forall x, whole x -> 0 < x -> Rabs x <= 2 ^ 53 -> moderate x).
  { intros x [z ->] H1 H2. apply lt_IZR in H1. apply Mod; [lia|]. apply le_IZR. apply Rle_trans with (Rabs (IZR z)); [apply Rle_abs|]. apply Rle_trans with (2 ^ 53); auto. right. exact (pow_IZR 2 53). }
  assert (MA : Forall moderate (map dval A)).
  { rewrite VA. apply Forall_forall. intros x Hx. apply In_nth with (d := 0) in Hx. destruct Hx as (j & Hj & <-). 
    assert (Pj : 0 < nth j (map n rs) 0).
    { destruct j; [exact Pn|]. apply Rlt_trans with (at_ (map n rs) 0); auto. apply L_Petrosian.inc_lt; auto; lia. }
    assert (Hin : In (nth j (map n rs) 0) (map n rs)) by now apply nth_In. apply in_map_iff in Hin. destruct Hin as (r & Er & Hr). rewrite <- Er in Pj |- *.
    apply Mw; auto; [exists (Z.of_nat (length (taken (iny image) (inx image) (fun j i => dval (w r j i)) mask))); apply INR_IZR_INZ|]. apply countable_53. apply (Hc r Hr). }
  assert (MF : Forall moderate (map dval F)).
  { rewrite VF. apply Forall_forall. intros x Hx. apply in_map_iff in Hx. destruct Hx as (r & <- & Hr). destruct (Hc r Hr) as (_ & _ & Hp & C1 & _).
    destruct (over_whole (taken (iny image) (inx image) (fun j i => dval (w r j i)) mask) (fun j i => dval (px image j i))) as [Wh Le]; [intros; now apply Hp|].
    apply Mw; auto. apply countable_53 in C1. rewrite (Rabs_pos_eq (over _ _)) in C1 by apply over_abs_pos. unfold f. lra. }
  rewrite <- VA in Inc. rewrite <- VA, <- VF in Hb. rewrite <- VA, <- VF, <- LA in Cut. rewrite <- LA in L3. 
  destruct (radius_double rs A F eta B c i num (eq_sym LA) (eq_trans LF (eq_sym LA)) L3 DA DF MA MF Inc De HB He Hb Cut mk mk') as (Q & Q' & x & H1 & H2 & H3 & H4 & H5).
  rewrite VA, VF in H3. exists F, A, (map (fun _ => nnan) rs), Q, Q', x. auto 10.
Qed.
