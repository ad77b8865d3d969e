(** Concrete cases for the disturbed measurements: linear interpolation, four apertures. *)
From Verif Require Import Base Num Numpy M_Utils M_Petrosian M_Interp S_Utils S_Petrosian S_PetroR S_Conv S_Robust
  L_Numpy L_Petrosian L_PetroR L_FracR L_Conv L_Conv2 L_Conv3 L_Sersic E_Petrosian E_Conv L_Robust L_Robust2 L_Robust3.
Local Open Scope R_scope.

Lemma linear_line xs ys q i : increasing xs -> length xs = length ys -> (S i < length xs)%nat ->
  at_ xs i <= q <= at_ xs (S i) ->
  linear_at (map Fin xs) (map Fin ys) (Fin q)
    = Fin (at_ ys i + (q - at_ xs i) / (at_ xs (S i) - at_ xs i) * (at_ ys (S i) - at_ ys i)).
Proof.
  revert ys i. induction xs as [|x0 xs IH]; intros ys i I L Hi Hq; [cbn in Hi; lia|].
  destruct xs as [|x1 rest]; [cbn in Hi; lia|].
  destruct ys as [|y0 [|y1 yr]]; try (cbn in L; lia).
  assert (I0 : x0 < x1) by (apply (I 0%nat); cbn; lia).
  assert (I' : increasing (x1 :: rest)) by (intros j Hj; apply (I (S j)); cbn in *; lia).
  cbn [map linear_at]. cbn [nleb XRnum xleb].
  change (nsub (Fin y1) (Fin y0)) with (Fin (y1 - y0)). change (nsub (Fin x1) (Fin x0)) with (Fin (x1 - x0)).
  change (nsub (Fin q) (Fin x0)) with (Fin (q - x0)).
  assert (D : nadd (nmul (ndiv (Fin (y1 - y0)) (Fin (x1 - x0))) (Fin (q - x0))) (Fin y0)
     = Fin ((y1 - y0) / (x1 - x0) * (q - x0) + y0)) by (cbn [ndiv XRnum]; rewrite xdiv_fin by lra; reflexivity).
  rewrite D. destruct i as [|i].
  - unfold at_ in *. cbn [nth] in *. rewrite Rleb_true by lra. f_equal. field. lra.
  - change (at_ (x0 :: x1 :: rest) (S i)) with (at_ (x1 :: rest) i) in *.
    change (at_ (x0 :: x1 :: rest) (S (S i))) with (at_ (x1 :: rest) (S i)) in *.
    change (at_ (y0 :: y1 :: yr) (S i)) with (at_ (y1 :: yr) i).
    change (at_ (y0 :: y1 :: yr) (S (S i))) with (at_ (y1 :: yr) (S i)).
    assert (Hi' : (S i < length (x1 :: rest))%nat) by (cbn in *; lia).
    pose proof (IH (y1 :: yr) i I' ltac:(cbn in *; lia) Hi' Hq) as Ey.
    destruct (Rle_lt_dec q x1) as [Hl|Hl].
    + rewrite Rleb_true by auto. destruct rest as [|x2 rest]; [cbn in Hi'; lia|].
      assert (i = 0%nat) as ->.
      { destruct i; auto. pose proof (inc_lt (x1 :: x2 :: rest) 0 (S i) I' ltac:(lia) ltac:(lia)) as X. unfold at_ at 1 in X. cbn [nth] in X. lra. }
      pose proof (I' 0%nat ltac:(cbn; lia)) as X. unfold at_ in *. cbn [nth] in *. assert (q = x1) as -> by lra. f_equal. field. lra.
    + rewrite Rleb_false by lra. destruct rest as [|x2 rest]; [cbn in Hi'; lia|]. exact Ey.
Qed.
Lemma linear_straight k : straight (mk_linear k).
Proof.
  intros xs ys I L L2. exists (linear_at (map Fin xs) (map Fin ys)). split.
  - unfold mk_linear. now rewrite !map_length, L, Nat.eqb_refl.
  - intros i x Hi Hx. now apply linear_line.
Qed.

Definition rsR : list R := [1; 2; 3; 4].
Definition AR : list R := [1; 4; 9; 16].
Definition LR : list R := [10; 19; 21; 217 / 10].
Definition bR : R := 1 / 10.
Definition setR : psettings xr := mkset (Fin (4 / 25)) (Fin 1) (Fin (99 / 100)) (Fin (99 / 100)) (Some KLinear) 5.

Lemma skyR : with_sky bR AR LR = [101 / 10; 97 / 5; 219 / 10; 233 / 10].
Proof. unfold with_sky, bR, AR, LR. cbn [map2]. repeat (f_equal; try lra). Qed.
Ltac numeric := unfold mean_sb, local_sb, rsR, AR, LR, bR, at_; cbn [nth Nat.sub].
Lemma decliningR : declining rsR AR LR.
Proof.
  repeat split; try (cbn; lia); try (unfold increasing, rsR, AR; ix; lra); try (unfold at_; cbn; lra);
    destruct i as [|[|[|[|i]]]]; cbn in H; try lia; numeric; lra.
Qed.
Lemma ratioR : sky_ratio bR AR LR 1 = 62 / 97 /\ sky_ratio bR AR LR 2 = 15 / 73 /\ sky_ratio bR AR LR 3 = 32 / 233.
Proof. repeat split; unfold sky_ratio; numeric; lra. Qed.
Lemma decR : forall i, (1 <= i)%nat -> (S i < length rsR)%nat -> sky_ratio bR AR LR (S i) < sky_ratio bR AR LR i.
Proof. destruct ratioR as (E1 & E2 & E3). intros [|[|[|i]]] H1 H2; cbn in H2; try lia; rewrite ?E1, ?E2, ?E3; lra. Qed.
Lemma topR : sky_ratio bR AR LR 1 < 1.
Proof. destruct ratioR as (E1 & _). rewrite E1. lra. Qed.

Lemma petroR (M : list R) p1 p2 p3 a n : length M = length rsR -> nonzero_tail M -> ratios AR M = [p1; p2; p3] ->
  4 / 25 < p1 -> p1 <= 1 -> 4 / 25 < p2 -> p2 < p1 -> p3 <= 4 / 25 ->
  (n = 3%nat /\ p2 - 4 / 25 < 4 / 25 - p3 \/ n = 4%nat /\ 4 / 25 - p3 < p2 - 4 / 25) -> a = INR n ->
  exists o, Petrosian_new (plain rsR AR M) setR = Ok o /\ obj_petro_r mk_linear o = Ok (Fin a, NaN) /\
    read mk_linear o A_r_petrosian = Ok (VNum (Fin a)).
Proof.
  intros LM NM ER H1 H2 H3 H4 H5 Hn ->.
  assert (Hk : forall k, s_kind setR = Some k -> straight (mk_linear k)) by (intros; apply linear_straight).
  destruct (petro_search mk_linear rsR AR LR (4 / 25) setR decliningR eq_refl Hk M LM NM) as (o & v & g & q & E & Ev & _ & Rs & Fr).
  exists o. split; auto.
  assert (IX : increasing (0 :: tl rsR)) by (unfold increasing, rsR; cbn [tl]; ix; lra).
  assert (L2 : (2 <= length (0%R :: tl rsR))%nat) by (cbn; lia).
  pose proof Rs as Rs'. cbn [setR s_kind resampled] in Rs'. destruct Rs' as (_ & lo & hi & _ & X & Y & [Lg Eg] & _).
  rewrite (min_unique _ _ _ X (inc_min (0 :: tl rsR) ltac:(cbn; lia) IX)), (max_unique _ _ _ Y (inc_max (0 :: tl rsR) ltac:(cbn; lia) IX)) in Eg.
  destruct (resample_mix mk_linear (s_kind setR) (s_num setR) (0 :: tl rsR) L2 IX Hk (1 :: ratios AR M) g q) as (z & -> & Lz & Mz); auto.
  assert (Lg5 : length g = 5%nat) by exact Lg.
  assert (G : forall k, (k < 5)%nat -> at_ g k = INR k).
  { intros k Hk'. rewrite Eg by exact Hk'. change (last_of (0 :: tl rsR)) with 4. change (at_ (0 :: tl rsR) 0) with 0.
    replace (INR (Nat.max (s_num setR) (length (0%R :: tl rsR)) - 1)) with 4 by (cbn; lra). lra. }
  assert (Z : at_ z 0 = 1 /\ at_ z 1 = (1 + p1) / 2 /\ at_ z 2 = p1 /\ at_ z 3 = p2 /\ at_ z 4 = p3).
  { rewrite ER in Mz.
    pose proof (Mz 0%nat ltac:(lia) 0%nat 0) as Z0. pose proof (Mz 1%nat ltac:(lia) 0%nat (1 / 2)) as Z1.
    pose proof (Mz 2%nat ltac:(lia) 0%nat 1) as Z2. pose proof (Mz 3%nat ltac:(lia) 1%nat 1) as Z3. pose proof (Mz 4%nat ltac:(lia) 2%nat 1) as Z4.
    rewrite Z0, Z1, Z2, Z3, Z4; [unfold mix, at_; cbn [nth]; lra|..];
      (split; [cbn; lia|split; [lra|]]); rewrite G by lia; unfold rsR, at_; cbn; lra. }
  destruct Z as (Z0 & Z1 & Z2 & Z3 & Z4).
  apply search_index in Fr; auto. unfold gap in Fr.
  assert (v = Fin (INR n)) as ->.
  { destruct Fr as [[_ N]|(j & c & -> & Hc & G1 & G2 & G3 & G4)].
    - exfalso. specialize (N 4%nat ltac:(lia)). rewrite Z4 in N. lra.
    - assert (c = 4%nat) as ->.
      { destruct c as [|[|[|[|[|c]]]]]; auto; try (rewrite ?Z0, ?Z1, ?Z2, ?Z3 in G1; lra); lia. }
      rewrite G by lia. do 2 f_equal.
      pose proof (G3 3%nat ltac:(lia)) as D3. pose proof (G3 4%nat ltac:(lia)) as D4. rewrite Z3 in D3. rewrite Z4 in D4.
      rewrite (Rabs_pos_eq (p2 - _)) in D3 by lra. rewrite (Rabs_left1 (p3 - _)) in D4 by lra.
      destruct j as [|[|[|[|[|j]]]]]; try lia; rewrite ?Z0, ?Z1, ?Z2, ?Z3, ?Z4 in D3, D4;
        try (rewrite Rabs_pos_eq in D3, D4 by lra); try (rewrite Rabs_left1 in D3, D4 by lra); destruct Hn as [[-> ?]|[-> ?]]; auto; lra. }
  split; auto. eapply read_petro; eauto.
Qed.

Ltac tail := unfold nonzero_tail; intros j Hj; destruct j as [|[|[|[|j]]]]; cbn in Hj; try lia; unfold at_; cbn [nth]; lra.
Lemma C100_ex : declining rsR AR LR /\ 0 <= bR /\ (forall k, straight (mk_linear k)) /\
  (forall i, (1 <= i)%nat -> (S i < length rsR)%nat -> sky_ratio bR AR LR (S i) < sky_ratio bR AR LR i) /\ sky_ratio bR AR LR 1 < 1 /\
  exists o o', Petrosian_new (plain rsR AR LR) setR = Ok o /\ Petrosian_new (plain rsR AR (with_sky bR AR LR)) setR = Ok o' /\
    read mk_linear o A_r_petrosian = Ok (VNum (Fin 3)) /\ read mk_linear o' A_r_petrosian = Ok (VNum (Fin 4)).
Proof.
  split; [exact decliningR|]. split; [unfold bR; lra|]. split; [exact linear_straight|]. split; [exact decR|]. split; [exact topR|].
  assert (D' : declining rsR AR (with_sky bR AR LR)) by (apply sky_declining; [unfold bR; lra|exact decliningR]).
  destruct (petroR LR (12 / 19) (6 / 35) (16 / 217) 3 3) as (o & E & _ & Rd); try lra; auto.
  { exact (declining_nz _ _ _ decliningR). }
  { unfold ratios, petro_ratio. cbn. numeric. repeat (f_equal; try lra). }
  { left. split; [reflexivity|lra]. }
  { cbn. lra. }
  destruct (petroR (with_sky bR AR LR) (62 / 97) (15 / 73) (32 / 233) 4 4) as (o' & E' & _ & Rd'); try lra; auto.
  { exact (declining_nz _ _ _ D'). }
  { rewrite skyR. unfold ratios, petro_ratio. cbn. numeric. repeat (f_equal; try lra). }
  { right. split; [reflexivity|lra]. }
  { cbn. lra. }
  exists o, o'. auto.
Qed.

Lemma C101_ex : exists o', Petrosian_new (plain rsR AR (with_sky bR AR LR)) setR = Ok o' /\ increasing LR /\
  radius_of setR (1 / 2) A_r_half_light /\ radius_of setR (99 / 100) A_r_total_flux /\
  read mk_linear o' A_r_petrosian = Ok (VNum (Fin 4)) /\ at_ rsR 0 <= 3 * 1 /\
  (exists w, read mk_linear o' A_r_half_light = Ok (VNum (Fin w))) /\
  exists w, read mk_linear o' A_r_total_flux = Ok (VNum (Fin w)).
Proof.
  destruct C100_ex as (D & Hb & _ & _ & _ & _ & o' & _ & E' & _ & R').
  assert (D' : declining rsR AR (with_sky bR AR LR)) by (now apply sky_declining).
  exists o'. split; auto. split; [unfold increasing, LR; ix; lra|]. split; [right; left; auto|]. split; [right; right; auto|]. split; auto.
  split; [unfold rsR, at_; cbn; lra|].
  pose proof D' as (L2 & LA & LL & I & R0 & IA & A0 & H).
  pose proof (plain_object rsR AR (with_sky bR AR LR) setR L2 LA LL IA (inc_nz AR IA A0) (declining_nz _ _ _ D')) as Eo.
  assert (X : o' = mkpet (plain rsR AR (with_sky bR AR LR)) setR (NaN :: map Fin (ratios AR (with_sky bR AR LR))) None) by congruence.
  assert (Ov : obj_petro_r mk_linear o' = Ok (Fin 4, NaN)).
  { destruct (petro_search mk_linear rsR AR LR (4 / 25) setR decliningR eq_refl (fun k _ => linear_straight k) (with_sky bR AR LR) LL (declining_nz _ _ _ D'))
      as (o & v & g & q & E & Ev & _). assert (o = o') as -> by congruence. pose proof (read_petro mk_linear o' v NaN Ev). rewrite Ev. congruence. }
  assert (F : forall f, 0 < f <= 99 / 100 -> exists w, obj_fraction mk_linear o' (Fin f) = Ok (Fin w, NaN)).
  { intros f Hf. unfold obj_fraction, obj_r_petrosian, obj_r_petrosian_err. rewrite Ov, X. cbn [bind fst snd p_data p_set plain d_r d_flux d_flux_err setR s_epsilon s_epsilon_fraction s_kind s_num].
    apply frac_finite; auto; try lia.
    - unfold increasing. rewrite skyR. ix; lra.
    - rewrite skyR. unfold at_. cbn. lra.
    - apply linear_straight.
    - change (last_of rsR) with 4. unfold rsR, at_. cbn. lra. }
  split.
  - destruct (F (1 / 2) ltac:(lra)) as (w & E). exists w. cbn [read]. unfold half. rewrite half_lit, E. reflexivity.
  - destruct (F (99 / 100) ltac:(lra)) as (w & E). exists w. rewrite X in *. cbn [read p_set setR s_total_flux_fraction]. change (mkset _ _ _ _ _ _) with setR. rewrite E. reflexivity.
Qed.
