(** Units and NaN for the kinds of interpolation; uniform surface brightness. *)
From Verif Require Import Base Num Numpy M_Utils M_Petrosian M_Interp M_Cubic M_Kinds S_PetObj S_Zoom S_Utils S_Petrosian S_PetroR S_FracErr S_Conv S_Robust S_Noise S_Cubic S_Kinds
  L_Numpy L_Sersic L_Petrosian L_PetObj L_PetroR L_FracR L_FracErr L_Conv L_Conv2 L_Zoom L_Robust2 L_Noise L_Noise2 E_Petrosian E_Zoom E_Conv L_Cubic2 L_CubicEq L_Kinds.
Local Open Scope R_scope.

Lemma const_at (c : R) (xs : list R) j : (j < length xs)%nat -> at_ (map (fun _ => c) xs) j = c.
Proof. unfold at_. revert j. induction xs as [|x xs IH]; intros j Hj; cbn in *; [lia|]. destruct j; auto. apply IH. lia. Qed.

(** ** units *)
Lemma step_scale c ix xs ys q : 0 < c -> step_at_ix ix xs (map (scale c) ys) q = scale c (step_at_ix ix xs ys q).
Proof. intros Hc. unfold step_at_ix. rewrite <- (map_nth (scale c)). f_equal. Qed.
Lemma filter_scale (P : xr -> bool) c l : length (filter P (map (scale c) l)) = length (filter (fun x => P (scale c x)) l).
Proof. induction l as [|x l IH]; cbn [map filter]; auto. destruct (P (scale c x)); cbn [length]; congruence. Qed.
Lemma left_scale c l q : 0 < c -> searchsorted_left (map (scale c) l) (scale c q) = searchsorted_left l q.
Proof.
  intros Hc. unfold searchsorted_left. cbn [nisnan nltb XRnum]. rewrite (sc_isnan c Hc), map_length, filter_scale.
  destruct (xisnan q); auto. f_equal. apply filter_ext. intros x. apply (sc_ltb c Hc).
Qed.
Lemma right_scale c l q : 0 < c -> searchsorted_right (map (scale c) l) (scale c q) = searchsorted_right l q.
Proof.
  intros Hc. unfold searchsorted_right. cbn [nisnan nleb XRnum]. rewrite (sc_isnan c Hc), map_length, filter_scale.
  destruct (xisnan q); auto. f_equal. apply filter_ext. intros x. apply (sc_leb c Hc).
Qed.
Lemma mid_scale c xs : 0 < c -> midpoints (map (scale c) xs) = map (scale c) (midpoints xs).
Proof.
  intros Hc. unfold midpoints. induction xs as [|x0 [|x1 xs] IH]; auto. cbn [map tl combine] in *. cbn [fst snd]. f_equal.
  - cbn [nadd ndiv XRnum]. now rewrite !(sc_divl c Hc), (sc_add c Hc).
  - exact IH.
Qed.
Definition unitless_ix (ix : list xr -> xr -> nat) : Prop := forall c xs q, 0 < c -> ix (map (scale c) xs) (scale c q) = ix xs q.
Lemma ixs_unitless : unitless_ix nearest_ix /\ unitless_ix nearest_up_ix /\ unitless_ix previous_ix /\ unitless_ix next_ix.
Proof.
  repeat split; intros c xs q Hc; unfold nearest_ix, nearest_up_ix, previous_ix, next_ix;
    rewrite ?mid_scale, ?left_scale, ?right_scale, map_length by auto; auto.
Qed.
Lemma step_stretch c ix xs ys q : 0 < c -> unitless_ix ix -> step_at_ix ix (map (scale c) xs) ys (scale c q) = step_at_ix ix xs ys q.
Proof. intros Hc U. unfold step_at_ix. now rewrite U. Qed.

Section Kinds.
  Variable other : kind -> list xr -> list xr -> result (xr -> xr).
  Notation mk := (mk_scipy other).

  Theorem scipy_scale : scale_equivariant other -> scale_equivariant mk.
  Proof.
    intros Ho c k xs ys Hc. specialize (Ho c k xs ys Hc).
    pose proof (cubic_scale c KCubic xs ys Hc) as Hcu. cbn [mk_cubic] in Hcu.
    assert (Hz : forall q, zero_at xs (map (scale c) ys) q = scale c (zero_at xs ys q)).
    { intros q. unfold zero_at. rewrite step_scale by auto. destruct (nisnan q); auto. }
    unfold mk_scipy. rewrite map_length. destruct (Nat.eqb (length xs) (length ys)); [|reflexivity].
    destruct k as [| | | | | | | | |[|[|[|[|z]]]]]; auto; try (destruct (Nat.ltb (length xs) 2); [reflexivity|]);
      try (eexists; split; [reflexivity|]; intros q; auto using step_scale, linear_at_scale; fail).
  Qed.
  Theorem scipy_stretch : stretch_equivariant other -> stretch_equivariant mk.
  Proof.
    intros Ho c k xs ys Hc. specialize (Ho c k xs ys Hc). destruct ixs_unitless as (U1 & U2 & U3 & U4).
    pose proof (cubic_stretch c KCubic xs ys Hc) as Hcu. cbn [mk_cubic] in Hcu.
    assert (Hz : forall q, zero_at (map (scale c) xs) ys (scale c q) = zero_at xs ys q).
    { intros q. unfold zero_at. rewrite step_stretch by auto. cbn [nisnan XRnum]. now rewrite (sc_isnan c Hc). }
    unfold mk_scipy. rewrite map_length. destruct (Nat.eqb (length xs) (length ys)); [|reflexivity].
    destruct k as [| | | | | | | | |[|[|[|[|z]]]]]; auto; try (destruct (Nat.ltb (length xs) 2); [reflexivity|]);
      try (eexists; split; [reflexivity|]; intros q; auto using step_stretch, linear_at_stretch; fail).
  Qed.

  (** ** NaN *)
  Lemma linear_nan (xs ys : list xr) : linear_at xs ys NaN = NaN.
  Proof.
    revert ys. induction xs as [|x0 [|x1 xs] IH]; intros ys; auto. destruct ys as [|y0 [|y1 ys]]; auto.
    assert (E : nadd (nmul (ndiv (nsub y1 y0) (nsub x1 x0)) (nsub NaN x0)) y0 = NaN).
    { cbn [nadd nmul nsub XRnum]. unfold xsub. cbn [xadd]. now destruct (ndiv _ _). }
    change (linear_at (x0 :: x1 :: xs) (y0 :: y1 :: ys) NaN) with
      (if nleb NaN x1 then nadd (nmul (ndiv (nsub y1 y0) (nsub x1 x0)) (nsub NaN x0)) y0
       else match xs with [] => nadd (nmul (ndiv (nsub y1 y0) (nsub x1 x0)) (nsub NaN x0)) y0 | _ => linear_at (x1 :: xs) (y1 :: ys) NaN end).
    rewrite E. cbn [nleb XRnum xleb]. destruct xs; auto.
  Qed.
  Lemma piece_nan (x0 x1 y0 y1 c0 c1 : xr) : spline_piece x0 x1 y0 y1 c0 c1 NaN = NaN.
  Proof.
    unfold spline_piece. cbn [nadd nmul nsub XRnum]. unfold xsub. cbn [xadd].
    repeat (match goal with |- context [xmul ?a NaN] => replace (xmul a NaN) with NaN by (now destruct a) | |- context [xadd ?a NaN] => replace (xadd a NaN) with NaN by (now destruct a) end); auto.
  Qed.
  Lemma cubic_nan (xs ys cs : list xr) : cubic_at xs ys cs NaN = NaN.
  Proof.
    revert ys cs. induction xs as [|x0 [|x1 xs] IH]; intros ys cs; auto. destruct ys as [|y0 [|y1 ys]]; auto. destruct cs as [|c0 [|c1 cs]]; auto.
    change (cubic_at (x0 :: x1 :: xs) (y0 :: y1 :: ys) (c0 :: c1 :: cs) NaN) with
      (if nleb NaN x1 then spline_piece x0 x1 y0 y1 c0 c1 NaN
       else match xs with [] => spline_piece x0 x1 y0 y1 c0 c1 NaN | _ => cubic_at (x1 :: xs) (y1 :: ys) (c1 :: cs) NaN end).
    rewrite piece_nan. cbn [nleb XRnum xleb]. destruct xs; auto.
  Qed.
  Theorem nan_seen k xs ys f : sees_nan k -> mk k xs ys = Ok f -> f NaN = NaN.
  Proof.
    intros Sk. unfold mk_scipy. destruct (Nat.eqb _ _); [|discriminate].
    destruct Sk as [->|[->|[->|[->|[->|[->| ->]]]]]]; cbn [Nat.eqb];
      try (destruct (Nat.ltb (length xs) 2); [discriminate|]);
      try (intros H; injection H as <-; first [apply linear_nan|reflexivity]);
      unfold interp_cubic; destruct (Nat.eqb _ _); try discriminate; destruct (Nat.ltb _ _); try discriminate;
      intros H; injection H as <-; apply cubic_nan.
  Qed.
  Theorem nan_last k xs (ys : list xr) f : blind_to_nan k -> increasing xs -> (2 <= length xs)%nat -> mk k (map Fin xs) ys = Ok f ->
    f NaN = nth (length xs - 1) ys NaN /\ f (Fin (last_of xs)) = nth (length xs - 1) ys NaN.
  Proof.
    intros Bk I L2. unfold mk_scipy. destruct (Nat.eqb _ _) eqn:Ln; [|discriminate].
    assert (S1 : S (length xs - 2) = (length xs - 1)%nat) by lia.
    assert (Hi : (S (length xs - 2) < length xs)%nat) by lia.
    assert (Hx : at_ xs (length xs - 2) <= last_of xs <= at_ xs (S (length xs - 2))).
    { unfold last_of. rewrite S1. pose proof (I (length xs - 2)%nat Hi) as H. rewrite S1 in H. lra. }
    pose proof (I (length xs - 2)%nat Hi) as H0. rewrite S1 in H0.
    assert (P : previous_ix (map Fin xs) (Fin (last_of xs)) = (length xs - 1)%nat).
    { rewrite (previous_at xs I _ _ Hi Hx), S1. unfold last_of. destruct Rlt_dec; [lra|auto]. }
    assert (Nx : next_ix (map Fin xs) (Fin (last_of xs)) = (length xs - 1)%nat).
    { rewrite (next_at xs I _ _ Hi Hx), S1. unfold last_of. destruct Rlt_dec; [auto|lra]. }
    assert (Ne : nearest_ix (map Fin xs) (Fin (last_of xs)) = (length xs - 1)%nat).
    { rewrite (nearest_at xs I _ _ Hi Hx), S1. unfold last_of. destruct Rlt_dec; [auto|lra]. }
    assert (Nu : nearest_up_ix (map Fin xs) (Fin (last_of xs)) = (length xs - 1)%nat).
    { rewrite (nearest_up_at xs I _ _ Hi Hx), S1. unfold last_of. destruct Rle_dec; [auto|lra]. }
    assert (LM : length (midpoints (map Fin xs)) = (length xs - 1)%nat) by now rewrite midpoints_fin, map_length, mids_length.
    assert (X : previous_ix (map Fin xs) NaN = (length xs - 1)%nat /\ next_ix (map Fin xs) NaN = (length xs - 1)%nat /\
      nearest_ix (map Fin xs) NaN = (length xs - 1)%nat /\ nearest_up_ix (map Fin xs) NaN = (length xs - 1)%nat).
    { unfold previous_ix, next_ix, nearest_ix, nearest_up_ix, searchsorted_left, searchsorted_right. cbn [nisnan XRnum xisnan].
      rewrite LM, map_length. lia. }
    destruct X as (X1 & X2 & X3 & X4).
    destruct Bk as [->|[->|[->| ->]]]; intros H; injection H as <-; unfold step_at_ix; rewrite ?P, ?Nx, ?Ne, ?Nu, ?X1, ?X2, ?X3, ?X4; auto.
  Qed.

  (** ** the radius of a fraction without a Petrosian radius *)
  Lemma max_last rs : increasing rs -> (1 <= length rs)%nat -> is_max rs (last_of rs).
  Proof. intros. now apply inc_max. Qed.

  Theorem blind_fraction k frac rs (flux : list xr) p eps ef pe num : blind_to_nan k -> increasing rs -> (2 <= length rs)%nat ->
    p * eps = last_of rs ->
    fraction_to_r mk frac (map Fin rs) flux NaN None pe (Fin eps) ef (Some k) num =
    fraction_to_r mk frac (map Fin rs) flux (Fin p) None pe (Fin eps) ef (Some k) num.
  Proof.
    intros Bk I L2 Ep. unfold fraction_to_r. rewrite (pymax_is_max rs (last_of rs)) by (apply inc_max; auto; lia).
    cbn [bind nmul XRnum xmul nltb xltb]. rewrite Ep. rewrite Rltb_false by lra.
    destruct (mk k (map Fin rs) flux) as [f|e] eqn:Hf.
    - rewrite (interp1d_fin _ _ _ _ _ (at_ rs 0) (last_of rs) Hf) by (first [apply inc_min|apply inc_max]; auto; lia).
      cbn [bind nltb XRnum xltb orb]. destruct (nan_last k rs flux f Bk I L2 Hf) as [-> ->].
      pose proof (inc_max rs ltac:(lia) I) as [_ M]. pose proof (inc_min rs ltac:(lia) I) as [M0 _].
      rewrite Rltb_false by auto. rewrite Rltb_false by lra. cbn [orb]. reflexivity.
    - unfold interp1d. rewrite Hf. reflexivity.
  Qed.

  Theorem seen_fraction k frac rs (flux : list xr) eps ef pe num v err : sees_nan k -> (2 <= length rs)%nat -> ef <> 0 ->
    fraction_to_r mk (Fin frac) (map Fin rs) flux NaN None pe (Fin eps) (Fin ef) (Some k) num = Ok (v, err) -> v = NaN /\ err = NaN.
  Proof.
    intros Sk L2 Ne H. eapply frac_nan; eauto. cbn [kind_or_cubic]. intros f Hf. eapply nan_seen; eauto.
  Qed.

  (** object level *)
  Theorem blind_object k (o : petrosian xr) rs frac eps p : blind_to_nan k -> increasing rs -> (2 <= length rs)%nat ->
    d_r (p_data o) = map Fin rs -> d_flux_err (p_data o) = None -> s_kind (p_set o) = Some k -> s_epsilon (p_set o) = Fin eps ->
    p * eps = last_of rs -> read mk o A_r_petrosian = Ok (VNum NaN) -> read mk o A_r_petrosian_err = Ok (VNum NaN) ->
    forall a, radius_of (p_set o) frac a ->
    read mk o a = match fraction_to_r mk (Fin frac) (map Fin rs) (d_flux (p_data o)) (Fin p) None (Some NaN) (Fin eps)
        (s_epsilon_fraction (p_set o)) (Some k) (s_num (p_set o)) with Ok r => Ok (VNum (fst r)) | Err e => Err e end.
  Proof.
    intros Bk I L2 Er Ee Ek Ep E Rp Rpe a Ha. cbn [read] in Rp, Rpe.
    destruct (obj_r_petrosian mk o) as [rp|] eqn:O; cbn in Rp; [|discriminate]. injection Rp as ->.
    destruct (obj_r_petrosian_err mk o) as [rpe|] eqn:Oe; cbn in Rpe; [|discriminate]. injection Rpe as ->.
    assert (G : obj_fraction mk o (Fin frac) = fraction_to_r mk (Fin frac) (map Fin rs) (d_flux (p_data o)) (Fin p) None (Some NaN) (Fin eps)
        (s_epsilon_fraction (p_set o)) (Some k) (s_num (p_set o))).
    { unfold obj_fraction. rewrite O, Oe. cbn [bind]. rewrite Er, Ee, Ek, Ep. now apply blind_fraction. }
    rewrite <- G. destruct Ha as [->|[[-> ->]|[-> Hs]]]; cbn [read].
    - now destruct (obj_fraction mk o (Fin frac)).
    - unfold half. rewrite L_Sersic.half_lit. now destruct (obj_fraction mk o (Fin (1 / 2))).
    - rewrite Hs. now destruct (obj_fraction mk o (Fin frac)).
  Qed.

  (** ** kinds that keep a level *)
  Theorem uncurved_level k xs : uncurved k -> increasing xs -> (2 <= length xs)%nat -> keeps_level (mk k) xs.
  Proof.
    intros Uk I L2 c. assert (LC : length (map (fun _ : R => c) xs) = length xs) by apply map_length.
    destruct (straight_between other k Uk xs (map (fun _ => c) xs) I (eq_sym LC) L2) as (f & E & B). exists f. split; auto.
    intros x Hx. destruct (find_step xs x L2 Hx) as (i & Hi & Hxi). destruct (B i x Hi Hxi) as (y & Ey & Hy). rewrite Ey. f_equal.
    assert (C : forall j, (j < length xs)%nat -> at_ (map (fun _ => c) xs) j = c).
    { intros j Hj. now apply const_at. }
    rewrite !C in Hy by lia. destruct Hy; lra.
  Qed.
End Kinds.

Theorem spline_level interp xs : cubic_spline interp -> increasing xs -> (4 <= length xs)%nat -> keeps_level interp xs.
Proof.
  intros Cs I L4 c. assert (LC : length (map (fun _ : R => c) xs) = length xs) by apply map_length.
  destruct (Cs xs (map (fun _ => c) xs) I (eq_sym LC) L4) as (F & f & E & Ef & Nk). exists F. split; auto.
  assert (C : forall j, (j < length xs)%nat -> at_ (map (fun _ => c) xs) j = c + 0 * at_ xs j + 0 * at_ xs j ^ 2 + 0 * at_ xs j ^ 3).
  { intros j Hj. rewrite const_at by auto. ring. }
  intros x Hx. rewrite Ef by exact Hx. f_equal. rewrite (spline_exact f xs _ c 0 0 0 I Nk C x Hx). ring.
Qed.

(** ** uniform surface brightness *)
Section Uniform.
  Variables (mk : kind -> list xr -> list xr -> result (xr -> xr)) (rs A : list R) (b eta : R) (s : psettings xr).
  Hypothesis L2 : (2 < length rs)%nat.
  Hypothesis LA : length A = length rs.
  Hypothesis IR : increasing rs.
  Hypothesis R0 : 0 < at_ rs 0.
  Hypothesis IA : increasing A.
  Hypothesis A0 : 0 < at_ A 0.
  Hypothesis B0 : b <> 0.
  Hypothesis Es : s_eta s = Fin eta.
  Hypothesis Hk : forall k, s_kind s = Some k -> keeps_level (mk k) (0 :: tl rs).
  Let L := map (Rmult b) A.

  Lemma u_at i : (i < length A)%nat -> at_ L i = b * at_ A i.
  Proof. intros H. unfold L, at_. rewrite nth_indep with (d' := b * 0) by now rewrite map_length. apply (map_nth (Rmult b)). Qed.
  Lemma u_nz : nonzero_tail L.
  Proof.
    intros i Hi. unfold L in Hi. rewrite map_length in Hi. rewrite u_at by lia. pose proof (at_pos A i A0 IA ltac:(lia)).
    apply Rmult_integral_contrapositive_currified; [auto|lra].
  Qed.
  Lemma u_ratio i : (1 <= i < length A)%nat -> petro_ratio A L i = 1.
  Proof.
    intros Hi. unfold petro_ratio, local_sb, mean_sb. rewrite !u_at by lia.
    pose proof (inc_lt A (i - 1) i IA ltac:(lia) ltac:(lia)). pose proof (at_pos A i A0 IA ltac:(lia)). field. repeat split; lra.
  Qed.
  Lemma u_profile : ratios A L = map (fun _ => 1) (tl rs).
  Proof.
    unfold ratios. replace (map (fun _ => 1) (tl rs)) with (map (fun _ : nat => 1) (seq 1 (length A - 1))).
    - apply map_ext_in. intros i Hi. apply in_seq in Hi. apply u_ratio. lia.
    - rewrite LA. destruct rs as [|r0 rs']; [reflexivity|]. cbn [length tl]. replace (S (length rs') - 1)%nat with (length rs') by lia.
      generalize 1%nat. induction rs' as [|x l IH]; intros n; cbn [length seq map]; f_equal. clear - IH. revert IH. intros.
      generalize (S n). clear. induction l; intros m; cbn; f_equal; auto.
  Qed.

  Lemma u_search : exists v, Petrosian_new (plain rs A L) s = Ok (mkpet (plain rs A L) s (NaN :: map Fin (map (fun _ => 1) (tl rs))) None) /\
    obj_petro_r mk (mkpet (plain rs A L) s (NaN :: map Fin (map (fun _ => 1) (tl rs))) None) = Ok (v, NaN) /\
    (eta < 1 -> v = NaN) /\ (1 <= eta -> v = Fin 0).
  Proof.
    assert (LL : length L = length rs) by (unfold L; now rewrite map_length).
    pose proof (plain_object rs A L s L2 LA LL IA (inc_nz A IA A0) u_nz) as E. rewrite u_profile in E.
    destruct rs as [|r0 rs']; [cbn in L2; lia|]. cbn [tl] in *.
    assert (L1 : (1 <= length rs')%nat) by (cbn in L2; lia).
    assert (IX : increasing (0 :: rs')) by (apply (inc_tl r0 rs' R0 IR)).
    destruct (petro_r_total mk (Fin r0) rs' NaN (map Fin (map (fun _ => 1) rs')) (Fin eta) (s_kind s) (s_num s) L1) as (v & Ev).
    { now rewrite !map_length. }
    { intros k Ek. destruct (Hk k Ek 1) as (f & Ef & _). exists f. exact Ef. }
    destruct (petro_r_spec mk _ _ _ _ _ _ _ _ _ L1 Ev) as (g & q & R & Fr & _).
    exists v. split; auto. split.
    { unfold obj_petro_r. cbn [p_data p_set p_list p_err plain d_r]. rewrite Es. exact Ev. }
    assert (G : (1 <= length g)%nat /\ at_ g 0 = 0 /\ q = map (fun _ => Fin 1) g).
    { unfold resampled in R. destruct (s_kind s) as [k|] eqn:Ek.
      - destruct R as (f & lo & hi & Ef & Mlo & Mhi & [Lg Hg] & ->). destruct (Hk k eq_refl 1) as (f' & Ef' & Hf).
        assert (f' = f) as -> by (cbn [map] in Ef', Ef; congruence).
        assert (lo = 0) as ->. { pose proof (inc_min (0 :: rs') ltac:(cbn; lia) IX) as [M1 M2]. destruct Mlo as [N1 N2]. apply Rle_antisym; auto. }
        assert (hi = last_of (0 :: rs')) as ->. { pose proof (inc_max (0 :: rs') ltac:(cbn; lia) IX) as [M1 M2]. destruct Mhi as [N1 N2]. apply Rle_antisym; auto. }
        assert (Lg1 : (1 <= length g)%nat) by (rewrite Lg; cbn [length]; lia).
        split; [auto|]. split; [rewrite Hg by lia; cbn [INR]; ring|].
        rewrite map_map. apply map_ext_in. intros x Hx. apply Hf.
        destruct (In_nth g x 0 Hx) as (i & Hi & <-). fold (at_ g i). rewrite Lg in Hi. rewrite Hg by auto.
        set (n := Nat.max (s_num s) (length (0 :: rs'))) in *. assert (N2 : (2 <= n)%nat) by (unfold n; cbn [length]; lia).
        assert (P : 0 <= last_of (0 :: rs')) by (destruct Mlo as [N1 _], Mhi as [_ N4]; apply N4; left; auto).
        assert (P1 : 0 < INR (n - 1)) by (apply lt_0_INR; lia). pose proof (pos_INR i) as P2. assert (P3 : INR i <= INR (n - 1)) by (apply le_INR; lia).
        change (at_ (0 :: rs') 0) with 0. change (at_ (0 :: rs') (length (0 :: rs') - 1)) with (last_of (0 :: rs')).
        replace (0 + INR i * ((last_of (0 :: rs') - 0) / INR (n - 1))) with (last_of (0 :: rs') * (INR i / INR (n - 1))) by (field; lra).
        assert (0 <= INR i / INR (n - 1) <= 1).
        { assert (0 < / INR (n - 1)) by now apply Rinv_0_lt_compat. split; [apply Rmult_le_pos; lra|]. apply Rmult_le_reg_r with (INR (n - 1)); auto.
          unfold Rdiv. rewrite Rmult_assoc, Rinv_l by lra. lra. }
        nra.
      - destruct R as [-> ->]. split; [cbn; lia|]. split; [reflexivity|]. cbn [map]. now rewrite map_map. }
    destruct G as (Lg & G0 & ->).
    split.
    - intros He. destruct Fr as [[_ Fv]|[(z & Hz & Hc) _]]; [exact Fv|]. apply in_map_iff in Hz. destruct Hz as (x & <- & _).
      unfold crossed in Hc. apply xle_fin in Hc. lra.
    - intros He. destruct Fr as [[Nr _]|[_ (i & a & -> & Ha & Hcl)]].
      + exfalso. apply Nr. destruct g as [|g0 g]; [cbn in Lg; lia|]. exists (Fin 1). split; [now left|]. unfold crossed. now apply xle_fin.
      + destruct Hcl as (c & x & [(z & Hz & Hc) First] & Hic & _).
        { apply Forall_forall. intros x Hx. apply in_map_iff in Hx. destruct Hx as (y & <- & _). discriminate. }
        assert (i = 0%nat) as ->.
        { destruct c as [|c]; [lia|]. exfalso. destruct g as [|g0 g]; [cbn in Lg; lia|].
          apply (First 0%nat (Fin 1)); [lia|reflexivity|]. unfold crossed. now apply xle_fin. }
        destruct g as [|g0 g]; [cbn in Lg; lia|]. cbn in Ha. injection Ha as <-. unfold at_ in G0. cbn in G0. now subst.
  Qed.

  Theorem uniform_radius : exists o, Petrosian_new (plain rs A L) s = Ok o /\
    (eta < 1 -> read mk o A_r_petrosian = Ok (VNum NaN) /\ read mk o A_r_petrosian_err = Ok (VNum NaN)) /\
    (1 <= eta -> read mk o A_r_petrosian = Ok (VNum (Fin 0))).
  Proof.
    destruct u_search as (v & E & Ev & Hl & Hg). eexists. split; [exact E|]. cbn [read]. unfold obj_r_petrosian, obj_r_petrosian_err.
    rewrite Ev. cbn [bind fst snd]. split; [intros H; rewrite (Hl H); auto|intros H; rewrite (Hg H); auto].
  Qed.
End Uniform.
