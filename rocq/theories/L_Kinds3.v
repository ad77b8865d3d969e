(** Uniform surface brightness: what is reported without a Petrosian radius. *)
From Verif Require Import Base Num Numpy M_Utils M_Petrosian M_Interp M_Cubic M_Kinds S_PetObj S_Zoom S_Utils S_Petrosian S_PetroR S_FracErr S_Conv S_Robust S_Noise S_Cubic S_Kinds
  L_Numpy L_Utils3 L_Sersic L_Petrosian L_PetObj L_PetroR L_FracR L_FracErr L_Conv L_Conv2 L_Conv3 L_Zoom L_Robust2 L_Noise L_Noise2 E_Petrosian E_Zoom E_Conv L_Cubic2 L_CubicEq L_Kinds L_Kinds2.
Local Open Scope R_scope.

Section Uniform.
  Variables (other : kind -> list xr -> list xr -> result (xr -> xr)) (rs A : list R) (b eta eps ef : R) (s : psettings xr) (k : kind).
  Notation mk := (mk_scipy other).
  Hypothesis L2 : (2 < length rs)%nat.
  Hypothesis LA : length A = length rs.
  Hypothesis IR : increasing rs.
  Hypothesis R0 : 0 < at_ rs 0.
  Hypothesis IA : increasing A.
  Hypothesis A0 : 0 < at_ A 0.
  Hypothesis B0 : b <> 0.
  Hypothesis Es : s_eta s = Fin eta.
  Hypothesis He : eta < 1.
  Hypothesis Ep : s_epsilon s = Fin eps.
  Hypothesis Ee : s_epsilon_fraction s = Fin ef.
  Hypothesis E0 : ef <> 0.
  Hypothesis Ek : s_kind s = Some k.
  Let L := map (Rmult b) A.

  Lemma tl_inc : increasing (0 :: tl rs) /\ length (0 :: tl rs) = length rs.
  Proof. destruct rs as [|r0 rs']; [cbn in L2; lia|]. cbn [tl]. split; [apply (inc_tl r0 rs' R0 IR)|reflexivity]. Qed.
  Lemma LL : length L = length rs.
  Proof. unfold L. now rewrite map_length. Qed.
  Lemma L_last : last_of L = b * last_of A.
  Proof. unfold last_of. replace (length L) with (length A) by (rewrite LL; auto). apply (u_at A b). lia. Qed.

  Theorem uniform_seen : sees_nan k -> uncurved k \/ (4 <= length rs)%nat ->
    exists o, Petrosian_new (plain rs A L) s = Ok o /\ read mk o A_r_petrosian = Ok (VNum NaN) /\
      (forall frac a, radius_of s frac a -> read mk o a = Ok (VNum NaN)) /\
      (forall frac a, flux_of s frac a -> read mk o a = Ok (VNum NaN)) /\
      read mk o A_c2080 = Ok (VNum NaN) /\ read mk o A_c5090 = Ok (VNum NaN).
  Proof.
    intros Sk Hu. destruct tl_inc as [IX LX].
    assert (KL : forall k', s_kind s = Some k' -> keeps_level (mk k') (0 :: tl rs)).
    { intros k' E. assert (k' = k) as -> by congruence. destruct Hu as [Hu|H4]; [apply uncurved_level; auto; lia|].
      unfold sees_nan in Sk. assert (Cs : k = KCubic \/ k = KOrder 3 -> keeps_level (mk k) (0 :: tl rs)).
      { intros D. apply spline_level; auto; [|lia]. intros xs ys I Ln H. pose proof (mk_cubic_spline KCubic (or_introl eq_refl) xs ys I Ln H) as X.
        assert (Em : forall X Y : list xr, length X = length Y -> mk k X Y = mk_cubic KCubic X Y).
        { intros X' Y' EL. unfold mk_scipy. rewrite EL, Nat.eqb_refl. now destruct D as [->| ->]. }
        rewrite Em by (now rewrite !map_length). exact X. }
      destruct Sk as [D|[D|[D|[D|[D|D]]]]]; [..|now apply Cs]; apply uncurved_level; auto; try lia; unfold uncurved; tauto. }
    destruct (uniform_radius mk rs A b eta s L2 LA IR R0 IA A0 B0 Es KL) as (o & Eo & Hr & _). destruct (Hr He) as [Rp Rpe].
    assert (Po : p_set o = s /\ p_data o = plain rs A L).
    { rewrite (plain_object rs A (map (Rmult b) A) s L2 LA LL IA (inc_nz A IA A0) (u_nz rs A b L2 LA IA A0 B0)) in Eo. injection Eo as <-. auto. }
    destruct Po as [Po Pd].
    cbn [read] in Rp, Rpe.
    destruct (obj_r_petrosian mk o) as [rp|] eqn:O; cbn in Rp; [|discriminate]. injection Rp as ->.
    destruct (obj_r_petrosian_err mk o) as [rpe|] eqn:Oe; cbn in Rpe; [|discriminate]. injection Rpe as ->.
    assert (Fo : exists f, mk k (map Fin rs) (map Fin L) = Ok f).
    { unfold mk_scipy. rewrite !map_length. rewrite LL, Nat.eqb_refl.
      assert (B2 : Nat.ltb (length rs) 2 = false) by (apply Nat.ltb_ge; lia).
      assert (B4 : (4 <= length rs)%nat -> Nat.ltb (length rs) 4 = false) by (intros; now apply Nat.ltb_ge).
      assert (B4' : k = KCubic \/ k = KOrder 3 -> (4 <= length rs)%nat).
      { intros D. destruct Hu as [U|]; auto. exfalso. unfold uncurved in U. destruct D as [->| ->]; repeat destruct U as [U|U]; discriminate. }
      destruct Sk as [->|[->|[->|[->|[->|[->| ->]]]]]]; rewrite ?B2; eauto; unfold interp_cubic; rewrite !map_length, LL, Nat.eqb_refl, B4 by auto; eauto. }
    destruct Fo as (f & Ef).
    pose proof (nan_seen other k _ _ f Sk Ef) as Fn.
    destruct (giv_spec mk k rs (map Fin L) (s_num s) f ltac:(lia) Ef) as (lo' & hi' & g' & Gv & _).
    assert (Fr : forall frac, obj_fraction mk o (Fin frac) = Ok (NaN, NaN)).
    { intros frac. unfold obj_fraction. rewrite O, Oe. cbn [bind]. rewrite Po, Pd, Ep, Ee, Ek. cbn [plain d_r d_flux d_flux_err].
      unfold fraction_to_r. rewrite (pymax_is_max rs (last_of rs)) by (apply inc_max; auto; lia).
      cbn [bind nmul XRnum xmul nltb xltb].
      rewrite (interp1d_fin _ _ _ _ _ _ _ Ef (inc_min rs ltac:(lia) IR) (inc_max rs ltac:(lia) IR)).
      cbn [bind nltb XRnum xltb orb]. unfold fdiv. cbn [neqb XRnum n0 nofZ xeqb]. rewrite Reqb_false by auto. cbn [bind].
      rewrite Gv. cbn [bind fst snd]. rewrite Fn.
      match goal with |- context [closest_value_index ?t ?q true] => assert (C : closest_value_index t q true = None) end.
      { apply cvi_none. intros (z & _ & Hc). unfold crossed, xle in Hc. cbn in Hc. discriminate. }
      rewrite C. reflexivity. }
    assert (H2 : half = Fin (1 / 2) :> xr) by (unfold half; apply half_lit).
    assert (Fx : obj_flux_at mk o NaN = Ok NaN).
    { unfold obj_flux_at. rewrite Pd. cbn [plain d_r]. rewrite (pymin_is_min rs (at_ rs 0)) by (apply inc_min; auto; lia).
      rewrite (pymax_is_max rs (last_of rs)) by (apply inc_max; auto; lia). cbn [bind nleb XRnum xleb andb]. reflexivity. }
    assert (Co : forall f1 f2, obj_concentration mk o (Fin f1) (Fin f2) = Ok (NaN, NaN, NaN)).
    { intros f1 f2. pose proof (Fr f1) as F1. pose proof (Fr f2) as F2. unfold obj_fraction in F1, F2. unfold obj_concentration.
      rewrite O, Oe in *. cbn [bind] in *. unfold calculate_concentration_index. rewrite F1, F2. reflexivity. }
    assert (L5 : (nlit 1 5 : xr) = Fin (1 / 5)) by (unfold nlit; cbn [ndiv XRnum nofZ]; rewrite xdiv_fin by lra; reflexivity).
    assert (L8 : (nlit 4 5 : xr) = Fin (4 / 5)) by (unfold nlit; cbn [ndiv XRnum nofZ]; rewrite xdiv_fin by lra; reflexivity).
    assert (L9 : (nlit 9 10 : xr) = Fin (9 / 10)) by (unfold nlit; cbn [ndiv XRnum nofZ]; rewrite xdiv_fin by lra; reflexivity).
    exists o. split; [exact Eo|]. split; [cbn [read]; now rewrite O|]. split; [|split; [|split]].
    - intros frac a [->|[[-> ->]|[-> Hs]]]; cbn [read]; [now rewrite Fr|now rewrite H2, Fr|now rewrite Po, Hs, Fr].
    - intros frac a [[-> ->]|[-> Hs]]; cbn [read].
      + unfold obj_half_flux. rewrite H2, Fr. cbn [bind fst]. now rewrite Fx.
      + unfold obj_total_flux. rewrite Po, Hs, Fr. cbn [bind fst]. now rewrite Fx.
    - cbn [read]. rewrite L5, L8, Co. reflexivity.
    - cbn [read]. rewrite H2, L9, Co. reflexivity.
  Qed.

  Theorem uniform_blind : blind_to_nan k -> eps <> 0 ->
    exists o, Petrosian_new (plain rs A L) s = Ok o /\ read mk o A_r_petrosian = Ok (VNum NaN) /\
      forall frac, exists g q v, resampled mk (Some k) (s_num s) rs (map Fin L) g q /\ found_radius true (b * last_of A * (frac / ef)) g q v /\
        (0 < b -> 0 <= frac / ef <= 1 -> v <> NaN) /\
        forall a, radius_of s frac a -> read mk o a = Ok (VNum v).
  Proof.
    intros Bk Ep0. destruct tl_inc as [IX LX].
    assert (Uk : uncurved k) by (unfold uncurved; destruct Bk as [->|[->|[->| ->]]]; tauto).
    assert (KL : forall k', s_kind s = Some k' -> keeps_level (mk k') (0 :: tl rs)).
    { intros k' E. assert (k' = k) as -> by congruence. apply uncurved_level; auto; lia. }
    destruct (uniform_radius mk rs A b eta s L2 LA IR R0 IA A0 B0 Es KL) as (o & Eo & Hr & _). destruct (Hr He) as [Rp Rpe].
    assert (Po : p_set o = s /\ p_data o = plain rs A L).
    { rewrite (plain_object rs A (map (Rmult b) A) s L2 LA LL IA (inc_nz A IA A0) (u_nz rs A b L2 LA IA A0 B0)) in Eo. injection Eo as <-. auto. }
    destruct Po as [Po Pd].
    exists o. split; [exact Eo|]. split; [exact Rp|]. intros frac.
    destruct (kind_values other k rs L Uk IR ltac:(lia) LL) as (f & Ef & Vf).
    set (p := last_of rs / eps). assert (Epp : p * eps = last_of rs) by (unfold p; field; auto).
    assert (Lo : at_ rs 0 <= last_of rs) by (apply (proj2 (inc_max rs ltac:(lia) IR)), (proj1 (inc_min rs ltac:(lia) IR))).
    assert (Hin : at_ rs 0 <= p * eps <= last_of rs) by lra.
    destruct (frac_total mk frac rs L p (Some NaN) eps ef k (s_num s) f ltac:(lia) LL IR Hin E0 Ef) as (v & Ev).
    destruct (frac_spec mk frac rs (map Fin L) p (Some NaN) eps ef (Some k) (s_num s) v NaN ltac:(lia)) as (f' & g & q & Ef' & Rs & _ & Fr & _); auto.
    { intros lo hi Hlo Hhi. rewrite (min_unique rs lo (at_ rs 0)), (max_unique rs hi (last_of rs)); auto.
      - apply inc_max; auto; lia. - apply inc_min; auto; lia. }
    cbn [kind_or_cubic] in Ef'. assert (f' = f) as -> by congruence.
    assert (Fl : f (Fin (last_of rs)) = Fin (b * last_of A)).
    { destruct (nan_last other k rs (map Fin L) f Bk IR ltac:(lia) Ef) as [_ Q]. rewrite Q.
      rewrite nth_indep with (d' := Fin 0) by (rewrite map_length, LL; lia). rewrite nth_finR by (rewrite LL; lia). f_equal.
      rewrite <- L_last. unfold last_of. now rewrite LL. }
    exists g, q, v. split; [exact Rs|]. split; [apply Fr; now rewrite Epp|]. split.
    - intros Hb Hf Hv. subst v. specialize (Fr (b * last_of A)). rewrite Epp in Fr. specialize (Fr Fl).
      destruct Fr as [[Nr _]|[_ (i & a & Q & _)]]; [|discriminate]. apply Nr. clear Nr.
      destruct Rs as (f' & lo & hi & Ef'' & Hlo & Hhi & [Lg Hg] & ->). assert (f' = f) as -> by congruence.
      rewrite (min_unique rs lo (at_ rs 0)), (max_unique rs hi (last_of rs)) in Hg; auto; [|apply inc_max; auto; lia|apply inc_min; auto; lia].
      set (n := Nat.max (s_num s) (length rs)) in *. assert (N2 : (2 <= n)%nat) by (unfold n; lia).
      assert (Gl : at_ g (n - 1) = last_of rs).
      { rewrite Hg by lia. assert (0 < INR (n - 1)) by (apply lt_0_INR; lia). field. lra. }
      exists (Fin (b * last_of A)). split.
      + rewrite <- Fl, <- Gl. rewrite map_map. apply (in_map (fun x => f (Fin x))). unfold at_. apply nth_In. lia.
      + unfold crossed. apply xle_fin. pose proof (at_pos A (length A - 1) A0 IA ltac:(lia)) as PA. fold (last_of A) in PA.
        assert (0 < b * last_of A) by now apply Rmult_lt_0_compat. nra.
    - intros a Ha. rewrite (blind_object other k o rs frac eps p); rewrite ?Po, ?Pd; auto; [|lia].
      cbn [plain d_flux]. rewrite Ee, Ev. reflexivity.
  Qed.
End Uniform.
