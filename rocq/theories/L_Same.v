(** Proofs: the attributes of a Petrosian object agree with each other. *)
From Verif Require Import Base Num Numpy M_Utils M_Petrosian L_Numpy S_Utils L_Utils L_Utils3
  S_Petrosian L_Petrosian S_PetroR L_PetroR L_FracR.

Lemma aliases {T} {N : Num T} {G : NumLog T} (mk : kind -> list T -> list T -> result (T -> T)) o t :
  read mk o A_total_flux_fraction = Ok (VNum t) ->
  read mk o A_r_50 = read mk o A_r_half_light /\ read mk o A_r_50_err = read mk o A_r_half_light_err /\
  read mk o A_r_half_light = read mk o (A_fraction_to_r (nlit 1 2)) /\
  read mk o A_r_half_light_err = read mk o (A_fraction_to_r_err (nlit 1 2)) /\
  read mk o A_r_total_flux = read mk o (A_fraction_to_r t) /\
  read mk o A_r_total_flux_err = read mk o (A_fraction_to_r_err t).
Proof. cbn. intros H. injection H as <-. repeat split; reflexivity. Qed.

Section Same.
  Variable mk : kind -> list xr -> list xr -> result (xr -> xr).

  Lemma num_inv (m : result xr) x : num m = Ok (VNum x) -> m = Ok x.
  Proof. unfold num. destruct m; cbn; congruence. Qed.

  Lemma read_frac o f v : read mk o (A_fraction_to_r f) = Ok (VNum v) -> exists e, obj_fraction mk o f = Ok (v, e).
  Proof.
    cbn [read]. intros H. apply num_inv in H. destruct (obj_fraction mk o f) as [[a e]|]; cbn in H; [|discriminate].
    injection H as <-. eauto.
  Qed.

  (** concentration_index reports the radii of fraction_flux_to_r *)
  Lemma concentration o f1 f2 a b :
    read mk o (A_fraction_to_r f1) = Ok (VNum a) -> read mk o (A_fraction_to_r f2) = Ok (VNum b) ->
    (a = NaN \/ b = NaN -> read mk o (A_concentration f1 f2) = Ok (VTriple NaN NaN NaN)) /\
    (forall x y, a = Fin x -> b = Fin y -> (0 < x)%R -> (0 < y)%R ->
       read mk o (A_concentration f1 f2) = Ok (VTriple a b (Fin (5 * Rlog10 (y / x))))).
  Proof.
    intros H1 H2. destruct (read_frac _ _ _ H1) as [e1 E1]. destruct (read_frac _ _ _ H2) as [e2 E2].
    unfold obj_fraction in E1, E2. cbn [read]. unfold obj_concentration.
    destruct (obj_r_petrosian mk o) as [rp|]; cbn [bind] in *; [|discriminate].
    destruct (obj_r_petrosian_err mk o) as [re|]; cbn [bind] in *; [|discriminate].
    destruct (conc_spec mk _ _ _ _ _ _ _ _ _ _ _ _ _ _ _ E1 E2) as [C1 C2]. split.
    - intros D. rewrite (C1 D). reflexivity.
    - intros x y -> -> Hx Hy. rewrite (C2 x y eq_refl eq_refl Hx Hy). reflexivity.
  Qed.

  Lemma indices o x y z x' y' z' :
    read mk o (A_concentration (nlit 1 5) (nlit 4 5)) = Ok (VTriple x y z) ->
    read mk o (A_concentration (nlit 1 2) (nlit 9 10)) = Ok (VTriple x' y' z') ->
    read mk o A_c2080 = Ok (VNum z) /\ read mk o A_c5090 = Ok (VNum z').
  Proof.
    cbn [read]. intros H1 H2. change (half (T := xr)) with (nlit (T := xr) 1 2).
    destruct (obj_concentration mk o (nlit 1 5) (nlit 4 5)) as [t|]; [|discriminate].
    destruct (obj_concentration mk o (nlit 1 2) (nlit 9 10)) as [t'|]; [|discriminate].
    cbn in *. injection H1 as <- <- <-. injection H2 as <- <- <-. auto.
  Qed.

  (** without flux errors the same radius *)
  Lemma obj_fraction_plain o frac v e :
    obj_fraction mk o frac = Ok (v, e) -> exists p pe, obj_r_petrosian mk o = Ok p /\
    fraction_to_r mk frac (d_r (p_data o)) (d_flux (p_data o)) p None pe (s_epsilon (p_set o))
      (s_epsilon_fraction (p_set o)) (s_kind (p_set o)) (s_num (p_set o)) = Ok (v, NaN).
  Proof.
    unfold obj_fraction. destruct (obj_r_petrosian mk o) as [p|]; cbn [bind]; [|discriminate].
    destruct (obj_r_petrosian_err mk o) as [pe|]; cbn [bind]; [|discriminate].
    intros H. exists p, (Some pe). split; auto.
    destruct (d_flux_err (p_data o)) as [fe|]; [eapply frac_err_radius; eauto|].
    assert (X := H).
    unfold fraction_to_r in X. destruct (pymax _) as [rm|]; cbn [bind] in X; [|discriminate].
    destruct (nltb rm _); [injection X as <- <-; exact H|].
    destruct (interp1d _ _ _ _) as [f|]; cbn [bind] in X; [|discriminate].
    destruct (f _); cbn [bind] in X; [|discriminate].
    destruct (fdiv _ _ _); cbn [bind] in X; [|discriminate].
    destruct (get_interpolated_values _ _ _ _ _); cbn [bind] in X; [|discriminate].
    destruct (pick _ _); cbn [bind] in X; [|discriminate]. injection X as <- <-. exact H.
  Qed.

  (** total_flux and half_flux are the curve of growth at the two radii *)
  Lemma flux_at_radius o r k f frac v (flux : xr) :
    2 <= length r -> d_r (p_data o) = map Fin r -> s_kind (p_set o) = Some k ->
    mk k (map Fin r) (d_flux (p_data o)) = Ok f ->
    (forall p lo hi, obj_r_petrosian mk o = Ok p -> is_min r lo -> is_max r hi ->
       exists x, p = Fin x /\ exists eps, s_epsilon (p_set o) = Fin eps /\ (lo <= x * eps)%R) ->
    (exists ef, s_epsilon_fraction (p_set o) = Fin ef) ->
    (exists e, obj_fraction mk o (Fin frac) = Ok (v, e)) ->
    obj_flux_at mk o v = Ok (match v with Fin _ => f v | _ => NaN end).
  Proof.
    intros Hl Hr Hk Hf Hp (ef & Hef) (e & H).
    assert (Hne : r <> []) by (destruct r; cbn in *; [lia|congruence]).
    destruct (pymax_fin r Hne) as (hi & Ehi & Hhi1 & Hhi2).
    destruct (pymin_fin r Hne) as (lo & Elo & Hlo1 & Hlo2).
    assert (Hhi : is_max r hi) by (split; auto). assert (Hlo : is_min r lo) by (split; auto).
    destruct (obj_fraction_plain _ _ _ _ H) as (p & pe & Ep & E). rewrite Hr in E.
    destruct (Hp p lo hi Ep Hlo Hhi) as (x & -> & eps & Heps & Hx). rewrite Heps, Hef in E.
    unfold obj_flux_at. rewrite Hr, Elo, Ehi. cbn [bind].
    assert (V : v = NaN \/ exists a, v = Fin a /\ (lo <= a <= hi)%R).
    { destruct (Rlt_le_dec hi (x * eps)) as [Hgt|Hle].
      - left. rewrite (frac_beyond mk _ _ _ _ _ _ _ _ _ _ hi Hhi Hgt) in E. congruence.
      - assert (Hin : forall l h, is_min r l -> is_max r h -> (l <= x * eps <= h)%R).
        { intros l h A B. assert (l = lo) as -> by (destruct A, Hlo; apply Rle_antisym; auto).
          assert (h = hi) as -> by (destruct B, Hhi; apply Rle_antisym; auto). lra. }
        destruct (frac_spec mk _ _ _ _ _ _ _ _ _ _ _ Hl Hin E) as (f' & g & q & _ & _ & _ & _ & B & [->|(i & a & -> & _)]).
        + now left.
        + right. exists a. split; [reflexivity|now apply B]. }
    destruct V as [->|(a & -> & Ha)].
    - reflexivity.
    - cbn [nleb XRnum xleb]. rewrite !Rleb_true by lra. cbn [andb].
      rewrite Hk, (interp1d_fin _ _ _ _ _ _ _ Hf Hlo Hhi). cbn [bind nltb XRnum xltb].
      rewrite !Rltb_false by lra. reflexivity.
  Qed.

  Lemma fluxes o r k f ef (tf : R) :
    2 <= length r -> d_r (p_data o) = map Fin r -> s_kind (p_set o) = Some k ->
    mk k (map Fin r) (d_flux (p_data o)) = Ok f ->
    (forall p lo hi, read mk o A_r_petrosian = Ok (VNum p) -> is_min r lo -> is_max r hi ->
       exists x, p = Fin x /\ exists eps, s_epsilon (p_set o) = Fin eps /\ (lo <= x * eps)%R) ->
    s_epsilon_fraction (p_set o) = Fin ef -> s_total_flux_fraction (p_set o) = Fin tf ->
    (forall a, read mk o A_r_total_flux = Ok (VNum (Fin a)) -> read mk o A_total_flux = Ok (VNum (f (Fin a)))) /\
    (forall a, read mk o A_r_half_light = Ok (VNum (Fin a)) -> read mk o A_half_flux = Ok (VNum (f (Fin a)))) /\
    (read mk o A_r_total_flux = Ok (VNum NaN) -> read mk o A_total_flux = Ok (VNum NaN)) /\
    (read mk o A_r_half_light = Ok (VNum NaN) -> read mk o A_half_flux = Ok (VNum NaN)).
  Proof.
    intros Hl Hr Hk Hf Hp Hef Htf.
    assert (Hp' : forall p lo hi, obj_r_petrosian mk o = Ok p -> is_min r lo -> is_max r hi ->
       exists x, p = Fin x /\ exists eps, s_epsilon (p_set o) = Fin eps /\ (lo <= x * eps)%R).
    { intros p lo hi E. apply Hp. cbn [read]. rewrite E. reflexivity. }
    assert (Hhalf : nlit (T := xr) 1 2 = Fin (1 / 2)).
    { cbn. first [reflexivity | rewrite Reqb_false by lra; reflexivity]. }
    assert (TF : forall v, read mk o A_r_total_flux = Ok (VNum v) ->
      read mk o A_total_flux = Ok (VNum (match v with Fin _ => f v | _ => NaN end))).
    { intros v H. cbn [read] in *. apply num_inv in H. unfold obj_total_flux.
      destruct (obj_fraction mk o (s_total_flux_fraction (p_set o))) as [[a e]|] eqn:E; [|discriminate].
      cbn [bind fst] in *. injection H as ->. rewrite Htf in E.
      rewrite (flux_at_radius o r k f tf v NaN); eauto. }
    assert (HF : forall v, read mk o A_r_half_light = Ok (VNum v) ->
      read mk o A_half_flux = Ok (VNum (match v with Fin _ => f v | _ => NaN end))).
    { intros v H. cbn [read] in *. apply num_inv in H. unfold obj_half_flux, obj_r_half_light in *.
      destruct (obj_fraction mk o half) as [[a e]|] eqn:E; [|discriminate].
      cbn [bind fst] in *. injection H as ->. unfold half in E. rewrite Hhalf in E.
      rewrite (flux_at_radius o r k f (1/2) v NaN); eauto. }
    split; [|split; [|split]].
    - intros a H. exact (TF _ H).
    - intros a H. exact (HF _ H).
    - intros H. exact (TF _ H).
    - intros H. exact (HF _ H).
  Qed.

  (** equal fractions: r_total_flux is r_epsilon up to the sampling step *)
  Lemma total_is_epsilon o r k f (F : R -> R) p eps t lo hi v :
    2 <= length r -> d_r (p_data o) = map Fin r -> s_kind (p_set o) = Some k ->
    is_min r lo -> is_max r hi ->
    mk k (map Fin r) (d_flux (p_data o)) = Ok f ->
    (forall x, (lo <= x <= hi)%R -> f (Fin x) = Fin (F x)) ->
    (forall x y, (lo <= x < y)%R -> (y <= hi)%R -> (F x < F y)%R) ->
    read mk o A_r_petrosian = Ok (VNum (Fin p)) -> s_epsilon (p_set o) = Fin eps ->
    (lo <= p * eps <= hi)%R -> t <> 0%R ->
    s_total_flux_fraction (p_set o) = Fin t -> s_epsilon_fraction (p_set o) = Fin t ->
    read mk o A_r_total_flux = Ok (VNum v) ->
    exists a, v = Fin a /\
      (Rabs (a - p * eps) <= (hi - lo) / INR (Nat.max (s_num (p_set o)) (length r) - 1))%R.
  Proof.
    intros Hl Hr Hk Hlo Hhi Hf HF Hinc Hp Heps Hin Ht Htf Hef H.
    cbn [read] in H, Hp. apply num_inv in H, Hp.
    destruct (obj_fraction mk o (s_total_flux_fraction (p_set o))) as [[a0 e]|] eqn:E; [|discriminate].
    cbn [bind fst] in H. injection H as ->.
    destruct (obj_fraction_plain _ _ _ _ E) as (p' & pe & Ep & E'). rewrite Hp in Ep. injection Ep as <-.
    rewrite Hr, Heps, Hef, Htf, Hk in E'.
    assert (Hin' : forall l h, is_min r l -> is_max r h -> (l <= p * eps <= h)%R).
    { intros l h A B. assert (l = lo) as -> by (destruct A, Hlo; apply Rle_antisym; auto).
      assert (h = hi) as -> by (destruct B, Hhi; apply Rle_antisym; auto). lra. }
    destruct (frac_spec mk _ _ _ _ _ _ _ _ _ _ _ Hl Hin' E') as (f' & g & q & Hf' & R & _ & FR & _ & _).
    cbn [kind_or_cubic] in Hf'. rewrite Hf in Hf'. injection Hf' as <-.
    specialize (FR (F (p * eps)%R) (HF _ Hin)).
    replace (F (p * eps) * (t / t))%R with (F (p * eps)%R) in FR by (field; auto).
    assert (Rg := R). destruct R as (f' & l & h & Hf' & A & B & [Lg Hg] & ->). rewrite Hf in Hf'. injection Hf' as <-.
    assert (l = lo) as -> by (destruct A, Hlo; apply Rle_antisym; auto).
    assert (h = hi) as -> by (destruct B, Hhi; apply Rle_antisym; auto).
    set (n := Nat.max (s_num (p_set o)) (length r)) in *. assert (Hn : 2 <= n) by (unfold n; lia).
    assert (Hn0 : (0 < INR (n - 1))%R) by (apply lt_0_INR; lia).
    assert (Hlh : (lo <= hi)%R) by lra.
    assert (Gr : forall x, In x g -> (lo <= x <= hi)%R) by (intros x Hx; eapply resampled_range; eauto).
    assert (Hq : map f (map Fin g) = map (fun x => Fin (F x)) g).
    { rewrite map_map. apply map_ext_in. intros x Hx. apply HF, Gr, Hx. }
    rewrite Hq in FR.
    assert (OK : Forall xok (map (fun x => Fin (F x)) g)).
    { apply Forall_forall. intros x Hx. apply in_map_iff in Hx. destruct Hx as (y & <- & _). discriminate. }
    assert (Glast : nth_error g (n - 1) = Some hi).
    { rewrite at_nth_error by lia. rewrite Hg by lia. f_equal. field. lra. }
    assert (Mono : forall x y, (lo <= x <= hi)%R -> (lo <= y <= hi)%R -> (F x <= F y)%R -> (x <= y)%R).
    { intros x y Hx Hy Hxy. destruct (Rle_lt_dec x y) as [|C]; auto. exfalso.
      assert (F y < F x)%R by (apply Hinc; lra). lra. }
    destruct FR as [[N _]|[_ (i & a & -> & Gi & C)]].
    - exfalso. apply N. exists (Fin (F hi)). split.
      + apply (in_map (fun x => Fin (F x))). eapply nth_error_In; eauto.
      + unfold crossed, xle. cbn. apply Rleb_true. destruct (Req_dec (p * eps) hi) as [->|]; [lra|].
        left. apply Hinc; lra.
    - exists a. split; auto.
      destruct (C OK) as (c & x & [(z & Zc & Cr) Bf] & Ic & Xi & M & _). cbv beta in *.
      set (s := ((hi - lo) / INR (n - 1))%R) in *.
      assert (Hs : (0 <= s)%R) by (apply Rmult_le_pos; [lra|left; now apply Rinv_0_lt_compat]).
      rewrite nth_error_map in Zc, Xi. rewrite Gi in Xi. cbn in Xi. injection Xi as <-.
      destruct (nth_error g c) as [gc|] eqn:Gc; [|discriminate]. cbn in Zc. injection Zc as <-.
      unfold crossed, xle in Cr. cbn in Cr. rewrite Rleb_iff in Cr.
      assert (Hgc := Gr _ (nth_error_In _ _ Gc)). assert (Hga := Gr _ (nth_error_In _ _ Gi)).
      assert (HcR : (p * eps <= gc)%R) by (apply Mono; auto).
      assert (Lc : c < length g) by (apply nth_error_Some; congruence).
      assert (step : forall j b, j < length g -> nth_error g j = Some b -> b = (lo + INR j * s)%R).
      { intros j b Hj Hb. rewrite at_nth_error in Hb by auto. injection Hb as <-. rewrite Hg by lia. reflexivity. }
      assert (Gc' := step c gc Lc Gc). assert (Ga' := step i a ltac:(lia) Gi).
      destruct c as [|c].
      + assert (i = 0) by lia. subst i. assert (a = gc) by congruence. subst a.
        cbn [INR] in Gc'. assert (gc = lo) by lra. rewrite Rabs_right; lra.
      + (* the sample before the crossing *)
        destruct (nth_error g c) as [gb|] eqn:Gb; [|apply nth_error_None in Gb; lia].
        assert (Hgb := Gr _ (nth_error_In _ _ Gb)).
        assert (Gb' := step c gb ltac:(lia) Gb).
        assert (Hb : (F gb < F (p * eps))%R).
        { assert (NB : ~ crossed true (Fin (F (p * eps)%R)) (Fin (F gb))).
          { apply (Bf c); [lia|]. now rewrite nth_error_map, Gb. }
          unfold crossed, xle in NB. cbn in NB. rewrite Rleb_iff in NB. lra. }
        assert (HbR : (gb <= p * eps)%R) by (apply Mono; auto; lra).
        rewrite S_INR in Gc'.
        assert (D : xle (dist (F (p * eps)%R) (Fin (F a))) (dist (F (p * eps)%R) (Fin (F gb)))).
        { apply (M c); [lia|]. now rewrite nth_error_map, Gb. }
        unfold xle in D. cbn in D. rewrite Rleb_iff in D.
        assert (Hac : (a <= gc)%R).
        { rewrite Ga', Gc'. assert (INR i <= INR c + 1)%R by (rewrite <- S_INR; apply le_INR; lia).
          assert (INR i * s <= (INR c + 1) * s)%R by (apply Rmult_le_compat_r; auto). lra. }
        assert (Hab : (gb <= a)%R).
        { apply Mono; auto. unfold Rabs in D.
          repeat match goal with X : context [Rcase_abs ?u] |- _ => destruct (Rcase_abs u) end; lra. }
        unfold Rabs. destruct (Rcase_abs (a - p * eps)); lra.
  Qed.
End Same.
