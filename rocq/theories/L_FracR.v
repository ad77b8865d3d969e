(** Proofs about fraction_to_r and calculate_concentration_index. *)
From Verif Require Import Base Num Numpy M_Utils M_Petrosian L_Numpy S_Utils L_Utils L_Utils3
  S_Petrosian L_Petrosian S_PetroR L_PetroR.

Definition kind_or_cubic (ik : option kind) : kind := match ik with None => KCubic | Some k => k end.

Lemma pymax_is_max (x : list R) hi : is_max x hi -> pymax (map Fin x) = Ok (Fin hi).
Proof.
  intros [H1 H2]. destruct (pymax_fin x) as (m & E & M1 & M2).
  { intros ->. destruct H1. }
  rewrite E. f_equal. f_equal. apply Rle_antisym; auto.
Qed.
Lemma pymin_is_min (x : list R) lo : is_min x lo -> pymin (map Fin x) = Ok (Fin lo).
Proof.
  intros [H1 H2]. destruct (pymin_fin x) as (m & E & M1 & M2).
  { intros ->. destruct H1. }
  rewrite E. f_equal. f_equal. apply Rle_antisym; auto.
Qed.

(** interp1d on finite radii: the raw interpolant guarded by the range *)
Lemma interp1d_fin (mk : kind -> list xr -> list xr -> result (xr -> xr)) k (x : list R) y f lo hi :
  mk k (map Fin x) y = Ok f -> is_min x lo -> is_max x hi ->
  interp1d mk (Some k) (map Fin x) y =
  Ok (fun q => if nltb q (Fin lo) || nltb (Fin hi) q then Err ValueError else Ok (f q)).
Proof.
  intros H Hlo Hhi. unfold interp1d.
  rewrite H, (pymin_is_min _ _ Hlo), (pymax_is_max _ _ Hhi). reflexivity.
Qed.

Section Frac.
  Variable mk : kind -> list xr -> list xr -> result (xr -> xr).

  (** beyond the data *)
  Lemma frac_beyond frac r flux p fe pe eps ef ik num hi :
    is_max r hi -> (hi < p * eps)%R ->
    fraction_to_r mk frac (map Fin r) flux (Fin p) fe pe (Fin eps) ef ik num = Ok (NaN, NaN).
  Proof.
    intros Hhi Hlt. unfold fraction_to_r. rewrite (pymax_is_max _ _ Hhi). cbn [bind].
    cbn [nmul XRnum xmul nltb xltb]. now rewrite Rltb_true by auto.
  Qed.

  (** below the data *)
  Lemma frac_below frac r flux p fe pe eps ef ik num lo hi f :
    is_min r lo -> is_max r hi -> (p * eps < lo)%R ->
    mk (kind_or_cubic ik) (map Fin r) flux = Ok f ->
    fraction_to_r mk frac (map Fin r) flux (Fin p) fe pe (Fin eps) ef ik num = Err ValueError.
  Proof.
    intros Hlo Hhi Hlt Hf. unfold fraction_to_r. rewrite (pymax_is_max _ _ Hhi). cbn [bind].
    assert (lo <= hi)%R by (destruct Hlo as [Hlo _], Hhi as [_ Hhi]; auto).
    cbn [nmul XRnum xmul nltb xltb]. rewrite Rltb_false by lra.
    fold (kind_or_cubic ik). rewrite (interp1d_fin _ _ _ _ _ _ _ Hf Hlo Hhi). cbn [bind].
    cbn [nltb XRnum xltb]. rewrite Rltb_true by auto. reflexivity.
  Qed.

  (** inside the data, no flux errors *)
  Lemma frac_inside frac r flux p pe eps ef ik num v err :
    2 <= length r ->
    (forall lo hi, is_min r lo -> is_max r hi -> (lo <= p * eps <= hi)%R) ->
    fraction_to_r mk (Fin frac) (map Fin r) flux (Fin p) None pe (Fin eps) (Fin ef) ik num = Ok (v, err) ->
    exists f g q, ef <> 0%R /\
      mk (kind_or_cubic ik) (map Fin r) flux = Ok f /\
      resampled mk ik num r flux g q /\
      pick (map Fin g) (closest_value_index (xmul (f (Fin (p * eps))) (Fin (frac / ef))) q true) = Ok v /\
      err = NaN.
  Proof.
    intros Hl Hin H. assert (Hne : r <> []) by (destruct r; cbn in *; [lia|congruence]).
    destruct (pymax_fin r Hne) as (hi & Ehi & Hhi1 & Hhi2).
    destruct (pymin_fin r Hne) as (lo & Elo & Hlo1 & Hlo2).
    assert (Hhi : is_max r hi) by (split; auto). assert (Hlo : is_min r lo) by (split; auto).
    specialize (Hin lo hi Hlo Hhi).
    unfold fraction_to_r in H. rewrite Ehi in H. cbn [bind] in H.
    cbn [nmul XRnum xmul nltb xltb] in H. rewrite Rltb_false in H by lra.
    fold (kind_or_cubic ik) in H.
    destruct (mk (kind_or_cubic ik) (map Fin r) flux) as [f|e] eqn:Hf.
    2:{ unfold interp1d in H. rewrite Hf in H. discriminate. }
    rewrite (interp1d_fin _ _ _ _ _ _ _ Hf Hlo Hhi) in H. cbn [bind] in H.
    cbn [nltb XRnum xltb] in H. rewrite !Rltb_false in H by lra. cbn [orb bind] in H.
    unfold fdiv in H. cbn [neqb XRnum n0 nofZ xeqb] in H.
    destruct (Reqb_spec ef 0) as [E0|E0]; [discriminate|]. cbn [bind] in H.
    apply bind_Ok in H. destruct H as ([gx q] & E & H).
    destruct (giv_resampled mk ik num r flux _ Hl E) as (g & Eg & R).
    cbn [fst snd] in *. subst gx.
    apply bind_Ok in H. destruct H as (o & Ho & H).
    assert (Ho' : (o, NaN) = (v, err)) by (cbn in H; congruence). inversion Ho'; subst.
    exists f, g, q. split; auto. split; auto. split; auto. split; auto.
    cbn [ndiv XRnum] in Ho. rewrite xdiv_fin in Ho by auto. exact Ho.
  Qed.

  Lemma frac_spec frac r flux p pe eps ef ik num v err :
    2 <= length r ->
    (forall lo hi, is_min r lo -> is_max r hi -> (lo <= p * eps <= hi)%R) ->
    fraction_to_r mk (Fin frac) (map Fin r) flux (Fin p) None pe (Fin eps) (Fin ef) ik num = Ok (v, err) ->
    exists f g q, mk (kind_or_cubic ik) (map Fin r) flux = Ok f /\
      resampled mk ik num r flux g q /\ err = NaN /\
      (forall F, f (Fin (p * eps)) = Fin F -> found_radius true (F * (frac / ef)) g q v) /\
      (forall lo hi a, is_min r lo -> is_max r hi -> v = Fin a -> (lo <= a <= hi)%R) /\
      (v = NaN \/ exists i a, v = Fin a /\ nth_error g i = Some a).
  Proof.
    intros Hl Hin H. destruct (frac_inside _ _ _ _ _ _ _ _ _ _ _ Hl Hin H) as (f & g & q & E0 & Hf & R & P & He).
    exists f, g, q. split; auto. split; auto. split; auto.
    assert (V : v = NaN \/ exists i a, v = Fin a /\ nth_error g i = Some a).
    { destruct (closest_value_index _ q true) as [i|]; cbn [pick] in P; [|left; injs; reflexivity].
      right. unfold index in P. rewrite nth_error_map in P.
      destruct (nth_error g i) as [a|] eqn:Ea; [|discriminate]. cbn in P. injs. eauto. }
    split; [|split; auto].
    - intros F EF. rewrite EF in P. cbn [xmul] in P. now apply pick_found.
    - intros lo hi a Hlo Hhi ->. destruct V as [V|(i & b & V & Hb)]; [discriminate|].
      inversion V; subst. eapply resampled_range; eauto. eapply nth_error_In; eauto.
  Qed.

  Lemma xmul_nan_l y : xmul NaN y = NaN. Proof. reflexivity. Qed.

  (** NaN Petrosian radius, for interpolants that propagate NaN *)
  Lemma frac_nan frac r flux pe eps ef ik num v err :
    2 <= length r -> ef <> 0%R ->
    (forall f, mk (kind_or_cubic ik) (map Fin r) flux = Ok f -> f NaN = NaN) ->
    fraction_to_r mk (Fin frac) (map Fin r) flux NaN None pe (Fin eps) (Fin ef) ik num = Ok (v, err) ->
    v = NaN /\ err = NaN.
  Proof.
    intros Hl Hef HN H. assert (Hne : r <> []) by (destruct r; cbn in *; [lia|congruence]).
    destruct (pymax_fin r Hne) as (hi & Ehi & Hhi1 & Hhi2).
    destruct (pymin_fin r Hne) as (lo & Elo & Hlo1 & Hlo2).
    unfold fraction_to_r in H. rewrite Ehi in H. cbn [bind] in H.
    cbn [nmul XRnum xmul nltb xltb] in H.
    fold (kind_or_cubic ik) in H. unfold interp1d in H at 1.
    destruct (mk (kind_or_cubic ik) (map Fin r) flux) as [f|e] eqn:Hf; [|discriminate].
    rewrite Elo, Ehi in H. cbn [bind nltb XRnum xltb orb] in H.
    unfold fdiv in H. cbn [neqb XRnum n0 nofZ xeqb] in H. rewrite Reqb_false in H by auto.
    cbn [bind] in H. rewrite (HN f eq_refl) in H.
    apply bind_Ok in H. destruct H as ([gx q] & E & H). cbn [fst snd] in H.
    match type of H with bind (pick _ (closest_value_index ?t q true)) _ = _ =>
      assert (C : closest_value_index t q true = None) end.
    { apply cvi_none. intros (z & _ & Hc). unfold crossed, xle in Hc. cbn in Hc. discriminate. }
    rewrite C in H. cbn in H. split; congruence.
  Qed.

  (** monotone in the fraction *)
  Lemma frac_mono f1 f2 r flux p pe eps ef ik num v1 v2 e1 e2 :
    2 <= length r -> (ik = None -> nondecreasing r) ->
    (forall lo hi, is_min r lo -> is_max r hi -> (lo <= p * eps <= hi)%R) ->
    (forall g q, resampled mk ik num r flux g q -> Forall xok q) ->
    (forall f, mk (kind_or_cubic ik) (map Fin r) flux = Ok f ->
       exists F, f (Fin (p * eps)) = Fin F /\ (0 <= F)%R) ->
    (0 < ef)%R -> (f1 <= f2)%R ->
    fraction_to_r mk (Fin f1) (map Fin r) flux (Fin p) None pe (Fin eps) (Fin ef) ik num = Ok (v1, e1) ->
    fraction_to_r mk (Fin f2) (map Fin r) flux (Fin p) None pe (Fin eps) (Fin ef) ik num = Ok (v2, e2) ->
    (v2 <> NaN -> v1 <> NaN) /\
    (forall a1 a2, v1 = Fin a1 -> v2 = Fin a2 -> (a1 <= a2)%R).
  Proof.
    intros Hl Hs Hin Hq HF Hef Hf12 H1 H2.
    destruct (frac_inside _ _ _ _ _ _ _ _ _ _ _ Hl Hin H1) as (f & g & q & E0 & Hf & R & P1 & _).
    destruct (frac_inside _ _ _ _ _ _ _ _ _ _ _ Hl Hin H2) as (f' & g' & q' & _ & Hf' & R' & P2 & _).
    destruct (resampled_fun _ _ _ _ _ _ _ _ _ Hl R R') as [<- <-].
    rewrite Hf in Hf'. injs. destruct (HF f' Hf) as (F & EF & HF0).
    rewrite EF in P1, P2. cbn [xmul] in P1, P2.
    assert (Hb : before true (F * (f1 / ef)) (F * (f2 / ef))).
    { cbn. apply Rmult_le_compat_l; auto. apply Rmult_le_compat_r; auto.
      left. now apply Rinv_0_lt_compat. }
    split.
    - intros Hv2 ->. apply pick_found in P1. apply pick_found in P2.
      destruct P2 as [[_ ->]|[P2 _]]; [tauto|].
      destruct P1 as [[P1 _]|[_ (i & a & E & _)]]; [|discriminate].
      apply P1. eapply reached_before; eauto.
    - intros a1 a2 E1 E2. apply (found_mono true (F * (f1 / ef)) (F * (f2 / ef)) g q v1 v2); auto.
      + apply (Hq g q R).
      + apply (resampled_sorted _ _ _ _ _ _ _ Hl R Hs).
  Qed.

  (** flux errors: same radius; extra failure modes *)
  Lemma frac_err_radius frac r flux p fe pe eps ef ik num v err :
    fraction_to_r mk frac r flux p (Some fe) pe eps ef ik num = Ok (v, err) ->
    fraction_to_r mk frac r flux p None pe eps ef ik num = Ok (v, NaN).
  Proof.
    unfold fraction_to_r. destruct (pymax r) as [rm|]; cbn [bind]; [|discriminate].
    destruct (nltb rm _); [intros H; inversion H; auto|].
    destruct (interp1d _ _ _ flux) as [f|]; cbn [bind]; [|discriminate].
    destruct (f _) as [F|]; cbn [bind]; [|discriminate].
    destruct (fdiv _ _ _) as [q|]; cbn [bind]; [|discriminate].
    destruct (get_interpolated_values _ _ flux _ _) as [gq|]; cbn [bind]; [|discriminate].
    destruct (pick _ _) as [o|]; cbn [bind]; [|discriminate].
    destruct (nisnan o); [intros H; inversion H; auto|].
    intros H.
    repeat (apply bind_Ok in H; destruct H as (? & _ & H)).
    inversion H; auto.
  Qed.

  (** the window p*eps +- perr must stay inside the data *)
  Lemma frac_err_window frac r flux p fe pe eps ef ik num lo hi a :
    2 <= length r -> length flux = length r -> length fe = length r ->
    is_min r lo -> is_max r hi ->
    (forall ys, length ys = length r -> exists f, mk (kind_or_cubic ik) (map Fin r) ys = Ok f) ->
    fraction_to_r mk (Fin frac) (map Fin r) flux (Fin p) None (Some (Fin pe)) (Fin eps) (Fin ef) ik num
      = Ok (Fin a, NaN) ->
    (p * eps - pe < lo \/ hi < p * eps + pe \/ hi < p * eps - pe \/ p * eps + pe < lo)%R ->
    fraction_to_r mk (Fin frac) (map Fin r) flux (Fin p) (Some fe) (Some (Fin pe)) (Fin eps) (Fin ef) ik num
      = Err ValueError.
  Proof.
    intros Hl Hfl Hfe Hlo Hhi Hmk H Hw. unfold fraction_to_r in *.
    destruct (pymax (map Fin r)) as [rm|]; cbn [bind] in *; [|discriminate].
    destruct (nltb rm _); [inversion H|].
    fold (kind_or_cubic ik) in *.
    destruct (interp1d _ (Some (kind_or_cubic ik)) _ flux) as [f|]; cbn [bind] in *; [|discriminate].
    destruct (f _) as [F|]; cbn [bind] in *; [|discriminate].
    destruct (fdiv _ _ _) as [q|]; cbn [bind] in *; [|discriminate].
    destruct (get_interpolated_values _ _ flux _ _) as [gq|]; cbn [bind] in *; [|discriminate].
    destruct (pick _ _) as [o|]; cbn [bind] in *; [|discriminate].
    assert (o = Fin a) as -> by congruence. cbn [nisnan XRnum xisnan].
    unfold np_map2. rewrite Hfl, Hfe, Nat.eqb_refl. cbn [bind].
    destruct (Hmk (map2 nsub flux fe)) as [f1 E1]; [rewrite length_map2; lia|].
    destruct (Hmk (map2 nadd flux fe)) as [f2 E2]; [rewrite length_map2; lia|].
    rewrite (interp1d_fin _ _ _ _ _ _ _ E1 Hlo Hhi). cbn [bind].
    rewrite (interp1d_fin _ _ _ _ _ _ _ E2 Hlo Hhi). cbn [bind].
    cbn [nmul XRnum xmul nsub xsub xopp xadd nadd nltb xltb].
    replace (p * eps + - pe)%R with (p * eps - pe)%R by ring.
    destruct (Rltb_spec (p * eps - pe) lo); cbn [orb bind]; auto.
    destruct (Rltb_spec hi (p * eps - pe)); cbn [orb bind]; auto.
    destruct (Rltb_spec (p * eps + pe) lo); cbn [orb bind]; auto.
    destruct (Rltb_spec hi (p * eps + pe)); cbn [orb bind]; auto. lra.
  Qed.
End Frac.

(** ** concentration *)

Section Conc.
  Variable mk : kind -> list xr -> list xr -> result (xr -> xr).

  (** all-or-nothing NaN *)
  Lemma conc_spec f1 f2 r flux rp fe pe eps ef ik num r1 e1 r2 e2 :
    fraction_to_r mk f1 r flux rp fe pe eps ef ik num = Ok (r1, e1) ->
    fraction_to_r mk f2 r flux rp fe pe eps ef ik num = Ok (r2, e2) ->
    (r1 = NaN \/ r2 = NaN ->
      calculate_concentration_index mk f1 f2 r flux rp fe pe eps ef ik num = Ok (NaN, NaN, NaN)) /\
    (forall a b, r1 = Fin a -> r2 = Fin b -> (0 < a)%R -> (0 < b)%R ->
      calculate_concentration_index mk f1 f2 r flux rp fe pe eps ef ik num
        = Ok (Fin a, Fin b, Fin (5 * Rlog10 (b / a)))).
  Proof.
    intros H1 H2. unfold calculate_concentration_index. rewrite H1, H2. cbn [bind fst snd].
    split.
    - intros [->| ->]; cbn; auto. now rewrite orb_true_r.
    - intros a b -> -> Ha Hb. cbn [nisnan XRnum xisnan orb]. cbn [ndiv XRnum].
      rewrite xdiv_fin by lra. cbn [nlog10 XRlog xlog10].
      rewrite Rltb_true by (apply Rdiv_lt_0_compat; auto). reflexivity.
  Qed.

  Lemma Rlog10_ge_0 x : (1 <= x)%R -> (0 <= Rlog10 x)%R.
  Proof.
    intros H. unfold Rlog10. apply Rmult_le_pos.
    - destruct H as [H|<-]; [|rewrite ln_1; lra]. left. rewrite <- ln_1. apply ln_increasing; lra.
    - left. apply Rinv_0_lt_compat. rewrite <- ln_1. apply ln_increasing; lra.
  Qed.

  Lemma Rlog10_inv a b : (0 < a)%R -> (0 < b)%R -> (Rlog10 (a / b) = - Rlog10 (b / a))%R.
  Proof.
    intros Ha Hb. unfold Rlog10, Rdiv. rewrite !ln_mult, !ln_Rinv; auto using Rinv_0_lt_compat.
    ring.
  Qed.

  Lemma Rlog10_one a : (0 < a)%R -> Rlog10 (a / a) = 0%R.
  Proof. intros Ha. unfold Rlog10. replace (a / a)%R with 1%R by (field; lra).
    rewrite ln_1. unfold Rdiv. ring. Qed.

  Lemma conc_sign f1 f2 r flux p pe eps ef ik num a b c :
    2 <= length r -> (ik = None -> nondecreasing r) ->
    (forall lo hi, is_min r lo -> is_max r hi -> (lo <= p * eps <= hi)%R) ->
    (forall g q, resampled mk ik num r flux g q -> Forall xok q) ->
    (forall f, mk (kind_or_cubic ik) (map Fin r) flux = Ok f ->
       exists F, f (Fin (p * eps)) = Fin F /\ (0 <= F)%R) ->
    (0 < ef)%R -> (f1 <= f2)%R -> (0 < a)%R -> (0 < b)%R ->
    calculate_concentration_index mk (Fin f1) (Fin f2) (map Fin r) flux (Fin p) None pe (Fin eps) (Fin ef) ik num
      = Ok (Fin a, Fin b, c) ->
    exists v, c = Fin v /\ (0 <= v)%R /\
      calculate_concentration_index mk (Fin f2) (Fin f1) (map Fin r) flux (Fin p) None pe (Fin eps) (Fin ef) ik num
      = Ok (Fin b, Fin a, Fin (- v)) /\
      (f1 = f2 -> v = 0%R).
  Proof.
    intros Hl Hs Hin Hq HF Hef Hf Ha Hb H. assert (H' := H).
    unfold calculate_concentration_index in H'.
    destruct (fraction_to_r mk (Fin f1) _ _ _ _ _ _ _ _ _) as [[r1 e1]|] eqn:E1; [|discriminate].
    destruct (fraction_to_r mk (Fin f2) _ _ _ _ _ _ _ _ _) as [[r2 e2]|] eqn:E2; [|discriminate].
    cbn [bind fst snd] in H'.
    destruct (nisnan r1 || nisnan r2) eqn:En; [discriminate|].
    assert (r1 = Fin a /\ r2 = Fin b) as [-> ->] by (split; congruence). clear H' En.
    destruct (conc_spec _ _ _ _ _ _ _ _ _ _ _ _ _ _ _ E1 E2) as [_ C]. rewrite (C a b) in H; auto.
    destruct (conc_spec _ _ _ _ _ _ _ _ _ _ _ _ _ _ _ E2 E1) as [_ C']. rewrite (C' b a); auto.
    destruct (frac_mono mk f1 f2 r flux p pe eps ef ik num _ _ _ _ Hl Hs Hin Hq HF Hef Hf E1 E2) as [_ M].
    specialize (M a b eq_refl eq_refl).
    assert (Hc : c = Fin (5 * Rlog10 (b / a))) by congruence.
    exists (5 * Rlog10 (b / a))%R. split; auto. split; [|split].
    - apply Rmult_le_pos; [lra|]. apply Rlog10_ge_0.
      apply Rmult_le_reg_r with a; auto. replace (b / a * a)%R with b by (field; lra). lra.
    - do 2 f_equal. f_equal. rewrite (Rlog10_inv a b) by auto. ring.
    - intros ->. assert (Some (a) = Some b) by (rewrite E1 in E2; congruence). injs.
      rewrite Rlog10_one by auto. ring.
  Qed.
End Conc.
