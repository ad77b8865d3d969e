(** Proofs about the error reported by fraction_to_r. *)
From Verif Require Import Base Num Numpy M_Utils M_Petrosian L_Numpy S_Utils L_Utils L_Utils3
  S_Petrosian L_Petrosian S_PetroR L_PetroR L_FracR S_FracErr.

Section FracErr.
  Variable mk : kind -> list xr -> list xr -> result (xr -> xr).

  Definition used (pe : option xr) : xr :=
    match pe with None => Fin 0 | Some x => if xisnan x then Fin 0 else x end.

  Lemma used_is pe d : radius_error pe d -> used pe = Fin d.
  Proof. intros [-> | [[-> ->] | [-> ->]]]; reflexivity. Qed.

  Lemma frac_err_unfold frac r flux p fe pe eps ef ik num v err :
    2 <= length r -> length flux = length r -> length fe = length r ->
    (forall lo hi, is_min r lo -> is_max r hi -> (lo <= p * eps <= hi)%R) ->
    fraction_to_r mk (Fin frac) (map Fin r) flux (Fin p) (Some fe) pe (Fin eps) (Fin ef) ik num = Ok (v, err) ->
    (v = NaN /\ err = NaN) \/
    v <> NaN /\ exists f fl fu g ql qu up lo, ef <> 0%R /\
      mk (kind_or_cubic ik) (map Fin r) flux = Ok f /\
      mk (kind_or_cubic ik) (map Fin r) (map2 xsub flux fe) = Ok fl /\
      mk (kind_or_cubic ik) (map Fin r) (map2 xadd flux fe) = Ok fu /\
      resampled mk (Some KCubic) (Z.to_nat 5000) r (map2 xsub flux fe) g ql /\
      resampled mk (Some KCubic) (Z.to_nat 5000) r (map2 xadd flux fe) g qu /\
      let F := xmul (f (Fin (p * eps))) (Fin (frac / ef)) in
      let h := xdiv (xsub (fu (xadd (Fin (p * eps)) (used pe))) (fl (xsub (Fin (p * eps)) (used pe)))) (Fin 2) in
      pick (map Fin g) (closest_value_index (xadd F h) ql true) = Ok up /\
      pick (map Fin g) (closest_value_index (xsub F h) qu true) = Ok lo /\
      err = xdiv (xsub up lo) (Fin 2).
  Proof.
    intros Hl Hfl Hfe Hin H. assert (Hne : r <> []) by (destruct r; cbn in *; [lia|congruence]).
    destruct (pymax_fin r Hne) as (hi & Ehi & Hhi1 & Hhi2).
    destruct (pymin_fin r Hne) as (lo & Elo & Hlo1 & Hlo2).
    assert (Hhi : is_max r hi) by (split; auto). assert (Hlo : is_min r lo) by (split; auto).
    specialize (Hin lo hi Hlo Hhi).
    unfold fraction_to_r in H. rewrite Ehi in H. cbn [bind] in H.
    cbn [nmul XRnum xmul nltb xltb] in H. rewrite Rltb_false in H by lra.
    fold (kind_or_cubic ik) in H.
    destruct (mk (kind_or_cubic ik) (map Fin r) flux) as [f|e] eqn:Hf.
    2:{ unfold interp1d in H. rewrite Hf in H. discriminate. }
    rewrite (interp1d_fin _ _ _ _ _ _ _ Hf Hlo Hhi) in H. cbn [bind] in H.
    cbn [nltb XRnum xltb] in H. rewrite !Rltb_false in H by lra. cbn [orb bind] in H.
    unfold fdiv in H. cbn [neqb XRnum n0 nofZ xeqb] in H.
    destruct (Reqb_spec ef 0) as [E0|E0]; [discriminate|]. cbn [bind] in H.
    apply bind_Ok in H. destruct H as ([gx q] & E & H).
    apply bind_Ok in H. destruct H as (o & Ho & H).
    destruct (nisnan o) eqn:Eo.
    { assert (o = NaN) as -> by (destruct o; cbn in Eo; congruence).
      assert (Ho' : (NaN, NaN) = (v, err)) by (cbn in H; congruence). inversion Ho'; subst. auto. }
    right. unfold np_map2 in H. rewrite Hfl, Hfe, Nat.eqb_refl in H. cbn [bind] in H.
    change (map2 nsub flux fe) with (map2 xsub flux fe) in H.
    change (map2 nadd flux fe) with (map2 xadd flux fe) in H.
    destruct (mk (kind_or_cubic ik) (map Fin r) (map2 xsub flux fe)) as [fl|e] eqn:Hf1.
    2:{ unfold interp1d in H. rewrite Hf1 in H. discriminate. }
    rewrite (interp1d_fin _ _ _ _ _ _ _ Hf1 Hlo Hhi) in H. cbn [bind] in H.
    destruct (mk (kind_or_cubic ik) (map Fin r) (map2 xadd flux fe)) as [fu|e] eqn:Hf2.
    2:{ unfold interp1d in H at 1. rewrite Hf2 in H. discriminate. }
    rewrite (interp1d_fin _ _ _ _ _ _ _ Hf2 Hlo Hhi) in H. cbn [bind] in H.
    apply bind_Ok in H. destruct H as (el & Hel & H).
    apply bind_Ok in H. destruct H as (eu & Heu & H).
    apply bind_Ok in H. destruct H as ([gl ql] & El & H).
    apply bind_Ok in H. destruct H as (up & Hup & H).
    apply bind_Ok in H. destruct H as ([gu qu] & Eu & H).
    apply bind_Ok in H. destruct H as (lw & Hlw & H).
    destruct (giv_resampled mk _ _ r _ _ Hl El) as (g & Eg & Rl).
    destruct (giv_resampled mk _ _ r _ _ Hl Eu) as (g' & Eg' & Ru).
    cbn [fst snd] in *. subst gl gu.
    assert (g' = g) as -> by (eapply resampled_grid; eauto).
    assert (Ho' : (o, xdiv (xsub up lw) (Fin 2)) = (v, err)) by (cbn in H; congruence).
    inversion Ho'; subst. split; [intros ->; discriminate|].
    exists f, fl, fu, g, ql, qu, up, lw. split; auto. split; auto. split; auto. split; auto.
    split; auto. split; auto. cbv zeta.
    assert (el = fl (xsub (Fin (p * eps)) (used pe))) as ->.
    { revert Hel. cbv beta. match goal with |- (if ?c then _ else _) = _ -> _ => destruct c end; [discriminate|]. intros Q. apply Ok_inj in Q. exact (eq_sym Q). }
    assert (eu = fu (xadd (Fin (p * eps)) (used pe))) as ->.
    { revert Heu. cbv beta. match goal with |- (if ?c then _ else _) = _ -> _ => destruct c end; [discriminate|]. intros Q. apply Ok_inj in Q. exact (eq_sym Q). }
    cbn [ndiv XRnum] in Hup, Hlw. rewrite (xdiv_fin frac ef E0) in Hup, Hlw.
    split; [exact Hup|]. split; [exact Hlw|]. reflexivity.
  Qed.

  Lemma frac_err_spec frac r flux p fe pe d eps ef ik num v err :
    2 <= length r -> length flux = length r -> length fe = length r ->
    (forall lo hi, is_min r lo -> is_max r hi -> (lo <= p * eps <= hi)%R) ->
    radius_error pe d ->
    fraction_to_r mk (Fin frac) (map Fin r) flux (Fin p) (Some fe) pe (Fin eps) (Fin ef) ik num = Ok (v, err) ->
    (v = NaN /\ err = NaN) \/
    v <> NaN /\ exists f fl fu g ql qu up lo,
      mk (kind_or_cubic ik) (map Fin r) flux = Ok f /\
      mk (kind_or_cubic ik) (map Fin r) (map2 xsub flux fe) = Ok fl /\
      mk (kind_or_cubic ik) (map Fin r) (map2 xadd flux fe) = Ok fu /\
      resampled mk (Some KCubic) (Z.to_nat 5000) r (map2 xsub flux fe) g ql /\
      resampled mk (Some KCubic) (Z.to_nat 5000) r (map2 xadd flux fe) g qu /\
      (forall F L U, f (Fin (p * eps)) = Fin F -> fl (Fin (p * eps - d)) = Fin L -> fu (Fin (p * eps + d)) = Fin U ->
         found_radius true (F * (frac / ef) + (U - L) / 2) g ql up /\
         found_radius true (F * (frac / ef) - (U - L) / 2) g qu lo) /\
      err = xdiv (xsub up lo) (Fin 2).
  Proof.
    intros Hl Hfl Hfe Hin Hd H.
    destruct (frac_err_unfold _ _ _ _ _ _ _ _ _ _ _ _ Hl Hfl Hfe Hin H)
      as [?|(Hv & f & fl & fu & g & ql & qu & up & lo & E0 & A1 & A2 & A3 & A4 & A5 & A6)]; auto.
    cbv zeta in A6. destruct A6 as (A6 & A7 & A8). rewrite (used_is _ _ Hd) in *.
    right. split; auto. exists f, fl, fu, g, ql, qu, up, lo. do 5 (split; auto). split; [|auto].
    intros F L U EF EL EU. cbn [xadd xsub xopp] in A6, A7.
    replace (p * eps + - d)%R with (p * eps - d)%R in * by ring.
    rewrite EF, EL, EU in *. cbn [xmul xadd xsub xopp] in A6, A7.
    rewrite (xdiv_fin (U + - L) 2) in A6, A7 by lra. cbn [xadd xopp] in A6, A7.
    replace (F * (frac / ef) + (U + - L) / 2)%R with (F * (frac / ef) + (U - L) / 2)%R in A6 by (unfold Rminus; reflexivity).
    replace (F * (frac / ef) + - ((U + - L) / 2))%R with (F * (frac / ef) - (U - L) / 2)%R in A7 by (unfold Rminus; reflexivity).
    split; now apply pick_found.
  Qed.

  Lemma map2_zero_sub (fl : list R) n : n = length fl -> map2 xsub (map Fin fl) (repeat (Fin 0) n) = map Fin fl.
  Proof.
    intros ->. induction fl as [|a fl IH]; cbn; auto. rewrite IH. do 2 f_equal. ring.
  Qed.
  Lemma map2_zero_add (fl : list R) n : n = length fl -> map2 xadd (map Fin fl) (repeat (Fin 0) n) = map Fin fl.
  Proof.
    intros ->. induction fl as [|a fl IH]; cbn; auto. rewrite IH. do 2 f_equal. ring.
  Qed.

  (** no errors in, no error out *)
  Lemma frac_err_zero frac r flux p pe eps ef ik num v err :
    2 <= length r -> length flux = length r ->
    (forall lo hi, is_min r lo -> is_max r hi -> (lo <= p * eps <= hi)%R) ->
    radius_error pe 0 ->
    (forall f, mk (kind_or_cubic ik) (map Fin r) (map Fin flux) = Ok f -> exists F, f (Fin (p * eps)) = Fin F) ->
    fraction_to_r mk (Fin frac) (map Fin r) (map Fin flux) (Fin p) (Some (repeat (Fin 0) (length r))) pe
      (Fin eps) (Fin ef) ik num = Ok (v, err) ->
    (err = NaN \/ err = Fin 0) /\
    (ik = Some KCubic -> num = Z.to_nat 5000 -> v <> NaN -> err = Fin 0).
  Proof.
    intros Hl Hfl Hin Hd HF H. assert (H' := H). apply frac_err_radius in H'.
    destruct (frac_err_unfold frac r (map Fin flux) p (repeat (Fin 0) (length r)) pe eps ef ik num v err Hl
                ltac:(now rewrite map_length) ltac:(now rewrite repeat_length) Hin H)
      as [[-> ->]|(Hv & f & fl & fu & g & ql & qu & up & lo & E0 & A1 & A2 & A3 & A4 & A5 & A6)].
    { split; auto. intros _ _ C. now elim C. }
    cbv zeta in A6. destruct A6 as (A6 & A7 & A8). rewrite (used_is _ _ Hd) in *.
    rewrite map2_zero_sub in * by auto. rewrite map2_zero_add in * by auto.
    rewrite A1 in A2, A3. injs. cbn [xadd xsub xopp] in A6, A7.
    replace (p * eps + - 0)%R with (p * eps)%R in * by ring. rewrite Rplus_0_r in *.
    destruct (HF _ A1) as (F & EF). rewrite EF in *. cbn [xmul xadd xsub xopp] in A6, A7.
    rewrite (xdiv_fin (F + - F) 2) in A6, A7 by lra. cbn [xadd xopp] in A6, A7.
    replace (F * (frac / ef) + (F + - F) / 2)%R with (F * (frac / ef))%R in A6 by (field; auto).
    replace (F * (frac / ef) + - ((F + - F) / 2))%R with (F * (frac / ef))%R in A7 by (field; auto).
    destruct (resampled_fun _ _ _ _ _ _ _ _ _ Hl A4 A5) as [_ ->].
    rewrite A6 in A7. injs.
    assert (Z0 : forall a, xdiv (xsub (Fin a) (Fin a)) (Fin 2) = Fin 0).
    { intros a. cbn [xsub xopp xadd]. rewrite xdiv_fin by lra. f_equal. field. }
    split.
    - destruct (pick_found _ _ _ _ _ A6) as [[_ ->]|[_ (i & a & -> & _)]]; [now left|]. right. apply Z0.
    - intros -> -> _.
      destruct (frac_inside mk frac r (map Fin flux) p pe eps ef _ _ v NaN Hl Hin H') as (f' & g' & q' & _ & B1 & B2 & B3 & _).
      cbn [kind_or_cubic] in *. rewrite A1 in B1. injs.
      destruct (resampled_fun _ _ _ _ _ _ _ _ _ Hl A4 B2) as [<- <-].
      rewrite EF in B3. cbn [xmul] in B3. rewrite A6 in B3. injs.
      destruct (pick_found _ _ _ _ _ A6) as [[_ Q]|[_ (i & a & -> & _)]]; [contradiction|]. apply Z0.
  Qed.

  (** the number of sampling points of the object does not enter the error *)
  Lemma frac_err_num frac r flux p fe pe eps ef ik n1 n2 v1 v2 e1 e2 :
    fraction_to_r mk frac r flux p (Some fe) pe eps ef ik n1 = Ok (v1, e1) ->
    fraction_to_r mk frac r flux p (Some fe) pe eps ef ik n2 = Ok (v2, e2) ->
    v1 <> NaN -> v2 <> NaN -> e1 = e2.
  Proof.
    unfold fraction_to_r. destruct (pymax r) as [rm|]; cbn [bind]; [|discriminate].
    destruct (nltb rm _); [intros H; inversion H; congruence|].
    destruct (interp1d _ _ _ flux) as [f|]; cbn [bind]; [|discriminate].
    destruct (f _) as [F|]; cbn [bind]; [|discriminate].
    destruct (fdiv _ _ _) as [q|]; cbn [bind]; [|discriminate].
    intros H1 H2 V1 V2.
    apply bind_Ok in H1. destruct H1 as (gq1 & _ & H1). apply bind_Ok in H1. destruct H1 as (o1 & _ & H1).
    apply bind_Ok in H2. destruct H2 as (gq2 & _ & H2). apply bind_Ok in H2. destruct H2 as (o2 & _ & H2).
    destruct (nisnan o1) eqn:N1.
    { exfalso. apply V1. assert (o1 = v1) by congruence. subst o1. destruct v1; cbn in N1; congruence. }
    destruct (nisnan o2) eqn:N2.
    { exfalso. apply V2. assert (o2 = v2) by congruence. subst o2. destruct v2; cbn in N2; congruence. }
    revert H1 H2. match goal with |- bind ?a _ = _ -> _ => destruct a as [x1|]; cbn [bind]; [|discriminate] end.
    repeat (match goal with |- bind ?a _ = _ -> _ => destruct a; cbn [bind]; [|discriminate] end).
    intros H1 H2. congruence.
  Qed.

  (** nothing is raised while the window p*eps +- d stays inside the data *)
  Lemma frac_err_total frac r flux p fe pe d eps ef ik num lo hi a :
    2 <= length r -> length flux = length r -> length fe = length r ->
    is_min r lo -> is_max r hi -> radius_error pe d ->
    (forall k ys, length ys = length r -> exists f, mk k (map Fin r) ys = Ok f) ->
    (lo <= p * eps - d <= hi)%R -> (lo <= p * eps + d <= hi)%R ->
    fraction_to_r mk (Fin frac) (map Fin r) flux (Fin p) None pe (Fin eps) (Fin ef) ik num = Ok (Fin a, NaN) ->
    exists err, fraction_to_r mk (Fin frac) (map Fin r) flux (Fin p) (Some fe) pe (Fin eps) (Fin ef) ik num
      = Ok (Fin a, err).
  Proof.
    intros Hl Hfl Hfe Hlo Hhi Hd Hmk W1 W2 H. assert (Hu := used_is _ _ Hd). unfold fraction_to_r in *.
    destruct (pymax (map Fin r)) as [rm|]; cbn [bind] in *; [|discriminate].
    destruct (nltb rm _); [inversion H|].
    fold (kind_or_cubic ik) in *.
    destruct (interp1d _ (Some (kind_or_cubic ik)) _ flux) as [f|]; cbn [bind] in *; [|discriminate].
    destruct (f _) as [F|]; cbn [bind] in *; [|discriminate].
    destruct (fdiv _ _ _) as [q|]; cbn [bind] in *; [|discriminate].
    destruct (get_interpolated_values _ _ flux _ _) as [gq|]; cbn [bind] in *; [|discriminate].
    destruct (pick _ _) as [o|]; cbn [bind] in *; [|discriminate].
    assert (o = Fin a) as -> by congruence. cbn [nisnan XRnum xisnan].
    change (match pe with Some x => if xisnan x then n0 else x | None => n0 end) with (used pe). rewrite Hu.
    unfold np_map2. rewrite Hfl, Hfe, Nat.eqb_refl. cbn [bind].
    assert (L1 : length (map2 nsub flux fe) = length r) by (rewrite length_map2; lia).
    assert (L2 : length (map2 nadd flux fe) = length r) by (rewrite length_map2; lia).
    destruct (Hmk (kind_or_cubic ik) _ L1) as [f1 E1]. destruct (Hmk (kind_or_cubic ik) _ L2) as [f2 E2].
    rewrite (interp1d_fin _ _ _ _ _ _ _ E1 Hlo Hhi). cbn [bind].
    rewrite (interp1d_fin _ _ _ _ _ _ _ E2 Hlo Hhi). cbn [bind].
    cbn [nmul XRnum xmul nsub xsub xopp xadd nadd nltb xltb].
    replace (p * eps + - d)%R with (p * eps - d)%R by ring.
    rewrite !Rltb_false by lra. cbn [orb bind].
    destruct (Hmk KCubic _ L1) as [c1 C1]. destruct (Hmk KCubic _ L2) as [c2 C2].
    destruct (giv_spec mk KCubic r _ (Z.to_nat 5000) c1 Hl C1) as (l1 & h1 & g1 & G1 & _).
    destruct (giv_spec mk KCubic r _ (Z.to_nat 5000) c2 Hl C2) as (l2 & h2 & g2 & G2 & _).
    change (map2 nsub flux fe) with (map2 xsub flux fe) in *. change (map2 nadd flux fe) with (map2 xadd flux fe) in *.
    rewrite G1, G2. cbn [bind fst snd].
    match goal with |- exists _, bind (pick (map Fin ?g) (closest_value_index ?t ?q true)) _ = _ =>
      destruct (pick_total true t g q) as [o1 O1]; [now rewrite !map_length|] end. rewrite O1. cbn [bind].
    match goal with |- exists _, bind (pick (map Fin ?g) (closest_value_index ?t ?q true)) _ = _ =>
      destruct (pick_total true t g q) as [o2 O2]; [now rewrite !map_length|] end. rewrite O2. cbn [bind].
    eauto.
  Qed.

  (** the lower curve, growing strictly, is found no earlier than the upper curve *)
  Lemma found_order_grow (g : list R) (ql qu : list xr) tu tl up lo au al :
    nondecreasing g -> Forall xok qu -> Forall xok ql -> length qu = length ql -> (tl <= tu)%R ->
    (forall i j a b, i < j -> nth_error ql i = Some a -> nth_error ql j = Some b -> xlt a b) ->
    (forall i a b, nth_error ql i = Some a -> nth_error qu i = Some b -> xle a b) ->
    pick (map Fin g) (closest_value_index (Fin tu) ql true) = Ok up ->
    pick (map Fin g) (closest_value_index (Fin tl) qu true) = Ok lo ->
    up = Fin au -> lo = Fin al -> (al <= au)%R.
  Proof.
    intros Hg Hqu Hql Hlen Ht Hinc Hle H1 H2 -> ->.
    destruct (closest_value_index (Fin tu) ql true) as [iu|] eqn:C1; cbn [pick] in H1; [|injs; discriminate].
    destruct (closest_value_index (Fin tl) qu true) as [il|] eqn:C2; cbn [pick] in H2; [|injs; discriminate].
    assert (R0 : reached true (Fin tl) ql).
    { destruct (reached_dec true (Fin tl) ql) as [|N]; auto. exfalso. apply N. eapply reached_before; [exact Ht|].
      destruct (reached_dec true (Fin tu) ql) as [|N']; auto. apply cvi_none in N'. congruence. }
    destruct (closest_value_index (Fin tl) ql true) as [im|] eqn:C3.
    2:{ apply cvi_none in C3. contradiction. }
    assert (Hm : im <= iu) by (apply (closest_mono true tl tu ql im iu Hql Ht C3 C1)).
    assert (Hi : il <= im).
    { destruct (cvi_closest tl ql true im Hql C3) as (cu & xu & [(zu & Zu & Cu) Bu] & Iu & Xu & Mu & Fu).
      destruct (cvi_closest tl qu true il Hqu C2) as (cl & xl & [(zl & Zl & Cl) Bl] & Il & Xl & Ml & Fl).
      assert (Hlu : forall k, k < length qu -> exists a, nth_error qu k = Some a).
      { intros k Hk. destruct (nth_error qu k) eqn:E; eauto. apply nth_error_None in E. lia. }
      assert (Hll : forall k, k < length ql -> exists a, nth_error ql k = Some a).
      { intros k Hk. destruct (nth_error ql k) eqn:E; eauto. apply nth_error_None in E. lia. }
      assert (Lu : cu < length ql) by (apply nth_error_Some; congruence).
      assert (Ll : cl < length qu) by (apply nth_error_Some; congruence).
      assert (Hc : cl <= cu).
      { destruct (le_lt_dec cl cu) as [|Hlt]; auto. exfalso.
        destruct (Hlu cu ltac:(lia)) as [a Ha]. apply (Bl cu a Hlt Ha).
        unfold crossed in *. eapply xle_trans; [exact Cu|]. eapply Hle; eauto. }
      assert (Hu : cu <= S im).
      { destruct (le_lt_dec cu (S im)) as [|Hlt]; auto. exfalso.
        destruct (Hll (cu - 1) ltac:(lia)) as [b Hb].
        assert (D : xle (dist tl xu) (dist tl b)) by (apply (Mu (cu - 1)); auto; lia).
        assert (L : xlt xu b) by (apply (Hinc im (cu - 1)); auto; lia).
        assert (Nb : xlt b (Fin tl)).
        { apply not_crossed_grow.
          - apply nth_error_In in Hb. rewrite Forall_forall in Hql. auto.
          - apply (Bu (cu - 1)); auto; lia. }
        clear - D L Nb. unfold xle, xlt in *. destruct xu, b; cbn in *; try discriminate.
        all: rewrite ?Rleb_iff, ?Rltb_iff in *; unfold Rabs in *;
          repeat match goal with H : context [Rcase_abs ?x] |- _ => destruct (Rcase_abs x) end;
          try discriminate; lra. }
      destruct (le_lt_dec il im) as [|Hlt]; auto. exfalso.
      assert (cl = cu /\ il = cu /\ im = cu - 1 /\ 0 < cu) as (-> & -> & -> & Hpos) by lia.
      assert (xl = zl) by congruence. subst zl.
      destruct (Hlu (cu - 1) ltac:(lia)) as [bl Hbl].
      assert (D1 : xlt (dist tl xl) (dist tl bl)) by (apply (Fl (cu - 1)); auto; lia).
      assert (D2 : xle (dist tl xu) (dist tl zu)) by (apply (Mu cu); auto).
      assert (Nl : xlt bl (Fin tl)).
      { apply not_crossed_grow.
        - apply nth_error_In in Hbl. rewrite Forall_forall in Hqu. auto.
        - apply (Bl (cu - 1)); auto; lia. }
      assert (L1 : xle zu xl) by (apply (Hle cu); auto).
      assert (L2 : xle xu bl) by (apply (Hle (cu - 1)); auto).
      clear - D1 D2 Nl L1 L2 Cl Cu. unfold crossed, xle, xlt in *.
      destruct xl, zu, bl, xu; cbn in *; try discriminate.
      all: rewrite ?Rleb_iff, ?Rltb_iff in *; unfold Rabs in *;
           repeat match goal with H : context [Rcase_abs ?x] |- _ => destruct (Rcase_abs x) end;
           try discriminate; lra. }
    unfold index in *. rewrite nth_error_map in *.
    destruct (nth_error g iu) as [b1|] eqn:G1; [|discriminate].
    destruct (nth_error g il) as [b2|] eqn:G2; [|discriminate]. cbn in *.
    apply Ok_inj in H1, H2. injection H1 as <-. injection H2 as <-.
    assert (iu < length g) by (apply nth_error_Some; congruence).
    assert (il < length g) by (apply nth_error_Some; congruence).
    rewrite at_nth_error in G1, G2 by auto. injs. apply nondec_le; auto; lia.
  Qed.

  Lemma frac_err_nonneg frac r flux p fe pe d eps ef ik num v err :
    2 <= length r -> length flux = length r -> length fe = length r ->
    (forall lo hi, is_min r lo -> is_max r hi -> (lo <= p * eps <= hi)%R) ->
    radius_error pe d ->
    (forall f fl fu, mk (kind_or_cubic ik) (map Fin r) flux = Ok f ->
       mk (kind_or_cubic ik) (map Fin r) (map2 xsub flux fe) = Ok fl ->
       mk (kind_or_cubic ik) (map Fin r) (map2 xadd flux fe) = Ok fu ->
       exists F L U, f (Fin (p * eps)) = Fin F /\ fl (Fin (p * eps - d)) = Fin L /\
         fu (Fin (p * eps + d)) = Fin U /\ (L <= U)%R) ->
    (forall g g' ql qu, resampled mk (Some KCubic) (Z.to_nat 5000) r (map2 xsub flux fe) g ql ->
       resampled mk (Some KCubic) (Z.to_nat 5000) r (map2 xadd flux fe) g' qu ->
       Forall xok ql /\ Forall xok qu /\
       (forall i j a b, i < j -> nth_error ql i = Some a -> nth_error ql j = Some b -> xlt a b) /\
       (forall i a b, nth_error ql i = Some a -> nth_error qu i = Some b -> xle a b)) ->
    fraction_to_r mk (Fin frac) (map Fin r) flux (Fin p) (Some fe) pe (Fin eps) (Fin ef) ik num = Ok (v, err) ->
    err = NaN \/ exists s, err = Fin s /\ (0 <= s)%R.
  Proof.
    intros Hl Hfl Hfe Hin Hd HF HQ H.
    destruct (frac_err_unfold _ _ _ _ _ _ _ _ _ _ _ _ Hl Hfl Hfe Hin H)
      as [[_ ?]|(Hv & f & fl & fu & g & ql & qu & up & lo & E0 & A1 & A2 & A3 & A4 & A5 & A6)]; auto.
    cbv zeta in A6. destruct A6 as (A6 & A7 & A8). rewrite (used_is _ _ Hd) in *.
    destruct (HF _ _ _ A1 A2 A3) as (F & L & U & EF & EL & EU & HLU).
    destruct (HQ _ _ _ _ A4 A5) as (Q1 & Q2 & Q3 & Q4).
    cbn [xadd xsub xopp] in A6, A7.
    replace (p * eps + - d)%R with (p * eps - d)%R in * by ring.
    rewrite EF, EL, EU in *. cbn [xmul xadd xsub xopp] in A6, A7.
    rewrite (xdiv_fin (U + - L) 2) in A6, A7 by lra. cbn [xadd xopp] in A6, A7.
    destruct (pick_found _ _ _ _ _ A6) as [[_ ->]|[_ (iu & au & -> & _)]]; [left; subst err; reflexivity|].
    destruct (pick_found _ _ _ _ _ A7) as [[_ ->]|[_ (il & al & -> & _)]]; [left; subst err; reflexivity|].
    right. exists ((au - al) / 2)%R. split.
    - subst err. rewrite <- xdiv_fin by lra. reflexivity.
    - assert (al <= au)%R; [|lra].
      eapply (found_order_grow g ql qu); [| | | | | | |exact A6|exact A7|reflexivity|reflexivity]; auto.
      + eapply resampled_sorted; [| exact A4 |]; auto. discriminate.
      + assert (X := resampled_length _ _ _ _ _ _ _ A4). assert (Y := resampled_length _ _ _ _ _ _ _ A5).
        rewrite length_map2 in *. rewrite <- X, <- Y; auto; lia.
      + lra.
  Qed.
End FracErr.
