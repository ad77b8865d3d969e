(** Proofs about make_grid, the setters and the grid cache. *)
From Coq Require Import String FunctionalExtensionality.
From Verif Require Import Base Num Numpy L_Numpy S_Photometry L_Photometry M_PSF S_PSF.
Local Open Scope list_scope.

(** ** Grid *)
Definition gx (o : R) (f : nat) (k : nat) : R := ((1/2 + INR k) / INR f - 1/2 + o)%R.

Lemma nofnat_xr k : nofnat k = Fin (INR k) :> xr.
Proof. unfold nofnat. cbn [nofZ XRnum]. now rewrite <- INR_IZR_INZ. Qed.

Lemma half_xr : half = Fin (1/2) :> xr.
Proof. unfold half, nlit. cbn [nofZ ndiv XRnum xdiv]. rewrite (Reqb_false 2 0) by lra. reflexivity. Qed.

Lemma grid_coord_xr o f k : (0 < f)%Z -> grid_coord (Fin o) f k = Fin (gx o (Z.to_nat f) k).
Proof.
  intros Hf. unfold grid_coord. rewrite half_xr, nofnat_xr.
  cbn [nofZ nadd nsub ndiv XRnum xadd xsub xdiv xopp].
  assert (H : (IZR f > 0)%R) by (apply (IZR_lt 0); lia).
  rewrite (Reqb_false (IZR f) 0) by lra. cbn. unfold gx.
  rewrite (INR_IZR_INZ (Z.to_nat f)), Z2Nat.id by lia. f_equal.
Qed.

Lemma make_grid_xr size ox oy f : (0 < f)%Z ->
  make_grid size (Fin ox, Fin oy) f =
  (rimg (Z.to_nat (size * f)) (Z.to_nat (size * f)) (fun _ i => gx ox (Z.to_nat f) i),
   rimg (Z.to_nat (size * f)) (Z.to_nat (size * f)) (fun j _ => gx oy (Z.to_nat f) j)).
Proof.
  intros Hf. unfold make_grid, rimg. cbn [fst snd]. f_equal; f_equal;
  do 2 (apply functional_extensionality; intro); now apply grid_coord_xr.
Qed.

Lemma INR_pos n : (0 < n)%nat -> (0 < INR n)%R.
Proof. apply lt_0_INR. Qed.

Lemma gx_split o f k b : (0 < f)%nat ->
  gx o f (k * f + b) = (o + INR k - 1/2 + (INR b + 1/2) / INR f)%R.
Proof.
  intros Hf. pose proof (INR_pos f Hf). unfold gx. rewrite plus_INR, mult_INR. field. lra.
Qed.

Lemma sum_index n : sum_to n (fun b => INR b) = (INR n * (INR n - 1) / 2)%R.
Proof. induction n; [cbn; lra|]. cbn [sum_to]. rewrite IHn, S_INR. field. Qed.

Lemma gx_symmetric o size f : (0 < f)%nat -> symmetric_samples (gx o f) o size f.
Proof.
  intros Hf. pose proof (INR_pos f Hf) as Hp. repeat split.
  - rewrite gx_split by auto.
    assert (0 < (INR b + 1/2) / INR f)%R; [|lra].
    apply Rdiv_lt_0_compat; auto. pose proof (pos_INR b). lra.
  - rewrite gx_split by auto.
    assert ((INR b + 1/2) / INR f < 1)%R; [|lra].
    apply (Rmult_lt_reg_r (INR f)); auto. unfold Rdiv. rewrite Rmult_assoc, Rinv_l, Rmult_1_r, Rmult_1_l by lra.
    assert (INR b + 1 <= INR f)%R by (rewrite <- S_INR; apply le_INR; lia). lra.
  - intros n _. unfold gx. rewrite S_INR. field. lra.
  - intros k _. rewrite (sum_to_ext f _ (fun b => (o + INR k - 1/2 + 1/2 / INR f) * 1 + / INR f * INR b))%R.
    2:{ intros b _. rewrite gx_split by auto. field. lra. }
    rewrite sum_to_add, !sum_to_mult, sum_index.
    assert (E : forall n, sum_to n (fun _ => 1%R) = INR n).
    { clear. induction n; [reflexivity|]. cbn [sum_to]. rewrite IHn, S_INR. ring. }
    rewrite E. field. lra.
Qed.

Lemma make_grid_ok (size f : nat) ox oy : (1 <= f)%nat ->
  exists sx sy, 
    make_grid (Z.of_nat size) (Fin ox, Fin oy) (Z.of_nat f) =
      (rimg (size * f) (size * f) (fun _ i => sx i), rimg (size * f) (size * f) (fun j _ => sy j)) /\
    symmetric_samples sx ox size f /\ symmetric_samples sy oy size f /\
    (f = 1%nat -> forall k, sx k = (ox + INR k)%R /\ sy k = (oy + INR k)%R).
Proof.
  intros Hf. exists (gx ox f), (gx oy f). rewrite make_grid_xr by lia.
  replace (Z.to_nat (Z.of_nat size * Z.of_nat f)) with (size * f)%nat by lia. rewrite Nat2Z.id.
  split; [reflexivity|]. split; [apply gx_symmetric; lia|]. split; [apply gx_symmetric; lia|].
  intros -> k. unfold gx. change (INR 1) with 1%R. split; field.
Qed.

(** ** Setters *)
Section Setters.
  Context {T : Type} {N : Num T}.

  (** C44: a rejected assignment leaves the object as it was *)
  Lemma rejected_unchanged rotate sm (st : pst T) o e : is_setter o = true ->
    fst (pstep rotate sm st o) = Err e -> snd (pstep rotate sm st o) = st.
  Proof.
    destruct o as [| v | | v | v |]; cbn [is_setter]; try discriminate; intros _; cbn [pstep no_value fst snd]; try discriminate.
    - unfold set_oversample. destruct v as [|z|x|s|l|n|]; cbn [fst snd]; auto; try discriminate.
      + destruct (z <=? 0)%Z; cbn; auto. destruct (negb _); cbn; auto; discriminate.
      + destruct l as [|a [|b [|c [|d [|]]]]]; cbn; auto; destruct c; cbn; auto; destruct d; cbn; auto.
        destruct (_ <=? 0)%Z; cbn; auto. destruct (negb _); cbn; auto; discriminate.
    - unfold set_psf_oversample. destruct v; cbn; try discriminate; destruct (p_psf st); cbn; auto.
      destruct (_ <=? 0)%Z; cbn; auto. destruct (negb _); cbn; auto; discriminate.
    - destruct v as [[]|]; cbn; auto; discriminate.
  Qed.

  Lemma main_grid_settings (st : pst T) gs gf r :
    let st' := snd (main_grid st gs gf r) in
    p_over st' = p_over st /\ p_psf_over st' = p_psf_over st /\ p_psf st' = p_psf st /\ p_cache st' = p_cache st.
  Proof.
    unfold main_grid. destruct r as [[[a b] c] d]. destruct (_ && _); cbn; auto. destruct (p_cache st) eqn:E; cbn; auto.
  Qed.

  Lemma after_write_settings sm (st : pst T) m :
    let st' := after_write sm st m in
    p_over st' = p_over st /\ p_psf_over st' = p_psf_over st /\ p_psf st' = p_psf st /\ p_cache st' = p_cache st.
  Proof. unfold after_write. destruct (sm_kind sm), (p_cgrid st); cbn; auto. Qed.

  Lemma evaluate_settings rotate sm (st : pst T) xs ys ps pa :
    let st' := snd (evaluate rotate sm st xs ys ps pa) in
    p_over st' = p_over st /\ p_psf_over st' = p_psf_over st /\ p_psf st' = p_psf st /\ p_cache st' = p_cache st.
  Proof.
    unfold evaluate. cbv zeta. destruct (bind _ _) as [[r [is js]]|e]; [|cbn; auto].
    set (gs := (Z.max (zmax is) (zmax js) + 1)%Z).
    assert (M : forall gf, let st' := snd (main_grid st gs gf r) in
      p_over st' = p_over st /\ p_psf_over st' = p_psf_over st /\ p_psf st' = p_psf st /\ p_cache st' = p_cache st)
      by (intros; apply main_grid_settings).
    destruct (p_over st) as [[f|cx cy size f]|] eqn:Eo.
    - specialize (M (over_factor st)). destruct (main_grid st gs (over_factor st) r) as [[g|e] st']; cbn in *; auto.
    - specialize (M (psf_factor st)). destruct (main_grid st gs (psf_factor st) r) as [[g|e] st']; cbn in *; auto.
      destruct (apply_window _ _ _ _ _ _ _ _ _ _); cbn; auto.
      destruct (p_cache st) eqn:Ec; cbn; auto.
      pose proof (after_write_settings sm st' a) as A. cbn in A. intuition congruence.
    - specialize (M (over_factor st)). destruct (main_grid st gs (over_factor st) r) as [[g|e] st']; cbn in *; auto.
  Qed.

  Lemma compatible_step rotate sm (st : pst T) o : compatible st ->
    (match o with PSetOver VNone | PSetPsf None => p_psf_over st = None | _ => True end) ->
    compatible (snd (pstep rotate sm st o)).
  Proof.
    intros CC H. destruct (CC) as [C1 C2]. destruct o as [xs ys ps pa| v | p | v | v |]; cbn [pstep no_value snd].
    - pose proof (evaluate_settings rotate sm st xs ys ps pa) as (E1 & E2 & E3 & _).
      unfold compatible, over_factor in *. rewrite E1, E2, E3. auto.
    - unfold set_oversample.
      assert (K : forall o f, (match o with OInt f' => f' | OWin _ _ _ f' => f' end) = f ->
        compatible (snd (if (f <=? 0)%Z then (Err ValueError, st)
             else if negb (f mod psf_factor st =? 0)%Z then (Err ValueError, st) else (Ok tt, with_over st (Some o))))).
      { intros o f Ef. destruct (Z.leb_spec f 0); [split; auto|].
        destruct (Z.eqb_spec (f mod psf_factor st) 0); cbn [negb snd]; [|split; auto].
        split; [destruct o; cbn in *; lia|]. cbn [with_over p_psf_over p_psf].
        destruct (p_psf_over st) eqn:Ek; auto. destruct C2 as (D1 & D2 & D3). repeat split; auto.
        unfold psf_factor in *. rewrite Ek in *. destruct o; cbn in *; subst; auto. }
      destruct v as [|z|x|s|l|n|]; cbn [snd]; try (split; assumption).
      + cbn in H. split; cbn; [lia|]. now rewrite H.
      + now apply K.
      + destruct l as [|a [|b [|c [|d [|]]]]]; cbn [snd]; try (split; assumption); destruct c; cbn [snd]; try (split; assumption);
        destruct d; cbn [snd]; try (split; assumption). now apply K.
    - cbn. destruct p as [p|].
      + split; cbn; auto. destruct (p_psf_over st); auto. intuition discriminate.
      + cbn in H. split; cbn; auto. now rewrite H.
    - unfold set_psf_oversample. destruct v as [|z|x|s|l|n|]; cbn [snd];
      [split; cbn; auto| | | | | | ]; destruct (p_psf st) eqn:Ep; cbn [snd]; try (exact CC).
      destruct (Z.leb_spec z 0); [exact CC|].
      destruct (Z.eqb_spec (over_factor st mod z) 0); cbn [negb snd]; [|exact CC].
      split; cbn; auto. rewrite Ep. repeat split; auto. discriminate.
    - destruct v as [[]|]; cbn; split; auto.
    - cbn. split; auto.
  Qed.

  Lemma compatible_run rotate sm h : forall st : pst T, compatible st -> careful rotate sm st h ->
    compatible (prun rotate sm st h).
  Proof.
    induction h as [|o h IH]; intros st C H; [exact C|]. destruct H as [H1 H2]. cbn [prun].
    apply IH; auto. now apply compatible_step.
  Qed.

  Lemma compatible_new psf o k (st : pst T) : new psf o k = Ok st -> compatible st.
  Proof.
    unfold new. intros H.
    assert (C0 : compatible (fst (set_psf (blank (T:=T)) psf))) by (split; cbn; [lia|auto]).
    pose (sm := mksm (T:=T) [] ReturnsX).
    pose proof (compatible_step (fun m _ => m) sm _ (PSetOver o) C0) as S1. cbn [pstep no_value snd] in S1.
    destruct (set_oversample (fst (set_psf blank psf)) o) as [[u|e] st1]; [|discriminate].
    assert (C1 : compatible st1) by (apply S1; destruct o; auto).
    pose proof (compatible_step (fun m _ => m) sm st1 (PSetPsfOver k) C1 I) as S2. cbn [pstep no_value snd] in S2.
    destruct (set_psf_oversample st1 k) as [[u2|e] st2]; [|discriminate]. apply Ok_inj in H. now subst.
  Qed.

  Lemma setters_compatible rotate sm psf o k (st0 : pst T) h :
    new psf o k = Ok st0 -> careful rotate sm st0 h -> compatible (prun rotate sm st0 h).
  Proof. intros H1 H2. apply compatible_run; auto. eapply compatible_new; eauto. Qed.

  (** settings survive everything but their own setter; used for positivity of factors *)
  Lemma factors_positive_step rotate sm (st : pst T) o :
    (0 < over_factor st)%Z -> (0 < psf_factor st)%Z ->
    let st' := snd (pstep rotate sm st o) in (0 < over_factor st')%Z /\ (0 < psf_factor st')%Z.
  Proof.
    intros C1 C2. destruct o as [xs ys ps pa| v | p | v | v |]; cbn [pstep no_value snd].
    - pose proof (evaluate_settings rotate sm st xs ys ps pa) as (E1 & E2 & E3 & _).
      unfold over_factor, psf_factor in *. cbv zeta. rewrite E1, E2. auto.
    - unfold set_oversample. cbv zeta.
      destruct v as [|z|x|s|l|n|]; cbn [snd]; auto.
      + split; cbn; [lia|exact C2].
      + destruct (Z.leb_spec z 0); auto. destruct (negb _); cbn [snd]; auto. 
      + destruct l as [|a [|b [|c [|d [|]]]]]; cbn [snd]; auto; destruct c; cbn [snd]; auto; destruct d; cbn [snd]; auto.
        destruct (Z.leb_spec z0 0); auto. destruct (negb _); cbn [snd]; auto.
    - cbn. auto.
    - unfold set_psf_oversample. cbv zeta. destruct v as [|z|x|s|l|n|]; cbn [snd];
      [split; [exact C1|cbn; lia]| | | | | | ]; destruct (p_psf st) eqn:Ep; cbn [snd]; auto.
      destruct (Z.leb_spec z 0); auto. destruct (negb _); cbn [snd]; auto. 
    - destruct v as [[]|]; cbn; split; auto.
    - cbn. split; auto.
  Qed.

  Lemma factors_positive rotate sm (st : pst T) : reachable rotate sm st ->
    (0 < over_factor st)%Z /\ (0 < psf_factor st)%Z.
  Proof.
    intros (psf & o & k & st0 & h & H & ->).
    apply compatible_new in H. destruct H as [H1 H2].
    assert (H3 : (0 < psf_factor st0)%Z) by (unfold psf_factor; destruct (p_psf_over st0); lia).
    clear H2. revert st0 H1 H3. induction h as [|op h IH]; intros st0 H1 H3; auto.
    cbn [prun]. destruct (factors_positive_step rotate sm st0 op H1 H3). now apply IH.
  Qed.
End Setters.

(** ** Cache *)
Definition cache_ok (st : pst xr) : Prop :=
  (p_cgrid st = None /\ p_crange st = None) \/
  exists x1 x2 y1 y2, p_crange st = Some (x1, x2, y1, y2) /\
    p_cgrid st = Some (make_grid (p_csize st) (x1, y1) (p_cfactor st)).

Lemma xeqb_eq a b : neqb a b = true -> a = b :> xr.
Proof.
  destruct a, b; cbn; try discriminate; auto. unfold Reqb. destruct (Req_EM_T r r0); [|discriminate]. now subst.
Qed.

Lemma main_grid_ok (st : pst xr) gs gf x1 x2 y1 y2 : cache_ok st ->
  fst (main_grid st gs gf (x1, x2, y1, y2)) = Ok (make_grid gs (x1, y1) gf) /\
  cache_ok (snd (main_grid st gs gf (x1, x2, y1, y2))).
Proof.
  intros C. unfold main_grid.
  destruct (((gs =? p_csize st) && (gf =? p_cfactor st))%Z && _) eqn:E; cbn [fst snd].
  - split; auto. apply andb_true_iff in E as [E1 E2]. apply andb_true_iff in E1 as [E0 E1].
    apply Z.eqb_eq in E0, E1. destruct C as [[C1 C2]|(a1 & a2 & b1 & b2 & C1 & C2)].
    + rewrite C2 in E2. discriminate.
    + rewrite C1 in E2. rewrite C2. cbn in E2. rewrite !andb_true_iff in E2. destruct E2 as [[[F1 _] F2] _].
      apply xeqb_eq in F1. apply xeqb_eq in F2. now subst.
  - split; auto. destruct (p_cache st); auto. right. exists x1, x2, y1, y2. cbn. auto.
Qed.

Definition is_fresh {T} (sm : submodel T) : bool := match sm_kind sm with Fresh _ => true | _ => false end.

Lemma after_write_fresh sm (st : pst xr) m : is_fresh sm = true -> after_write sm st m = st.
Proof. unfold is_fresh, after_write. destruct (sm_kind sm); discriminate || auto. Qed.

Lemma evaluate_cache_ok rotate sm (st : pst xr) xs ys ps pa : is_fresh sm = true -> cache_ok st ->
  cache_ok (snd (evaluate rotate sm st xs ys ps pa)).
Proof.
  intros F C. unfold evaluate. cbv zeta. destruct (bind _ _) as [[[[[x1 x2] y1] y2] [is js]]|e]; [|cbn; auto].
  set (gs := (Z.max (zmax is) (zmax js) + 1)%Z).
  pose proof (fun gf => main_grid_ok st gs gf x1 x2 y1 y2 C) as M.
  destruct (p_over st) as [[f|cx cy size f]|].
  - specialize (M (over_factor st)). destruct (main_grid st gs _ _) as [[g|e] st']; cbn in *; tauto.
  - specialize (M (psf_factor st)). destruct (main_grid st gs _ _) as [[g|e] st']; cbn in *; [|tauto].
    destruct (apply_window _ _ _ _ _ _ _ _ _ _); cbn; [|tauto].
    rewrite after_write_fresh by auto. destruct (p_cache st); tauto.
  - specialize (M (over_factor st)). destruct (main_grid st gs _ _) as [[g|e] st']; cbn in *; tauto.
Qed.

Lemma step_cache_ok rotate sm (st : pst xr) o : is_fresh sm = true -> cache_ok st ->
  cache_ok (snd (pstep rotate sm st o)).
Proof.
  intros F C. destruct o as [xs ys ps pa| v | p | v | v |]; cbn [pstep no_value snd].
  - now apply evaluate_cache_ok.
  - unfold set_oversample. cbv zeta. destruct v as [|z|x|s|l|n|]; cbn [snd]; auto.
    + destruct (z <=? 0)%Z; auto. destruct (negb _); cbn [snd]; auto.
    + destruct l as [|a [|b [|c [|d [|]]]]]; cbn [snd]; auto; destruct c; cbn [snd]; auto; destruct d; cbn [snd]; auto.
      destruct (_ <=? 0)%Z; auto. destruct (negb _); cbn [snd]; auto.
  - exact C.
  - unfold set_psf_oversample. destruct v as [|z|x|s|l|n|]; cbn [snd]; auto; destruct (p_psf st); cbn [snd]; auto.
    destruct (z <=? 0)%Z; auto. destruct (negb _); cbn [snd]; auto.
  - destruct v as [[]|]; cbn; auto. left. auto.
  - left. auto.
Qed.

Lemma run_cache_ok rotate sm h : forall st : pst xr, is_fresh sm = true -> cache_ok st ->
  cache_ok (prun rotate sm st h).
Proof. induction h; intros; auto. cbn [prun]. apply IHh; auto. now apply step_cache_ok. Qed.

Lemma new_cache_ok psf o k (st : pst xr) : new psf o k = Ok st -> cache_ok st.
Proof.
  unfold new. intros H.
  pose (sm := mksm (T:=xr) [] (Fresh (fun _ _ _ => NaN))).
  pose proof (step_cache_ok (fun m _ => m) sm (fst (set_psf blank psf)) (PSetOver o) eq_refl) as S1.
  cbn [pstep no_value snd] in S1.
  destruct (set_oversample (fst (set_psf blank psf)) o) as [[u|e] st1]; [|discriminate].
  pose proof (step_cache_ok (fun m _ => m) sm st1 (PSetPsfOver k) eq_refl) as S2. cbn [pstep no_value snd] in S2.
  destruct (set_psf_oversample st1 k) as [[u2|e] st2]; [|discriminate]. apply Ok_inj in H. subst.
  apply S2, S1. left. auto.
Qed.

Lemma reachable_cache_ok rotate sm (st : pst xr) : is_fresh sm = true -> reachable rotate sm st -> cache_ok st.
Proof. intros F (psf & o & k & st0 & h & H & ->). apply run_cache_ok; auto. eapply new_cache_ok; eauto. Qed.

(** the value of an evaluation depends on the settings only *)
Lemma evaluate_same rotate sm (s1 s2 : pst xr) xs ys ps pa : cache_ok s1 -> cache_ok s2 ->
  p_over s1 = p_over s2 -> p_psf_over s1 = p_psf_over s2 -> p_psf s1 = p_psf s2 ->
  fst (evaluate rotate sm s1 xs ys ps pa) = fst (evaluate rotate sm s2 xs ys ps pa).
Proof.
  intros C1 C2 E1 E2 E3. unfold evaluate. cbv zeta.
  destruct (bind _ _) as [[[[[x1 x2] y1] y2] [is js]]|e]; [|reflexivity].
  set (gs := (Z.max (zmax is) (zmax js) + 1)%Z).
  assert (Eo : over_factor s1 = over_factor s2) by (unfold over_factor; now rewrite E1).
  assert (Ep : psf_factor s1 = psf_factor s2) by (unfold psf_factor; now rewrite E2).
  assert (M : forall gf, exists t1 t2, main_grid s1 gs gf (x1, x2, y1, y2) = (Ok (make_grid gs (x1, y1) gf), t1) /\
     main_grid s2 gs gf (x1, x2, y1, y2) = (Ok (make_grid gs (x1, y1) gf), t2) /\
     p_psf t1 = p_psf t2 /\ p_psf_over t1 = p_psf_over t2).
  { intros gf. pose proof (main_grid_ok s1 gs gf x1 x2 y1 y2 C1) as [A1 _].
    pose proof (main_grid_ok s2 gs gf x1 x2 y1 y2 C2) as [A2 _].
    pose proof (main_grid_settings s1 gs gf (x1, x2, y1, y2)) as (_ & B1 & B2 & _).
    pose proof (main_grid_settings s2 gs gf (x1, x2, y1, y2)) as (_ & D1 & D2 & _).
    destruct (main_grid s1 gs gf _) as [r1 t1], (main_grid s2 gs gf _) as [r2 t2]. cbn in *. subst.
    exists t1, t2. repeat split; congruence. }
  assert (Fin : forall (t1 t2 : pst xr) ij m, p_psf t1 = p_psf t2 -> p_psf_over t1 = p_psf_over t2 ->
     finish rotate t1 pa ij m = finish rotate t2 pa ij m).
  { intros t1 t2 ij m K1 K2. unfold finish, psf_factor. now rewrite K1, K2. }
  rewrite E1, <- Eo, <- Ep. destruct (p_over s2) as [[f|cx cy size f]|].
  - destruct (M (over_factor s1)) as (t1 & t2 & -> & -> & K1 & K2). cbn. now apply Fin.
  - destruct (M (psf_factor s1)) as (t1 & t2 & -> & -> & K1 & K2).
    destruct (apply_window _ _ _ _ _ _ _ _ _ _); cbn; auto.
  - destruct (M (over_factor s1)) as (t1 & t2 & -> & -> & K1 & K2). cbn. now apply Fin.
Qed.

Lemma cache_invisible rotate sm (st : pst xr) xs ys ps pa : is_fresh sm = true -> reachable rotate sm st ->
  fst (evaluate rotate sm st xs ys ps pa) = fst (evaluate rotate sm (fresh_object st) xs ys ps pa).
Proof.
  intros F H. apply evaluate_same; auto; [now apply (reachable_cache_ok rotate sm)|left; auto].
Qed.
