(** Proofs about aperture photometry. *)
From Verif Require Import Base Num Numpy M_Utils L_Numpy M_Photometry S_Photometry.

(** ** rounding *)

Lemma Rrint_nearest x : nearest_even x (Rrint x).
Proof.
  pose proof (Int_part_bounds x) as H. unfold nearest_even, Rrint.
  destruct (Rltb_spec (x - IZR (Int_part x)) (1/2)).
  - left. rewrite Rabs_left1 by lra. lra.
  - destruct (Rltb_spec (1/2) (x - IZR (Int_part x))).
    + left. rewrite plus_IZR. rewrite Rabs_pos_eq by lra. lra.
    + destruct (Z.even (Int_part x)) eqn:E.
      * right. split; auto. rewrite Rabs_left1 by lra. lra.
      * right. rewrite plus_IZR. split; [rewrite Rabs_pos_eq by lra; lra|].
        replace (Int_part x + 1)%Z with (Z.succ (Int_part x)) by lia.
        rewrite Z.even_succ, <- Z.negb_even, E. reflexivity.
Qed.

Definition rd6 (x : R) : R := (IZR (Rrint (x * 1000000)) / 1000000)%R.

Lemma nround6_fin x : nround6 (Fin x) = Fin (rd6 x).
Proof.
  unfold nround6. cbn [nofZ XRnum nmul xmul nrint xrint ndiv].
  unfold rd6. rewrite xdiv_fin by lra. reflexivity.
Qed.

Lemma rd6_rounded x : rounded6 x (rd6 x).
Proof. eexists. split; [apply Rrint_nearest|reflexivity]. Qed.

Lemma rounded6_near x y : rounded6 x y -> (Rabs (y - x) <= 5 / 10000000)%R.
Proof.
  intros (z & H & ->).
  replace (IZR z / 1000000 - x)%R with ((IZR z - x * 1000000) / 1000000)%R by (field; lra).
  assert (B : (Rabs (IZR z - x * 1000000) <= 1/2)%R) by (destruct H as [H|[H _]]; lra).
  unfold Rdiv. rewrite Rabs_mult, (Rabs_pos_eq (/ 1000000)) by lra. lra.
Qed.

Lemma nearest_mono x1 x2 z1 z2 : nearest_even x1 z1 -> nearest_even x2 z2 -> (x1 <= x2)%R -> (z1 <= z2)%Z.
Proof.
  intros H1 H2 Hx. apply Znot_gt_le. intros Hz.
  assert (Hz' : (IZR z2 + 1 <= IZR z1)%R) by (rewrite <- plus_IZR; apply IZR_le; lia).
  unfold nearest_even, Rabs in *.
  destruct (Rcase_abs (IZR z1 - x1)), (Rcase_abs (IZR z2 - x2)).
  all: destruct H1 as [H1|[H1 E1]], H2 as [H2|[H2 E2]]; try lra.
  assert (E : (IZR z1 = IZR (z2 + 1))%R) by (rewrite plus_IZR; lra).
  apply eq_IZR in E. subst z1. replace (z2 + 1)%Z with (Z.succ z2) in E1 by lia.
  rewrite Z.even_succ, <- Z.negb_even, E2 in E1. discriminate.
Qed.

Lemma rounded6_mono x1 x2 y1 y2 : rounded6 x1 y1 -> rounded6 x2 y2 -> (x1 <= x2)%R -> (y1 <= y2)%R.
Proof.
  intros (z1 & H1 & ->) (z2 & H2 & ->) Hx.
  assert (z1 <= z2)%Z by (eapply nearest_mono; eauto; lra).
  apply IZR_le in H. lra.
Qed.

(** ** sums *)

Fixpoint rsum (l : list R) : R := match l with [] => 0%R | x :: t => (x + rsum t)%R end.
Lemma rsum_app l m : rsum (l ++ m) = (rsum l + rsum m)%R.
Proof. induction l; cbn; [ring|]. rewrite IHl. ring. Qed.

Lemma fold_add_fin l a : fold_left nadd (map Fin l) (Fin a) = Fin (a + rsum l)%R.
Proof.
  revert a. induction l as [|x l IH]; intros a; cbn [map fold_left rsum].
  - f_equal. ring.
  - cbn [nadd XRnum xadd]. rewrite IH. f_equal. ring.
Qed.
Lemma nsum_fin l : nsum (map Fin l) = Fin (rsum l).
Proof. unfold nsum. cbn [nofZ XRnum]. rewrite fold_add_fin. f_equal. cbn. ring. Qed.

Lemma rsum_seq n f : rsum (map f (seq 0 n)) = sum_to n f.
Proof.
  induction n as [|n IH]; auto. rewrite seq_S, map_app, rsum_app, IH. cbn. ring.
Qed.

Lemma rsum_pixels ny nx f :
  rsum (map (fun p => f (fst p) (snd p)) (pixels ny nx)) = sum2 ny nx f.
Proof.
  unfold pixels, sum2. rewrite <- rsum_seq.
  induction (seq 0 ny) as [|j l IH]; auto. cbn [flat_map map rsum].
  rewrite map_app, rsum_app, IH, map_map. cbn [fst snd]. now rewrite rsum_seq.
Qed.

Lemma rsum_filter {A} (p : A -> bool) (f : A -> R) l :
  rsum (map f (filter p l)) = rsum (map (fun x => if p x then f x else 0%R) l).
Proof. induction l as [|x l IH]; auto. cbn. destruct (p x); cbn; rewrite IH; ring. Qed.

Lemma sum_to_ext n f g : (forall i, i < n -> f i = g i) -> sum_to n f = sum_to n g.
Proof. induction n; intros H; cbn; auto. rewrite IHn, H; auto. Qed.
Lemma sum2_ext ny nx f g : (forall j i, j < ny -> i < nx -> f j i = g j i) -> sum2 ny nx f = sum2 ny nx g.
Proof. intros H. apply sum_to_ext. intros j Hj. apply sum_to_ext. auto. Qed.
Lemma sum_to_le n f g : (forall i, i < n -> (f i <= g i)%R) -> (sum_to n f <= sum_to n g)%R.
Proof. induction n; intros H; cbn; [lra|]. apply Rplus_le_compat; auto. Qed.
Lemma sum2_le ny nx f g : (forall j i, j < ny -> i < nx -> (f j i <= g j i)%R) ->
  (sum2 ny nx f <= sum2 ny nx g)%R.
Proof. intros H. apply sum_to_le. intros j Hj. apply sum_to_le. auto. Qed.
Lemma sum_to_mult n c f : sum_to n (fun i => c * f i)%R = (c * sum_to n f)%R.
Proof. induction n; cbn; [ring|]. rewrite IHn. ring. Qed.
Lemma sum2_mult ny nx c f : sum2 ny nx (fun j i => c * f j i)%R = (c * sum2 ny nx f)%R.
Proof.
  unfold sum2. rewrite <- sum_to_mult. apply sum_to_ext. intros. apply sum_to_mult.
Qed.
Lemma sum_to_add n f g : sum_to n (fun i => f i + g i)%R = (sum_to n f + sum_to n g)%R.
Proof. induction n; cbn; [ring|]. rewrite IHn. ring. Qed.
Lemma sum2_add ny nx f g : sum2 ny nx (fun j i => f j i + g j i)%R = (sum2 ny nx f + sum2 ny nx g)%R.
Proof. unfold sum2. rewrite <- sum_to_add. apply sum_to_ext. intros. apply sum_to_add. Qed.

Lemma weighted_nonneg ny nx w use v : (forall j i, j < ny -> i < nx -> (0 <= v j i)%R) ->
  (0 <= weighted ny nx w use v)%R.
Proof.
  intros H. replace 0%R with (sum2 ny nx (fun _ _ => 0%R)).
  - apply sum2_le. intros j i Hj Hi. destruct (Rltb_spec 0 (w j i)); [|lra].
    destruct (use j i); [|lra]. apply Rmult_le_pos; auto. lra.
  - rewrite (sum2_ext _ _ _ (fun _ _ => (0 * 0)%R)) by (intros; ring).
    rewrite (sum2_mult ny nx 0 (fun _ _ => 0%R)). ring.
Qed.

Lemma weighted_const ny nx w use c :
  weighted ny nx w use (fun _ _ => c) = (c * weighted ny nx w use (fun _ _ => 1))%R.
Proof.
  unfold weighted. rewrite <- sum2_mult. apply sum2_ext. intros j i _ _.
  destruct (Rltb _ _), (use j i); ring.
Qed.

Lemma weighted_linear ny nx w use a b u v :
  weighted ny nx w use (fun j i => a * u j i + b * v j i)%R
  = (a * weighted ny nx w use u + b * weighted ny nx w use v)%R.
Proof.
  unfold weighted. rewrite <- !sum2_mult, <- sum2_add. apply sum2_ext. intros j i _ _.
  destruct (Rltb _ _), (use j i); ring.
Qed.

Lemma weighted_mono ny nx w1 w2 use v :
  (forall j i, j < ny -> i < nx -> (0 <= w1 j i <= w2 j i)%R) ->
  (forall j i, j < ny -> i < nx -> (0 <= v j i)%R) ->
  (weighted ny nx w1 use v <= weighted ny nx w2 use v)%R.
Proof.
  intros Hw Hv. apply sum2_le. intros j i Hj Hi. specialize (Hw j i Hj Hi). specialize (Hv j i Hj Hi).
  destruct (Rltb_spec 0 (w1 j i)), (Rltb_spec 0 (w2 j i)), (use j i); try lra.
  - apply Rmult_le_compat_l; lra.
  - apply Rmult_le_pos; lra.
Qed.

(** ** apertures (C11) *)

Lemma aperture_ok k (pos : xr * xr) r elong theta : (0 < r)%R -> (0 < elong)%R ->
  radial_elliptical_aperture k pos (Fin r) (Fin elong) theta
  = Ok (mkap (fst pos) (snd pos) (Fin r) (Fin (r / elong)) theta).
Proof.
  intros Hr He. unfold radial_elliptical_aperture, fdiv, EllipticalAperture.
  cbn [neqb XRnum n0 nofZ xeqb ndiv nleb xleb]. rewrite xdiv_fin by lra.
  rewrite Reqb_false by lra. assert (0 < r / elong)%R by (apply Rdiv_lt_0_compat; auto).
  destruct k; cbn [bind nleb XRnum xleb n0 nofZ]; rewrite !Rleb_false by lra; reflexivity.
Qed.

Lemma aperture_bad k (pos : xr * xr) r elong theta : (r <= 0)%R -> elong <> 0%R ->
  radial_elliptical_aperture k pos (Fin r) (Fin elong) theta = Err ValueError.
Proof.
  intros Hr He. unfold radial_elliptical_aperture, fdiv, EllipticalAperture.
  cbn [neqb XRnum n0 nofZ xeqb ndiv nleb xleb]. rewrite Reqb_false by lra.
  destruct k; cbn [bind nleb XRnum xleb n0 nofZ]; rewrite Rleb_true by lra; reflexivity.
Qed.

Lemma annulus_ok k (pos : xr * xr) r dr elong theta :
  (0 < r)%R -> (0 < dr)%R -> (0 < elong)%R ->
  radial_elliptical_annulus k pos (Fin r) (Fin dr) (Fin elong) theta
  = Ok (mkan (fst pos) (snd pos) (Fin r) (Fin (r + dr)) (Fin (r / elong)) (Fin ((r + dr) / elong)) theta).
Proof.
  intros Hr Hd He. unfold radial_elliptical_annulus, fdiv, EllipticalAnnulus.
  assert (B1 : (0 < (r + dr) / elong)%R) by (apply Rdiv_lt_0_compat; lra).
  assert (B2 : (0 < r / elong)%R) by (apply Rdiv_lt_0_compat; lra).
  assert (B3 : ((r + dr) / elong * r / (r + dr) = r / elong)%R) by (field; lra).
  cbn [neqb XRnum n0 nofZ xeqb ndiv nadd xadd]. rewrite !xdiv_fin, !Reqb_false by lra.
  destruct k; cbn [bind nltb nleb XRnum xltb xleb n0 nofZ nmul xmul ndiv];
    rewrite Rltb_true, !Rleb_false, xdiv_fin, B3 by lra; cbn [negb orb xleb];
    rewrite ?Rleb_false by lra; reflexivity.
Qed.

Lemma annulus_bad k (pos : xr * xr) r dr elong theta : elong <> 0%R -> (r <= 0 \/ dr <= 0)%R ->
  radial_elliptical_annulus k pos (Fin r) (Fin dr) (Fin elong) theta = Err ValueError.
Proof.
  intros He H. unfold radial_elliptical_annulus, fdiv, EllipticalAnnulus.
  cbn [neqb XRnum n0 nofZ xeqb ndiv nadd xadd]. rewrite !Reqb_false, !xdiv_fin by auto.
  destruct k; cbn [bind nltb nleb XRnum xltb xleb n0 nofZ];
    destruct (Rltb_spec r (r + dr)); cbn [negb]; auto;
    rewrite Rleb_true by lra; reflexivity.
Qed.

(** ** one radius at a time (C12) *)

Section Loop.
  Context {T : Type} {N : Num T}.
  Variable overlap : aperture T -> nat -> nat -> option (nat -> nat -> T).
  Variables (k : flavour) (image : img T) (pos : T * T) (error : option (img T))
            (mask : option (img bool)) (elong theta : T).
  Notation rp rs := (radial_photometry overlap k image pos rs error mask elong theta).

  Lemma mapM_app {A B} (f : A -> result B) l m :
    mapM f (l ++ m) = do x <- mapM f l; do y <- mapM f m; Ok (x ++ y).
  Proof.
    induction l as [|a l IH]; cbn.
    - destruct (mapM f m); reflexivity.
    - destruct (f a); cbn; auto. rewrite IH. destruct (mapM f l); cbn; auto.
      destruct (mapM f m); reflexivity.
  Qed.

  Lemma mapM_nth {A B} (f : A -> result B) l out :
    mapM f l = Ok out <->
    length out = length l /\ forall i a, nth_error l i = Some a -> exists b, f a = Ok b /\ nth_error out i = Some b.
  Proof.
    revert out. induction l as [|a l IH]; intros out; cbn.
    - split; [intros H; injs; split; auto; intros [|]; discriminate|].
      intros [H _]. destruct out; [auto|discriminate].
    - split.
      + intros H. apply bind_Ok in H. destruct H as (b & Eb & H). apply bind_Ok in H.
        destruct H as (bs & Ebs & H). injs. apply IH in Ebs. destruct Ebs as [H1 H2].
        split; [cbn; lia|]. intros [|i] a' E; cbn in *; [injs; eauto|eauto].
      + intros [H1 H2]. destruct out as [|b out]; [discriminate|].
        destruct (H2 0 a eq_refl) as (b' & Eb & E). cbn in E. injs. rewrite Eb. cbn.
        assert (Em : mapM f l = Ok out).
        { apply IH. split; [cbn in H1; lia|]. intros i a' E. apply (H2 (S i) a' E). }
        rewrite Em. reflexivity.
  Qed.

  Lemma mapM_Err {A B} (f : A -> result B) l e :
    mapM f l = Err e <->
    exists i a, nth_error l i = Some a /\ f a = Err e /\
      forall j b, j < i -> nth_error l j = Some b -> is_ok (f b) = true.
  Proof.
    induction l as [|a l IH]; cbn.
    - split; [discriminate|]. intros ([|i] & a & H & _); discriminate.
    - destruct (f a) as [b|e'] eqn:Ef; cbn.
      + destruct (mapM f l) as [bs|e'']; cbn.
        * split; [discriminate|]. intros ([|i] & a' & H & H1 & H2); cbn in H; [injs; congruence|].
          destruct IH as [_ IH]. assert (@Ok (list B) bs = Err e) by (apply IH; exists i, a'; repeat split; auto;
            intros j b' Hj Hb; apply (H2 (S j) b'); auto; lia). discriminate.
        * split.
          -- intros H. assert (H0 : @Err (list B) e'' = Err e) by congruence. destruct (proj1 IH H0) as (i & a' & H1 & H2 & H3).
             exists (S i), a'. repeat split; auto. intros [|j] b' Hj Hb; cbn in Hb; [injs; now rewrite Ef|].
             apply (H3 j b'); auto. lia.
          -- intros ([|i] & a' & H & H1 & H2); cbn in H; [injs; congruence|]. apply IH.
             exists i, a'. repeat split; auto. intros j b' Hj Hb. apply (H2 (S j) b'); auto. lia.
      + split.
        * intros H. exists 0, a. split; [auto|split; [congruence|]]. intros j b Hj. lia.
        * intros ([|i] & a' & H & H1 & H2); cbn in H; [injs; congruence|].
          specialize (H2 0 a ltac:(lia) eq_refl). rewrite Ef in H2. discriminate.
  Qed.

  Lemma rp_one r :
    rp [r] = match one_radius overlap k image pos error (option_map invert mask) elong theta r with
             | Err e => Err e
             | Ok t => Ok ([fst (fst t)], [snd (fst t)], [snd t])
             end.
  Proof.
    unfold radial_photometry. cbn [mapM]. destruct (one_radius _ _ _ _ _ _ _ _ _); reflexivity.
  Qed.

  Lemma rp_Ok rs F A E :
    rp rs = Ok (F, A, E) <->
    length F = length rs /\ length A = length rs /\ length E = length rs /\
    forall i r, nth_error rs i = Some r ->
      exists f a e, rp [r] = Ok ([f], [a], [e]) /\
        nth_error F i = Some f /\ nth_error A i = Some a /\ nth_error E i = Some e.
  Proof.
    unfold radial_photometry at 1. split.
    - intros H. apply bind_Ok in H. destruct H as (l & El & H). injection H as <- <- <-.
      apply mapM_nth in El. destruct El as [Hl H]. rewrite !map_length. repeat split; auto.
      intros i r Hr. destruct (H i r Hr) as (t & Et & Hn). rewrite rp_one, Et.
      exists (fst (fst t)), (snd (fst t)), (snd t). rewrite !nth_error_map, Hn. auto.
    - intros (HF & HA & HE & H).
      set (ts := map2 (fun fa e => (fa, e)) (map2 pair F A) E).
      assert (M : mapM (one_radius overlap k image pos error (option_map invert mask) elong theta) rs = Ok ts).
      { apply mapM_nth. unfold ts. rewrite !length_map2. split; [lia|].
        intros i r Hr. destruct (H i r Hr) as (f & a & e & E1 & E2 & E3 & E4).
        rewrite rp_one in E1. destruct (one_radius _ _ _ _ _ _ _ _ r) as [[[f' a'] e']|]; [|discriminate].
        cbn in E1. injection E1 as -> -> ->. eexists. split; [reflexivity|].
        now rewrite !nth_error_map2, E2, E3, E4. }
      rewrite M. cbn [bind]. do 2 f_equal; [f_equal|]; apply nth_error_ext; intros i; rewrite nth_error_map; unfold ts;
        rewrite !nth_error_map2;
        (destruct (nth_error F i) eqn:E1, (nth_error A i) eqn:E2, (nth_error E i) eqn:E3; cbn; auto;
         exfalso;
         repeat match goal with
         | H : nth_error _ i = Some _ |- _ =>
             let K := fresh in assert (K := proj1 (nth_error_Some _ i) ltac:(rewrite H; discriminate)); clear H
         | H : nth_error _ i = None |- _ => apply nth_error_None in H
         end; lia).
  Qed.

  Lemma rp_Err rs e :
    rp rs = Err e <->
    exists i r, nth_error rs i = Some r /\ rp [r] = Err e /\
      forall j r', j < i -> nth_error rs j = Some r' -> is_ok (rp [r']) = true.
  Proof.
    unfold radial_photometry at 1.
    assert (Hone : forall r, (is_ok (rp [r]) = true <-> is_ok (one_radius overlap k image pos error (option_map invert mask) elong theta r) = true)).
    { intros r. rewrite rp_one. destruct (one_radius _ _ _ _ _ _ _ _ _); cbn; tauto. }
    assert (HoneE : forall r, (rp [r] = Err e <-> one_radius overlap k image pos error (option_map invert mask) elong theta r = Err e)).
    { intros r. rewrite rp_one. destruct (one_radius _ _ _ _ _ _ _ _ _); split; congruence. }
    assert (X : forall m : result (list (T * T * T)),
      (do l <- m; Ok (map (fun t => fst (fst t)) l, map (fun t => snd (fst t)) l, map snd l)) = Err e <-> m = Err e).
    { intros [x|x]; cbn; split; congruence. }
    rewrite X, mapM_Err. split; intros (i & r & H1 & H2 & H3); exists i, r; repeat split; auto.
    - now apply HoneE.
    - intros j r' Hj Hr. apply Hone. eauto.
    - now apply HoneE.
    - intros j r' Hj Hr. apply Hone. eauto.
  Qed.
End Loop.

(** ** masked pixels have no influence (C13) *)

Section Mask.
  Context {T : Type} {N : Num T}.
  Variable overlap : aperture T -> nat -> nat -> option (nat -> nat -> T).

  Lemma in_pixels ny nx j i : In (j, i) (pixels ny nx) <-> j < ny /\ i < nx.
  Proof.
    unfold pixels. rewrite in_flat_map. split.
    - intros (j' & Hj & Hi). apply in_map_iff in Hi. destruct Hi as (i' & E & Hi). injection E as <- <-.
      apply in_seq in Hj. apply in_seq in Hi. lia.
    - intros [Hj Hi]. exists j. split; [apply in_seq; lia|]. apply in_map_iff.
      exists i. split; auto. apply in_seq. lia.
  Qed.

  Lemma phot_agree ap m a b ea eb : agree m a b ->
    match ea, eb with
    | None, None => True
    | Some x, Some y => agree m x y /\ iny x = iny a /\ inx x = inx a
    | _, _ => False
    end ->
    do_photometry overlap ap a ea (Some (invert m)) = do_photometry overlap ap b eb (Some (invert m)).
  Proof.
    intros (Hy & Hx & Hp) He. unfold do_photometry, same_shape.
    rewrite <- Hy, <- Hx.
    assert (S : (match ea with None => true | Some e => (iny e =? iny a) && (inx e =? inx a) end)
              = (match eb with None => true | Some e => (iny e =? iny a) && (inx e =? inx a) end)%bool).
    { destruct ea, eb; try tauto. destruct He as ((E1 & E2 & _) & _). now rewrite E1, E2. }
    rewrite S. destruct (match eb with None => _ | Some _ => _ end); auto.
    destruct ((iny (invert m) =? iny a) && (inx (invert m) =? inx a))%bool; auto.
    destruct (overlap ap (iny a) (inx a)) as [w|]; auto.
    set (l := filter _ _).
    assert (Hl : forall p, In p l -> fst p < iny a /\ snd p < inx a /\ px m (fst p) (snd p) = true).
    { intros [j i] Hin. apply filter_In in Hin. destruct Hin as [H1 H2]. apply in_pixels in H1.
      apply andb_true_iff in H2. destruct H2 as [_ H2]. cbn in *. rewrite negb_involutive in H2. tauto. }
    f_equal. f_equal.
    - f_equal. apply map_ext_in. intros p Hin. destruct (Hl p Hin) as (H1 & H2 & H3). now rewrite Hp.
    - destruct ea as [x|], eb as [y|]; try tauto. destruct He as ((E1 & E2 & E3) & E4 & E5).
      do 2 f_equal. f_equal. apply map_ext_in. intros p Hin. destruct (Hl p Hin) as (H1 & H2 & H3).
      rewrite E3; auto; lia.
  Qed.

  Lemma rp_agree k pos rs m a b ea eb elong theta : agree m a b ->
    match ea, eb with
    | None, None => True
    | Some x, Some y => agree m x y /\ iny x = iny a /\ inx x = inx a
    | _, _ => False
    end ->
    radial_photometry overlap k a pos rs ea (Some m) elong theta
    = radial_photometry overlap k b pos rs eb (Some m) elong theta.
  Proof.
    intros Hab He. unfold radial_photometry. f_equal.
    induction rs as [|r rs IH]; cbn [mapM]; auto. rewrite IH. f_equal.
    unfold one_radius. cbn [option_map].
    destruct (radial_elliptical_aperture _ _ _ _ _) as [ap|]; cbn [bind]; auto.
    rewrite (phot_agree ap m a b ea eb Hab He).
    rewrite (phot_agree ap m (ones_like a) (ones_like b) None None); auto.
    destruct Hab as (H1 & H2 & _). repeat split; cbn; auto.
  Qed.
End Mask.

(** ** values (C12, C14) *)

Section Values.
  Variable overlap : aperture xr -> nat -> nat -> option (nat -> nat -> xr).

  Lemma total_fin ny nx w (wr : nat -> nat -> R) mask f v :
    (forall j i, j < ny -> i < nx -> w j i = Fin (wr j i)) ->
    (forall j i, j < ny -> i < nx -> (0 < wr j i)%R -> selects mask j i = true -> f j i = Fin (v j i)) ->
    nsum (map (fun p => nmul (f (fst p) (snd p)) (w (fst p) (snd p)))
       (filter (used w (option_map invert mask)) (pixels ny nx)))
    = Fin (weighted ny nx wr (selects mask) v).
  Proof.
    intros Hw Hf.
    rewrite (map_ext_in _ (fun p => Fin (v (fst p) (snd p) * wr (fst p) (snd p)))).
    - rewrite <- (map_map (fun p => (v (fst p) (snd p) * wr (fst p) (snd p))%R) Fin), nsum_fin.
      f_equal. unfold weighted. rewrite rsum_filter. rewrite <- (rsum_pixels ny nx (fun j i => if Rltb 0 (wr j i) then if selects mask j i then v j i * wr j i else 0 else 0)%R).
      f_equal. apply map_ext_in. intros [j i] Hin. apply in_pixels in Hin. cbn [fst snd].
      unfold used. cbn [fst snd]. rewrite Hw by tauto. cbn [nltb XRnum n0 nofZ xltb].
      destruct (Rltb 0 (wr j i)); cbn [andb]; auto.
      unfold selects. destruct mask as [m|]; cbn; auto. now rewrite negb_involutive.
    - intros [j i] Hin. apply filter_In in Hin. destruct Hin as [H1 H2]. apply in_pixels in H1.
      unfold used in H2. cbn [fst snd] in *. apply andb_true_iff in H2. destruct H2 as [H2 H3].
      rewrite Hw in * by tauto. cbn [nltb XRnum n0 nofZ xltb] in H2. apply Rltb_iff in H2.
      rewrite Hf; try tauto; auto.
      unfold selects. destruct mask as [m|]; auto. cbn in H3. now rewrite negb_involutive in H3.
  Qed.

  Lemma fits_shape {A} (m : option (img A)) (image : img xr) : fits m image ->
    match m with None => true | Some m => same_shape m image end = true.
  Proof.
    destruct m; cbn; auto. intros [H1 H2]. unfold same_shape. now rewrite H1, H2, !Nat.eqb_refl.
  Qed.

  Lemma fits_invert (m : option (img bool)) (image : img xr) : fits m image -> fits (option_map invert m) image.
  Proof. destruct m; cbn; auto. Qed.

  (** a radius inside: rounded exact sums *)
  Lemma rp_value k image v x y r error mask elong theta wr w :
    (0 < r)%R -> (0 < elong)%R -> fits error image -> fits mask image ->
    overlap (mkap x y (Fin r) (Fin (r / elong)) theta) (iny image) (inx image) = Some w ->
    (forall j i, j < iny image -> i < inx image -> w j i = Fin (wr j i)) ->
    (forall j i, j < iny image -> i < inx image -> (0 < wr j i)%R -> selects mask j i = true ->
       px image j i = Fin (v j i)) ->
    (forall e, error = Some e -> exists ev, finite_img e ev) ->
    exists f a e,
      radial_photometry overlap k image (x, y) [Fin r] error mask (Fin elong) theta
        = Ok ([Fin f], [Fin a], [e]) /\
      rounded6 (weighted (iny image) (inx image) wr (selects mask) v) f /\
      rounded6 (weighted (iny image) (inx image) wr (selects mask) (fun _ _ => 1%R)) a /\
      (error = None -> e = NaN) /\
      (forall em ev, error = Some em -> finite_img em ev ->
         exists s, e = Fin s /\
           rounded6 (sqrt (weighted (iny image) (inx image) wr (selects mask) (fun j i => ev j i * ev j i)%R)) s).
  Proof.
    intros Hr He Fe Fm Ho Hw Hv Hev. rewrite rp_one. unfold one_radius.
    rewrite aperture_ok by auto. cbn [bind fst snd]. unfold do_photometry.
    rewrite (fits_shape _ _ Fe), (fits_shape _ _ (fits_invert _ _ Fm)).
    cbn [iny inx ones_like]. change (match option_map invert mask with None => true | Some m => same_shape m (ones_like image) end)
      with (match option_map invert mask with None => true | Some m => same_shape m image end).
    rewrite (fits_shape _ _ (fits_invert _ _ Fm)), Ho. cbn [bind fst snd].
    rewrite (total_fin _ _ w wr mask (px image) v Hw Hv).
    rewrite (total_fin _ _ w wr mask (px (ones_like image)) (fun _ _ => 1%R) Hw) by reflexivity.
    rewrite !nround6_fin. cbn [nisnan XRnum xisnan].
    destruct error as [em|].
    - destruct (Hev em eq_refl) as [ev Hfe]. destruct Fe as [Fe1 Fe2].
      rewrite (total_fin _ _ w wr mask (fun j i => nmul (px em j i) (px em j i)) (fun j i => ev j i * ev j i)%R Hw).
      2:{ intros j i Hj Hi _ _. rewrite Hfe by lia. reflexivity. }
      assert (Hnn : forall ev', (0 <= weighted (iny image) (inx image) wr (selects mask) (fun j i => ev' j i * ev' j i))%R).
      { intros ev'. apply weighted_nonneg. intros. apply Rle_0_sqr. }
      cbn [nsqrt XRnum]. rewrite xsqrt_fin, nround6_fin by apply Hnn.
      eexists _, _, _. split; [reflexivity|]. split; [apply rd6_rounded|]. split; [apply rd6_rounded|].
      split; [discriminate|]. intros em' ev' E Hfe'. injection E as <-.
      eexists. split; [reflexivity|].
      replace (weighted (iny image) (inx image) wr (selects mask) (fun j i => ev' j i * ev' j i)%R)
        with (weighted (iny image) (inx image) wr (selects mask) (fun j i => ev j i * ev j i)%R); [apply rd6_rounded|].
      apply sum2_ext. intros j i Hj Hi.
      assert (E : Fin (ev' j i) = Fin (ev j i)) by (rewrite <- Hfe, <- Hfe' by lia; reflexivity).
      injection E as ->. reflexivity.
    - eexists _, _, _. split; [reflexivity|]. split; [apply rd6_rounded|]. split; [apply rd6_rounded|].
      split; auto. discriminate.
  Qed.

  (** no overlap, or a NaN among the summed pixels: the generic exception *)
  Lemma fold_add_nan (l : list xr) : fold_left nadd l (NaN : xr) = NaN.
  Proof. induction l; cbn; auto. Qed.
  Lemma nsum_nan (l : list xr) : In NaN l -> nsum l = NaN.
  Proof.
    unfold nsum. generalize (nofZ 0 : xr). induction l as [|x l IH]; intros a H; [destruct H|].
    cbn. destruct H as [->|H]; [|apply IH; auto].
    replace (xadd a NaN) with (NaN : xr) by (destruct a; reflexivity). apply fold_add_nan.
  Qed.

  Lemma rp_nan k image x y r error mask elong theta :
    (0 < r)%R -> (0 < elong)%R -> fits error image -> fits mask image ->
    overlap (mkap x y (Fin r) (Fin (r / elong)) theta) (iny image) (inx image) = None \/
    (exists w j i, overlap (mkap x y (Fin r) (Fin (r / elong)) theta) (iny image) (inx image) = Some w /\
       j < iny image /\ i < inx image /\ xlt (Fin 0) (w j i) /\ selects mask j i = true /\ px image j i = NaN) ->
    radial_photometry overlap k image (x, y) [Fin r] error mask (Fin elong) theta = Err GenericException.
  Proof.
    intros Hr He Fe Fm H. rewrite rp_one. unfold one_radius.
    rewrite aperture_ok by auto. cbn [bind fst snd]. unfold do_photometry.
    rewrite (fits_shape _ _ Fe), (fits_shape _ _ (fits_invert _ _ Fm)).
    cbn [iny inx ones_like]. change (match option_map invert mask with None => true | Some m => same_shape m (ones_like image) end)
      with (match option_map invert mask with None => true | Some m => same_shape m image end).
    rewrite (fits_shape _ _ (fits_invert _ _ Fm)).
    destruct H as [->|(w & j & i & -> & Hj & Hi & Hw & Hs & Hn)]; [reflexivity|]. cbn [bind fst snd].
    assert (E : nsum (map (fun p => nmul (px image (fst p) (snd p)) (w (fst p) (snd p)))
      (filter (used w (option_map invert mask)) (pixels (iny image) (inx image)))) = NaN).
    { apply nsum_nan. apply in_map_iff. exists (j, i). split.
      - cbn [fst snd]. rewrite Hn. reflexivity.
      - apply filter_In. split; [now apply in_pixels|]. unfold used. cbn [fst snd].
        unfold xlt in Hw. cbn [nltb XRnum n0 nofZ]. rewrite Hw. cbn.
        unfold selects in Hs. destruct mask; cbn; auto. now rewrite Hs. }
    rewrite E. reflexivity.
  Qed.
End Values.

(** ** the 'center' method: apertures are nested *)

Lemma in_ellipse_mono a1 a2 b1 b2 t dx dy : (0 < a1 <= a2)%R -> (0 < b1 <= b2)%R ->
  in_ellipse a1 b1 t dx dy = true -> in_ellipse a2 b2 t dx dy = true.
Proof.
  intros Ha Hb. unfold in_ellipse. rewrite !Rltb_iff.
  set (u := (dx * cos t + dy * sin t)%R). set (v := (- dx * sin t + dy * cos t)%R). intros H.
  assert (G : forall x p q, (0 < p <= q)%R -> (x / q * (x / q) <= x / p * (x / p))%R).
  { intros x p q Hpq. replace (x / q * (x / q))%R with (x * x * (/ q * / q))%R by (field; lra).
    replace (x / p * (x / p))%R with (x * x * (/ p * / p))%R by (field; lra).
    apply Rmult_le_compat_l; [apply Rle_0_sqr|].
    assert (/ q <= / p)%R by (apply Rinv_le_contravar; lra).
    assert (0 < / q)%R by (apply Rinv_0_lt_compat; lra).
    apply Rmult_le_compat; lra. }
  pose proof (G u a1 a2 Ha). pose proof (G v b1 b2 Hb). lra.
Qed.

Lemma extent_mono p1 p2 q1 q2 c s : (0 < p1 <= p2)%R -> (0 < q1 <= q2)%R ->
  (sqrt (p1 * c * (p1 * c) + q1 * s * (q1 * s)) <= sqrt (p2 * c * (p2 * c) + q2 * s * (q2 * s)))%R.
Proof.
  intros Hp Hq. apply sqrt_le_1_alt. apply Rplus_le_compat.
  - replace (p1 * c * (p1 * c))%R with (c * c * (p1 * p1))%R by ring.
    replace (p2 * c * (p2 * c))%R with (c * c * (p2 * p2))%R by ring.
    apply Rmult_le_compat_l; [apply Rle_0_sqr|]. apply Rmult_le_compat; lra.
  - replace (q1 * s * (q1 * s))%R with (s * s * (q1 * q1))%R by ring.
    replace (q2 * s * (q2 * s))%R with (s * s * (q2 * q2))%R by ring.
    apply Rmult_le_compat_l; [apply Rle_0_sqr|]. apply Rmult_le_compat; lra.
Qed.

Lemma Int_part_mono x y : (x <= y)%R -> (Int_part x <= Int_part y)%Z.
Proof.
  intros H. pose proof (Int_part_bounds x). pose proof (Int_part_bounds y).
  assert (IZR (Int_part x) < IZR (Int_part y + 1))%R by (rewrite plus_IZR; lra).
  apply lt_IZR in H2. lia.
Qed.

Lemma center_nested x y a1 a2 b1 b2 t ny nx w1 : (0 < a1 <= a2)%R -> (0 < b1 <= b2)%R ->
  center_overlap (mkap (Fin x) (Fin y) (Fin a1) (Fin b1) (Fin t)) ny nx = Some w1 ->
  exists w2 r1 r2, center_overlap (mkap (Fin x) (Fin y) (Fin a2) (Fin b2) (Fin t)) ny nx = Some w2 /\
    (forall j i, w1 j i = Fin (r1 j i) /\ w2 j i = Fin (r2 j i) /\ (0 <= r1 j i <= r2 j i)%R /\ (r2 j i <= 1)%R).
Proof.
  intros Ha Hb H. unfold center_overlap in *.
  assert (EX : (extent_x a1 b1 t <= extent_x a2 b2 t)%R) by (apply extent_mono; auto).
  assert (EY : (extent_y a1 b1 t <= extent_y a2 b2 t)%R) by (apply extent_mono; auto).
  match type of H with (if ?c then _ else _) = _ => destruct c eqn:C; [discriminate|] end.
  apply orb_false_iff in C. destruct C as [C C4]. apply orb_false_iff in C. destruct C as [C C3].
  apply orb_false_iff in C. destruct C as [C1 C2].
  apply Z.leb_gt in C1. apply Z.leb_gt in C2. apply Z.leb_gt in C3. apply Z.leb_gt in C4.
  unfold Rfloor, Rceil in *.
  assert (M1 := Int_part_mono (x - extent_x a2 b2 t + 1/2) (x - extent_x a1 b1 t + 1/2) ltac:(lra)).
  assert (M2 := Int_part_mono (y - extent_y a2 b2 t + 1/2) (y - extent_y a1 b1 t + 1/2) ltac:(lra)).
  assert (M3 := Int_part_mono (- (x + extent_x a2 b2 t + 1/2)) (- (x + extent_x a1 b1 t + 1/2)) ltac:(lra)).
  assert (M4 := Int_part_mono (- (y + extent_y a2 b2 t + 1/2)) (- (y + extent_y a1 b1 t + 1/2)) ltac:(lra)).
  match goal with |- context [if ?c then None else _] => assert (C : c = false) end.
  { rewrite !orb_false_iff, !Z.leb_gt. lia. }
  rewrite C. injection H as <-.
  eexists _, (fun j i => if in_ellipse a1 b1 t (INR i - x) (INR j - y) then 1%R else 0%R),
    (fun j i => if in_ellipse a2 b2 t (INR i - x) (INR j - y) then 1%R else 0%R).
  split; [reflexivity|]. intros j i.
  pose proof (in_ellipse_mono a1 a2 b1 b2 t (INR i - x) (INR j - y) Ha Hb) as M.
  destruct (in_ellipse a1 b1 t _ _), (in_ellipse a2 b2 t _ _); repeat split; auto; try lra.
Qed.
