(** Cubic interpolation in other units, and its reaction to errors of the samples. *)
From Verif Require Import Base Num Numpy M_Petrosian M_Interp M_Cubic S_Petrosian S_Conv S_PetObj S_Zoom S_Noise S_Robust S_Cubic
  L_Numpy L_PetObj L_Zoom E_Petrosian E_Zoom L_Cubic L_Cubic2.
Local Open Scope R_scope.

Lemma sc_comp c d x : 0 < c -> 0 < d -> scale c (scale d x) = scale (c * d) x.
Proof.
  intros Hc Hd. assert (Hcd : 0 < c * d) by nra.
  destruct x; rewrite ?scale_nan, ?scale_fin, ?(scale_inf d Hd), ?(scale_inf _ Hcd), ?(scale_inf c Hc),
    ?(scale_ninf d Hd), ?(scale_ninf _ Hcd), ?(scale_ninf c Hc); auto. unfold scale, xmul. f_equal. ring.
Qed.
Lemma hom_mul c d a b : 0 < c -> 0 < d -> xmul (scale c a) (scale d b) = scale (c * d) (xmul a b).
Proof. intros Hc Hd. rewrite (sc_mulr c Hc), (sc_mull d Hd). now apply sc_comp. Qed.
Lemma hom_div c d a b : 0 < c -> 0 < d -> xdiv (scale c a) (scale d b) = scale (c / d) (xdiv a b).
Proof. intros Hc Hd. rewrite (sc_divl c Hc), (sc_divr d Hd). apply sc_comp; auto. now apply Rinv_0_lt_compat. Qed.

Section Hom.
  Variables c s : R.
  Hypotheses (Hc : 0 < c) (Hs : 0 < s).
  Let al := c.
  Let be := s / c.
  Let ga := s / c / c.
  Lemma be_pos : 0 < be. Proof. now apply Rdiv_lt_0_compat. Qed.
  Lemma ga_pos : 0 < ga. Proof. apply Rdiv_lt_0_compat; auto. exact be_pos. Qed.

  Definition sc_row (r : xr * xr * xr * xr) : xr * xr * xr * xr :=
    let '(a, b, e, d) := r in (scale c a, scale c b, scale c e, scale be d).

  Lemma thomas_hom rows : forall cp dp, thomas cp (scale ga dp) (map sc_row rows) = map (scale ga) (thomas cp dp rows).
  Proof.
    pose proof be_pos as Hb. pose proof ga_pos as Hg.
    induction rows as [|[[[a b] e] d] rows IH]; intros cp dp; [reflexivity|].
    cbn [map sc_row thomas]. cbn [nsub nmul ndiv XRnum].
    assert (D : xsub (scale c b) (xmul (scale c a) cp) = scale c (xsub b (xmul a cp))) by now rewrite (sc_mulr c Hc), (sc_sub c Hc).
    assert (Q : xdiv (xsub (scale be d) (xmul (scale c a) (scale ga dp))) (scale c (xsub b (xmul a cp)))
                = scale ga (xdiv (xsub d (xmul a dp)) (xsub b (xmul a cp)))).
    { rewrite (hom_mul c ga) by auto. replace (c * ga) with be by (unfold be, ga; field; lra).
      rewrite (sc_sub be Hb), (hom_div be c) by auto. reflexivity. }
    rewrite D, Q, (sc_div c Hc), IH.
    assert (E : hd n0 (map (scale ga) (thomas (xdiv e (xsub b (xmul a cp))) (xdiv (xsub d (xmul a dp)) (xsub b (xmul a cp))) rows))
      = scale ga (hd n0 (thomas (xdiv e (xsub b (xmul a cp))) (xdiv (xsub d (xmul a dp)) (xsub b (xmul a cp))) rows))).
    { destruct (thomas _ _ rows); cbn [hd map]; [symmetry; apply sc_zero|reflexivity]. }
    rewrite E, (sc_mull ga Hg), (sc_sub ga Hg). reflexivity.
  Qed.

  Lemma nth_hom k i l : nth i (map (scale k) l) nnan = scale k (nth i l nnan).
  Proof. change (nnan : xr) with (scale k nnan) at 1. apply map_nth. Qed.
  Lemma step_hom k l i : 0 < k -> step_at (map (scale k) l) i = scale k (step_at l i).
  Proof. intros Hk. unfold step_at. rewrite !nth_hom. apply (sc_sub k Hk). Qed.

  Lemma row_hom xs ys i : spline_row (map (scale c) xs) (map (scale s) ys) i = sc_row (spline_row xs ys i).
  Proof.
    pose proof be_pos as Hb.
    unfold spline_row. rewrite map_length, !(step_hom c) by auto. rewrite !(step_hom s) by auto.
    set (h0 := step_at xs i). set (h1 := step_at xs (S i)). set (y0 := step_at ys i). set (y1 := step_at ys (S i)).
    cbn [nsub nmul ndiv nadd XRnum]. rewrite !(hom_div s c) by auto. rewrite !(sc_div c Hc). fold be.
    rewrite !(sc_add c Hc), (sc_sub be Hb), (sc_mull be Hb), !(sc_mulr c Hc), !(sc_mull c Hc).
    assert (Z : scale c n0 = n0) by apply sc_zero.
    destruct (Nat.eqb i 0); [|destruct (Nat.eqb i (length xs - 3))]; cbn [sc_row]; rewrite ?Z; reflexivity.
  Qed.

  Lemma curvatures_hom xs ys : spline_curvatures (map (scale c) xs) (map (scale s) ys) = map (scale ga) (spline_curvatures xs ys).
  Proof.
    pose proof ga_pos as Hg.
    unfold spline_curvatures. rewrite map_length. cbv beta zeta.
    assert (R : map (spline_row (map (scale c) xs) (map (scale s) ys)) (seq 0 (length xs - 2))
      = map sc_row (map (spline_row xs ys) (seq 0 (length xs - 2)))).
    { rewrite map_map. apply map_ext. intros i. apply row_hom. }
    assert (T : forall rows, thomas n0 n0 (map sc_row rows) = map (scale ga) (thomas n0 n0 rows)).
    { intros rows. rewrite <- thomas_hom. f_equal. symmetry. apply sc_zero. }
    rewrite R, T. set (ms := thomas n0 n0 _). cbn [map]. rewrite map_app. cbn [map]. rewrite !nth_hom, !(step_hom c) by auto.
    cbn [nsub nmul ndiv nadd XRnum]. rewrite !(sc_div c Hc), !(sc_sub ga Hg), !(sc_mull ga Hg), !(sc_add ga Hg). reflexivity.
  Qed.

  Lemma piece_hom x0 x1 y0 y1 c0 c1 q :
    spline_piece (scale c x0) (scale c x1) (scale s y0) (scale s y1) (scale ga c0) (scale ga c1) (scale c q)
    = scale s (spline_piece x0 x1 y0 y1 c0 c1 q).
  Proof.
    pose proof ga_pos as Hg. pose proof be_pos as Hb.
    assert (Hcc : 0 < c * c) by nra. assert (Hccc : 0 < c * c * c) by nra.
    assert (Hgc : 0 < ga / c) by now apply Rdiv_lt_0_compat.
    unfold spline_piece. cbn [nsub nmul ndiv nadd XRnum].
    rewrite !(sc_sub c Hc), !(sc_sub s Hs), !(sc_sub ga Hg).
    set (h := xsub x1 x0). set (t := xsub q x0). set (dy := xsub y1 y0). set (dc := xsub c1 c0).
    rewrite !(hom_mul c c), !(hom_mul (c * c) c), (hom_mul ga (c * c)) by auto.
    rewrite (sc_mull c Hc (nofZ 3) h), (hom_div ga c), (hom_mul (ga / c) (c * c * c)) by auto.
    rewrite (sc_mull ga Hg n2 c0), (sc_add ga Hg), (hom_mul c ga), (hom_div s c) by auto.
    replace (c * ga) with be by (unfold be, ga; field; lra).
    rewrite (sc_divl be Hb). fold be. rewrite (sc_sub be Hb), (hom_mul be c) by auto.
    replace (ga * (c * c)) with s by (unfold ga; field; lra).
    replace (ga / c * (c * c * c)) with s by (unfold ga; field; lra).
    replace (be * c) with s by (unfold be; field; lra).
    rewrite !(sc_add s Hs). reflexivity.
  Qed.

  Lemma cubic_at_hom xs : forall ys cs q,
    cubic_at (map (scale c) xs) (map (scale s) ys) (map (scale ga) cs) (scale c q) = scale s (cubic_at xs ys cs q).
  Proof.
    induction xs as [|x0 [|x1 xs] IH]; intros ys cs q; [reflexivity|reflexivity|].
    destruct ys as [|y0 [|y1 ys]]; [reflexivity|reflexivity|].
    destruct cs as [|c0 [|c1 cs]]; [reflexivity|reflexivity|].
    cbn [map]. cbn [map] in IH. cbn [cubic_at]. rewrite piece_hom. cbn [nleb XRnum]. rewrite (sc_leb c Hc).
    destruct (xleb q x1); auto. destruct xs as [|x2 xs]; auto. apply (IH (y1 :: ys) (c1 :: cs)).
  Qed.

  (** in units [c] and [s] times smaller the curve is the same *)
  Theorem interp_cubic_hom xs ys :
    match interp_cubic xs ys with
    | Err e => interp_cubic (map (scale c) xs) (map (scale s) ys) = Err e
    | Ok f => exists g, interp_cubic (map (scale c) xs) (map (scale s) ys) = Ok g /\ forall q, g (scale c q) = scale s (f q)
    end.
  Proof.
    unfold interp_cubic. rewrite !map_length. destruct (Nat.eqb _ _); auto. destruct (Nat.ltb _ _); auto.
    eexists. split; [reflexivity|]. intros q. rewrite curvatures_hom. apply cubic_at_hom.
  Qed.
End Hom.

Lemma scale_one x : scale 1 x = x.
Proof. destruct x; rewrite ?scale_nan, ?scale_fin, ?(scale_inf 1 Rlt_0_1), ?(scale_ninf 1 Rlt_0_1); auto. f_equal. ring. Qed.
Lemma map_scale_one l : map (scale 1) l = l.
Proof. rewrite <- (map_id l) at 2. apply map_ext. apply scale_one. Qed.

Theorem cubic_scale : scale_equivariant mk_cubic.
Proof.
  assert (P : forall c xs ys, 0 < c ->
    match interp_cubic xs ys with
    | Err e => interp_cubic xs (map (scale c) ys) = Err e
    | Ok f => exists g, interp_cubic xs (map (scale c) ys) = Ok g /\ forall q, g q = scale c (f q)
    end).
  { intros c xs ys Hc. pose proof (interp_cubic_hom 1 c Rlt_0_1 Hc xs ys) as H. rewrite map_scale_one in H.
    destruct (interp_cubic xs ys); auto. destruct H as [g [E H]]. exists g. split; auto. intros q. rewrite <- H. now rewrite scale_one. }
  intros c k xs ys Hc. pose proof (mk_linear_equivariant c k xs ys Hc) as Li. specialize (P c xs ys Hc).
  destruct k as [| | | | | | | | |z]; cbn [mk_cubic]; auto. destruct z as [|[|[|[|z]]]]; auto.
Qed.
Theorem cubic_stretch : stretch_equivariant mk_cubic.
Proof.
  assert (P : forall c xs ys, 0 < c ->
    match interp_cubic xs ys with
    | Err e => interp_cubic (map (scale c) xs) ys = Err e
    | Ok f => exists g, interp_cubic (map (scale c) xs) ys = Ok g /\ forall q, g (scale c q) = f q
    end).
  { intros c xs ys Hc. pose proof (interp_cubic_hom c 1 Hc Rlt_0_1 xs ys) as H. rewrite map_scale_one in H.
    destruct (interp_cubic xs ys); auto. destruct H as [g [E H]]. exists g. split; auto. intros q. rewrite H. apply scale_one. }
  intros c k xs ys Hc. pose proof (mk_linear_stretch c k xs ys Hc) as Li. specialize (P c xs ys Hc).
  destruct k as [| | | | | | | | |z]; cbn [mk_cubic]; auto. destruct z as [|[|[|[|z]]]]; auto.
Qed.
