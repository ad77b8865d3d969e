(** Evaluation of PSFConvolvedModel2D with a PSF. *)
From Coq Require Import String FunctionalExtensionality.
From Verif Require Import Base Num Numpy L_Numpy S_Photometry L_Photometry M_PSF S_PSF L_PSF L_PSF2 L_PSF3.
Local Open Scope list_scope.

Definition finite_image (m : img xr) : Prop := exists ny nx g, m = rimg ny nx g.

(** images m1, m2, m3 with m3 = c * m1 + m2 *)
Definition lin3 (c : R) (m1 m2 m3 : img xr) : Prop :=
  exists ny nx g1 g2, m1 = rimg ny nx g1 /\ m2 = rimg ny nx g2 /\ m3 = rimg ny nx (fun j i => c * g1 j i + g2 j i)%R.

Lemma rimg_ext ny nx g h : (forall j i, g j i = h j i) -> rimg ny nx g = rimg ny nx h.
Proof. intros H. unfold rimg. f_equal. do 2 (apply functional_extensionality; intro). now rewrite H. Qed.

Lemma block_mean_lin c m1 m2 m3 f : (0 < f)%nat -> lin3 c m1 m2 m3 ->
  lin3 c (block_mean m1 f) (block_mean m2 f) (block_mean m3 f).
Proof.
  intros Hf (ny & nx & g1 & g2 & -> & -> & ->). rewrite !block_mean_rimg by auto.
  do 4 eexists. split; [reflexivity|]. split; [reflexivity|]. apply rimg_ext. intros j i.
  rewrite sum2_lin. pose proof (INR_pos f Hf). field. lra.
Qed.

Lemma convolve_lin c m1 m2 m3 p : finite_image p -> lin3 c m1 m2 m3 ->
  lin3 c (convolve_same m1 p) (convolve_same m2 p) (convolve_same m3 p).
Proof.
  intros (ph & pw & q & ->) (ny & nx & g1 & g2 & -> & -> & ->).
  destruct (convolve_linear ny nx c g1 g2 ph pw q) as (h1 & h2 & -> & -> & ->). now exists ny, nx, h1, h2.
Qed.

Lemma write_window_lin c m1 m2 m3 s1 s2 s3 a b d e : lin3 c m1 m2 m3 -> lin3 c s1 s2 s3 ->
  (exists w1 w2 w3, write_window m1 a b d e s1 = Ok w1 /\ write_window m2 a b d e s2 = Ok w2 /\
     write_window m3 a b d e s3 = Ok w3 /\ lin3 c w1 w2 w3) \/
  (exists x, write_window m1 a b d e s1 = Err x /\ write_window m2 a b d e s2 = Err x /\ write_window m3 a b d e s3 = Err x).
Proof.
  intros (ny & nx & g1 & g2 & -> & -> & ->) (sy & sx & h1 & h2 & -> & -> & ->).
  unfold write_window. cbn [iny inx rimg px].
  destruct (bcast_ok _ _ && bcast_ok _ _); [left|right; eauto].
  do 3 eexists. split; [reflexivity|]. split; [reflexivity|]. split; [reflexivity|].
  set (B := fun j i : nat => in_slice (Z.of_nat ny) a b (Z.of_nat j) && in_slice (Z.of_nat nx) d e (Z.of_nat i)).
  set (J := fun j : nat => Z.to_nat (bcast_ix (Z.of_nat sy) (Z.of_nat j - Z.min a (Z.of_nat ny)))).
  set (I := fun i : nat => Z.to_nat (bcast_ix (Z.of_nat sx) (Z.of_nat i - Z.min d (Z.of_nat nx)))).
  exists ny, nx, (fun j i => if B j i then h1 (J j) (I i) else g1 j i), (fun j i => if B j i then h2 (J j) (I i) else g2 j i).
  unfold rimg. repeat split; f_equal; apply functional_extensionality; intro j; apply functional_extensionality; intro i;
  fold (B j i) (J j) (I i); destruct (B j i); reflexivity.
Qed.

Lemma write_window_finite m s a b d e w : finite_image m -> finite_image s -> write_window m a b d e s = Ok w ->
  finite_image w /\ iny w = iny m /\ inx w = inx m.
Proof.
  intros (ny & nx & g & ->) (sy & sx & h & ->) H.
  assert (L : lin3 0 (rimg ny nx g) (rimg ny nx g) (rimg ny nx g)).
  { exists ny, nx, g, g. repeat split. apply rimg_ext. intros. ring. }
  assert (L' : lin3 0 (rimg sy sx h) (rimg sy sx h) (rimg sy sx h)).
  { exists sy, sx, h, h. repeat split. apply rimg_ext. intros. ring. }
  destruct (write_window_lin 0 _ _ _ _ _ _ a b d e L L') as [(w1 & w2 & w3 & E1 & _ & _ & (n1 & n2 & k1 & k2 & -> & _ & _))|(x & E & _)]; [|congruence].
  assert (w = rimg n1 n2 k1) by congruence. subst w. split; [do 3 eexists; reflexivity|].
  unfold write_window in E1. cbn [iny inx rimg] in E1. destruct (_ && _) in E1; [|discriminate].
  apply Ok_inj in E1. unfold rimg in E1. injection E1 as -> -> _. cbn [iny inx rimg]. auto.
Qed.

(** sampling on a grid with finite origin *)
Lemma sample_rimg names f g ps n ox oy fz : computes f ps g -> (0 < fz)%Z ->
  sm_eval (mksm names (Fresh f)) ps (make_grid n (Fin ox, Fin oy) fz) =
  rimg (Z.to_nat (n * fz)) (Z.to_nat (n * fz)) (fun j i => g (gx ox (Z.to_nat fz) i) (gx oy (Z.to_nat fz) j)).
Proof.
  intros Hc Hf. unfold sm_eval. rewrite make_grid_xr by auto. unfold rimg. cbn [sm_kind fst snd iny inx px].
  f_equal. do 2 (apply functional_extensionality; intro). apply Hc.
Qed.

Section Lin.
  Variables (names : list string) (ps : list xr) (c : R) (f1 f2 f3 : list xr -> xr -> xr -> xr) (g1 g2 : R -> R -> R).
  Hypothesis (H1 : computes f1 ps g1) (H2 : computes f2 ps g2)
    (H3 : computes f3 ps (fun x y => c * g1 x y + g2 x y)%R).

  Lemma sample_lin n ox oy fz : (0 < fz)%Z ->
    let G := make_grid n (Fin ox, Fin oy) fz in
    lin3 c (sm_eval (mksm names (Fresh f1)) ps G) (sm_eval (mksm names (Fresh f2)) ps G) (sm_eval (mksm names (Fresh f3)) ps G).
  Proof.
    intros Hf. cbv zeta. rewrite (sample_rimg _ _ _ _ _ _ _ _ H1), (sample_rimg _ _ _ _ _ _ _ _ H2), (sample_rimg _ _ _ _ _ _ _ _ H3) by auto.
    do 4 eexists. split; [reflexivity|]. split; [reflexivity|]. apply rimg_ext. reflexivity.
  Qed.

  Lemma round_fin x z : round_int x = Ok z -> exists r, x = Fin r.
  Proof. destruct x; cbn; try discriminate. eauto. Qed.

  Lemma minus_fin x y r : (nrint x - nofZ y)%num = Fin r -> exists r', x = Fin r'.
  Proof. destruct x; cbn; try discriminate. eauto. Qed.

  Lemma window_lin cx cy size fz pf imax jmax m1 m2 m3 : (0 < fz)%Z -> (0 < pf)%Z -> lin3 c m1 m2 m3 ->
    let W := fun f m => apply_window (mksm names (Fresh f)) ps cx cy size fz pf imax jmax m in
    (exists w1 w2 w3, W f1 m1 = Ok w1 /\ W f2 m2 = Ok w2 /\ W f3 m3 = Ok w3 /\ lin3 c w1 w2 w3) \/
    (exists x, W f1 m1 = Err x /\ W f2 m2 = Err x /\ W f3 m3 = Err x).
  Proof.
    intros Hf Hp L. cbv zeta. unfold apply_window.
    destruct (Z.ltb_spec 1 (fz / pf)); [|left; do 3 eexists; eauto].
    unfold center_value. cbn [sm_names].
    destruct (match cx with VStr s => _ | _ => _ end) as [x0|e]; [|right; exists e; auto]. cbn [bind].
    destruct (match cy with VStr s => _ | _ => _ end) as [y0|e]; [|right; exists e; auto]. cbn [bind].
    set (ox := (nrint x0 - nofZ (size / 2))%num). set (oy := (nrint y0 - nofZ (size / 2))%num).
    destruct (round_int ox) as [i0|e] eqn:Ei; [|right; exists e; auto]. cbn [bind].
    destruct (round_int oy) as [j0|e] eqn:Ej; [|right; exists e; auto]. cbn [bind].
    destruct (round_fin _ _ Ei) as [rx Ex]. destruct (round_fin _ _ Ej) as [ry Ey].
    cbv zeta. rewrite Ex, Ey. apply write_window_lin; auto. apply block_mean_lin; [lia|]. now apply sample_lin.
  Qed.

  Definition lin_result (r1 r2 r3 : result (list xr)) : Prop :=
    (exists l1 l2, List.length l1 = List.length l2 /\ r1 = Ok (map Fin l1) /\ r2 = Ok (map Fin l2) /\
       r3 = Ok (map Fin (map (fun p => c * fst p + snd p)%R (combine l1 l2)))) \/
    (exists e, r1 = Err e /\ r2 = Err e /\ r3 = Err e).

  Lemma finish_lin rotate (st : pst xr) pa ij m1 m2 m3 : (0 < psf_factor st)%Z ->
    (match p_psf st with None => True | Some p => finite_image (if neqb pa n0 then p else rotate p pa) end) ->
    lin3 c m1 m2 m3 ->
    lin_result (finish rotate st pa ij m1) (finish rotate st pa ij m2) (finish rotate st pa ij m3).
  Proof.
    intros Hp F L. unfold finish. cbv zeta.
    set (conv := fun m : img xr => match p_psf st with None => m | Some psf => convolve_same m (if neqb pa n0 then psf else rotate psf pa) end).
    set (red := fun m : img xr => if (1 <? psf_factor st)%Z then block_mean m (Z.to_nat (psf_factor st)) else m).
    assert (L2 : lin3 c (red (conv m1)) (red (conv m2)) (red (conv m3))).
    { assert (L1 : lin3 c (conv m1) (conv m2) (conv m3)).
      { unfold conv. destruct (p_psf st); auto. now apply convolve_lin. }
      unfold red. destruct (1 <? psf_factor st)%Z; auto. apply block_mean_lin; auto. lia. }
    fold (conv m1) (conv m2) (conv m3). fold (red (conv m1)) (red (conv m2)) (red (conv m3)).
    destruct L2 as (ny & nx & h1 & h2 & -> & -> & ->). cbn [rimg iny inx px]. clear.
    induction ij as [|[i j] ij IH].
    - left. exists [], []. auto.
    - cbn [mapM]. destruct (_ && _); [|right; exists IndexError; auto]. cbn [bind].
      destruct IH as [(l1 & l2 & El & E1 & E2 & E3)|(e & E1 & E2 & E3)].
      + rewrite E1, E2, E3. cbn [bind]. left.
        exists (h1 (Z.to_nat j) (Z.to_nat i) :: l1), (h2 (Z.to_nat j) (Z.to_nat i) :: l2). cbn. auto.
      + rewrite E1, E2, E3. right. exists e. auto.
  Qed.

  Lemma evaluate_linear rotate (s1 s2 s3 : pst xr) rx ry pa :
    reachable rotate (mksm names (Fresh f1)) s1 -> reachable rotate (mksm names (Fresh f2)) s2 ->
    reachable rotate (mksm names (Fresh f3)) s3 ->
    p_over s1 = p_over s2 -> p_over s2 = p_over s3 -> p_psf s1 = p_psf s2 -> p_psf s2 = p_psf s3 ->
    p_psf_over s1 = p_psf_over s2 -> p_psf_over s2 = p_psf_over s3 ->
    (match p_psf s1 with None => True | Some p => finite_image (if neqb pa n0 then p else rotate p pa) end) ->
    lin_result (fst (evaluate rotate (mksm names (Fresh f1)) s1 (map Fin rx) (map Fin ry) ps pa))
               (fst (evaluate rotate (mksm names (Fresh f2)) s2 (map Fin rx) (map Fin ry) ps pa))
               (fst (evaluate rotate (mksm names (Fresh f3)) s3 (map Fin rx) (map Fin ry) ps pa)).
  Proof.
    intros R1 R2 R3 O12 O23 P12 P23 Q12 Q23 F.
    destruct (factors_positive _ _ _ R1) as [Fo Fp].
    apply reachable_cache_ok in R1; [|reflexivity]. apply reachable_cache_ok in R2; [|reflexivity]. apply reachable_cache_ok in R3; [|reflexivity].
    set (sm1 := mksm names (Fresh f1)). set (sm2 := mksm names (Fresh f2)). set (sm3 := mksm names (Fresh f3)).
    rewrite <- (evaluate_same rotate sm2 s1 s2), <- (evaluate_same rotate sm3 s1 s3); auto; try congruence.
    clear s2 s3 R2 R3 O12 O23 P12 P23 Q12 Q23.
    destruct rx as [|x rx]; [right; exists ValueError; auto|].
    destruct ry as [|y ry].
    { destruct (max_exists (x :: rx) ltac:(discriminate)) as [Mx Hx2]. destruct (min_exists (x :: rx) ltac:(discriminate)) as [mx Hx1].
      right. exists ValueError. unfold evaluate. rewrite (pymin_is_min mx), (pymax_is_max Mx) by auto. cbn [bind map pymin]. auto. }
    remember (x :: rx) as X. remember (y :: ry) as Y.
    assert (Nx : X <> []) by (subst; discriminate). assert (Ny : Y <> []) by (subst; discriminate). clear HeqX HeqY x y rx ry.
    destruct (max_exists X Nx) as [Mx Hx2]. destruct (min_exists X Nx) as [mx Hx1].
    destruct (max_exists Y Ny) as [My Hy2]. destruct (min_exists Y Ny) as [my Hy1].
    unfold evaluate.
    rewrite (pymin_is_min mx X), (pymin_is_min my Y), (pymax_is_max Mx X), (pymax_is_max My Y) by auto.
    cbn [bind]. rewrite !mapM_to_int by auto. cbn [bind]. cbv zeta.
    set (n := (Z.max (zmax (map (pixel_index mx) X)) (zmax (map (pixel_index my) Y)) + 1)%Z).
    set (ij := combine (map (pixel_index mx) X) (map (pixel_index my) Y)).
    assert (MG : forall gf, exists t, main_grid s1 n gf (Fin mx, Fin Mx, Fin my, Fin My) = (Ok (make_grid n (Fin mx, Fin my) gf), t) /\
       p_psf t = p_psf s1 /\ p_psf_over t = p_psf_over s1).
    { intros gf. pose proof (main_grid_ok s1 n gf (Fin mx) (Fin Mx) (Fin my) (Fin My) R1) as [A _].
      pose proof (main_grid_settings s1 n gf (Fin mx, Fin Mx, Fin my, Fin My)) as (_ & B1 & B2 & _).
      destruct (main_grid s1 n gf _) as [r t]. cbn in *. subst. exists t. auto. }
    assert (FP : forall t : pst xr, p_psf t = p_psf s1 -> p_psf_over t = p_psf_over s1 -> forall m1 m2 m3, lin3 c m1 m2 m3 ->
      lin_result (finish rotate t pa ij m1) (finish rotate t pa ij m2) (finish rotate t pa ij m3)).
    { intros t E1 E2 m1 m2 m3 L. apply finish_lin; auto; [unfold psf_factor in *; now rewrite E2|now rewrite E1]. }
    destruct (p_over s1) as [[fz|cx cy size fz]|] eqn:Eo.
    - destruct (MG (over_factor s1)) as (t & -> & T1 & T2). cbn [fst]. apply FP; auto.
      pose proof (sample_lin n mx my (over_factor s1) Fo) as S. cbv zeta in S.
      destruct (Z.ltb_spec 1 (over_factor s1 / psf_factor s1)); auto. apply block_mean_lin; auto. lia.
    - destruct (MG (psf_factor s1)) as (t & -> & T1 & T2).
      assert (Ff : (0 < fz)%Z) by (unfold over_factor in Fo; now rewrite Eo in Fo).
      pose proof (window_lin cx cy size fz (psf_factor s1) (zmax (map (pixel_index mx) X)) (zmax (map (pixel_index my) Y))
         _ _ _ Ff Fp (sample_lin n mx my (psf_factor s1) Fp)) as W. cbv zeta in W.
      destruct W as [(w1 & w2 & w3 & E1 & E2 & E3 & L)|(e & E1 & E2 & E3)]; unfold sm1, sm2, sm3; rewrite E1, E2, E3; cbn [fst].
      + apply FP; auto.
      + right. exists e. auto.
    - destruct (MG (over_factor s1)) as (t & -> & T1 & T2). cbn [fst]. apply FP; auto.
      pose proof (sample_lin n mx my (over_factor s1) Fo) as S. cbv zeta in S.
      destruct (Z.ltb_spec 1 (over_factor s1 / psf_factor s1)); auto. apply block_mean_lin; auto. lia.
  Qed.
End Lin.

(** ** Delta PSF *)
Lemma finish_delta rotate (st : pst xr) r s pa ij ny nx g :
  p_psf st = Some (rimg (2 * r + 1) (2 * s + 1) (delta r s)) -> p_psf_over st = None -> pa = Fin 0 ->
  (forall q, In q ij -> (0 <= fst q)%Z /\ (0 <= snd q)%Z) ->
  finish rotate st pa ij (rimg ny nx g) = finish rotate (with_psf st None) pa ij (rimg ny nx g).
Proof.
  intros Ep Epo -> Hq. unfold finish, psf_factor. cbn [with_psf p_psf p_psf_over]. rewrite Ep, Epo.
  assert (E0 : neqb (Fin 0) (n0 : xr) = true) by (cbn; apply Reqb_true; reflexivity). rewrite E0. cbv zeta.
  change (1 <? 1)%Z with false. cbv iota. rewrite convolve_rimg. cbn [rimg iny inx px].
  induction ij as [|[i j] ij IH]; auto. cbn [mapM].
  destruct (Hq (i, j)) as [Hi Hj]; [now left|]. cbn in Hi, Hj.
  destruct (Z.ltb_spec j (Z.of_nat ny)); cbn [andb]; auto.
  destruct (Z.ltb_spec i (Z.of_nat nx)); cbn [andb]; auto.
  rewrite rconv_delta by lia. cbn [bind]. rewrite IH; auto. intros q Hin. apply Hq. now right.
Qed.

Lemma index_nonneg mx my (X Y : list R) : is_min mx X -> is_min my Y ->
  forall q, In q (combine (map (pixel_index mx) X) (map (pixel_index my) Y)) -> (0 <= fst q)%Z /\ (0 <= snd q)%Z.
Proof.
  intros Hx Hy [i j] H. pose proof (in_combine_l _ _ _ _ H) as Hi. pose proof (in_combine_r _ _ _ _ H) as Hj.
  apply in_map_iff in Hi as (x & <- & Ix). apply in_map_iff in Hj as (y & <- & Iy).
  split; apply pixel_index_nonneg; [now apply Hx|now apply Hy].
Qed.

(** the main steps of evaluate, for any oversample *)
Lemma evaluate_image rotate sm (st : pst xr) X Y ps pa mx my : cache_ok st ->
  is_min mx X -> is_min my Y -> exists Mx My, is_max Mx X /\ is_max My Y /\
  fst (evaluate rotate sm st (map Fin X) (map Fin Y) ps pa) =
  (do m <- match p_over st with
           | Some (OWin cx cy size fz) =>
               apply_window sm ps cx cy size fz (psf_factor st) (pixel_index mx Mx) (pixel_index my My)
                 (sm_eval sm ps (make_grid (gsize mx Mx my My) (Fin mx, Fin my) (psf_factor st)))
           | _ => Ok (main_image sm ps mx my (gsize mx Mx my My) (over_factor st) (over_factor st / psf_factor st))
           end;
   finish rotate st pa (combine (map (pixel_index mx) X) (map (pixel_index my) Y)) m).
Proof.
  intros C Hx1 Hy1.
  assert (Nx : X <> []) by (intros ->; destruct Hx1 as [[] _]).
  assert (Ny : Y <> []) by (intros ->; destruct Hy1 as [[] _]).
  destruct (max_exists X Nx) as [Mx Hx2]. destruct (max_exists Y Ny) as [My Hy2].
  exists Mx, My. split; auto. split; auto.
  destruct (p_over st) as [[fz|cx cy size fz]|] eqn:Eo; cbn [bind].
  - apply evaluate_plain; auto. now rewrite Eo.
  - unfold evaluate.
    rewrite (pymin_is_min mx X), (pymin_is_min my Y), (pymax_is_max Mx X), (pymax_is_max My Y) by auto.
    cbn [bind]. rewrite !mapM_to_int by auto. cbn [bind]. cbv zeta.
    rewrite (zmax_index mx Mx), (zmax_index my My) by auto. rewrite Eo.
    change (Z.max (pixel_index mx Mx) (pixel_index my My) + 1)%Z with (gsize mx Mx my My).
    pose proof (main_grid_ok st (gsize mx Mx my My) (psf_factor st) (Fin mx) (Fin Mx) (Fin my) (Fin My) C) as [A _].
    pose proof (main_grid_settings st (gsize mx Mx my My) (psf_factor st) (Fin mx, Fin Mx, Fin my, Fin My)) as (_ & B1 & B2 & _).
    destruct (main_grid st _ _ _) as [r st']. cbn [fst snd] in *. subst r.
    destruct (apply_window _ _ _ _ _ _ _ _ _ _); cbn [bind fst]; [|reflexivity]. now apply finish_settings.
  - apply evaluate_plain; auto. now rewrite Eo.
Qed.
