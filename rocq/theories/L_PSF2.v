(** Values returned by PSFConvolvedModel2D.evaluate without PSF. *)
From Coq Require Import String FunctionalExtensionality.
From Verif Require Import Base Num Numpy L_Numpy S_Photometry L_Photometry M_PSF S_PSF L_PSF.
Local Open Scope list_scope.

Lemma nsum2_fin ny nx (h : nat -> nat -> R) :
  nsum (flat_map (fun a => map (fun b => Fin (h a b)) (seq 0 nx)) (seq 0 ny)) = Fin (sum2 ny nx h).
Proof.
  assert (E : flat_map (fun a => map (fun b => Fin (h a b)) (seq 0 nx)) (seq 0 ny) =
              map Fin (flat_map (fun a => map (fun b => h a b) (seq 0 nx)) (seq 0 ny))).
  { induction (seq 0 ny) as [|a l IH]; auto. cbn. rewrite map_app, map_map, IH. auto. }
  rewrite E, nsum_fin. f_equal. unfold sum2. rewrite <- rsum_seq. clear E.
  induction (seq 0 ny) as [|a l IH]; auto. cbn. rewrite rsum_app, IH, rsum_seq. auto.
Qed.

Lemma block_mean_rimg ny nx g f : (0 < f)%nat ->
  block_mean (rimg ny nx g) f =
  rimg (ny / f) (nx / f) (fun J I => sum2 f f (fun a b => g (J * f + a)%nat (I * f + b)%nat) / (INR f * INR f))%R.
Proof.
  intros Hf. unfold block_mean, rimg. cbn [iny inx px]. f_equal.
  apply functional_extensionality; intro J. apply functional_extensionality; intro I.
  rewrite nsum2_fin. cbn [nofZ ndiv XRnum xdiv].
  assert (E : IZR (Z.of_nat (f * f)) = (INR f * INR f)%R) by now rewrite <- INR_IZR_INZ, mult_INR.
  rewrite E. pose proof (INR_pos f Hf).
  rewrite (Reqb_false (INR f * INR f) 0); auto.
  assert (0 < INR f * INR f)%R by (apply Rmult_lt_0_compat; auto). lra.
Qed.

(** ** Coordinates *)
Lemma pymin_is_min m l : is_min m l -> pymin (map Fin l) = Ok (Fin m).
Proof.
  intros [H1 H2]. destruct (pymin_fin l) as (m' & E & H3 & H4). { intros ->. destruct H1. }
  rewrite E. do 2 f_equal. apply Rle_antisym; auto.
Qed.
Lemma pymax_is_max m l : is_max m l -> pymax (map Fin l) = Ok (Fin m).
Proof.
  intros [H1 H2]. destruct (pymax_fin l) as (m' & E & H3 & H4). { intros ->. destruct H1. }
  rewrite E. do 2 f_equal. apply Rle_antisym; auto.
Qed.

Lemma min_exists l : l <> [] -> exists m, is_min m l.
Proof. intros H. destruct (pymin_fin l H) as (m & _ & H1 & H2). exists m. split; auto. Qed.
Lemma max_exists l : l <> [] -> exists m, is_max m l.
Proof. intros H. destruct (pymax_fin l H) as (m & _ & H1 & H2). exists m. split; auto. Qed.

Lemma pixel_index_nonneg m x : (m <= x)%R -> (0 <= pixel_index m x)%Z.
Proof.
  intros H. unfold pixel_index. pose proof (Int_part_bounds (x - m)).
  assert (-1 < Int_part (x - m))%Z by (apply lt_IZR; lra). lia.
Qed.

Lemma to_int_fin m x : (m <= x)%R -> to_int (Fin x - Fin m)%num = Ok (pixel_index m x).
Proof.
  intros H. unfold to_int. cbn [nsub XRnum xsub xadd xopp ntrunc xtrunc].
  unfold Rtrunc. replace (x + - m)%R with (x - m)%R by ring. rewrite (Rleb_true 0 (x - m)) by lra. reflexivity.
Qed.

Lemma mapM_to_int m l : is_min m l ->
  mapM (fun x => to_int (x - Fin m)%num) (map Fin l) = Ok (map (pixel_index m) l).
Proof.
  intros [_ H]. assert (G : forall x, In x l -> (m <= x)%R) by auto. clear H.
  induction l as [|a l IH]; auto. cbn [map mapM]. rewrite to_int_fin by (apply G; now left).
  cbn [bind]. rewrite IH by (intros; apply G; now right). reflexivity.
Qed.

Lemma zmax_from l : forall a, (fold_left Z.max l a >= a)%Z /\ (forall z, In z l -> z <= fold_left Z.max l a)%Z /\
  (fold_left Z.max l a = a \/ In (fold_left Z.max l a) l).
Proof.
  induction l as [|x l IH]; intros a; cbn [fold_left]; [split; [lia|]; split; [intros ? []|auto]|].
  destruct (IH (Z.max a x)) as (H1 & H2 & H3). split; [lia|]. split.
  - intros z [<-|Hz]; [lia|auto].
  - destruct H3 as [H3|H3]; [|auto with datatypes]. rewrite H3. destruct (Z.max_spec a x) as [[_ ->]|[_ ->]]; auto with datatypes.
Qed.

Lemma zmax_index mn mx l : is_min mn l -> is_max mx l ->
  zmax (map (pixel_index mn) l) = pixel_index mn mx.
Proof.
  intros [A1 A2] [B1 B2]. unfold zmax. destruct (zmax_from (map (pixel_index mn) l) 0) as (H1 & H2 & H3).
  apply Z.le_antisymm.
  - destruct H3 as [H3|H3].
    + rewrite H3. apply pixel_index_nonneg. auto.
    + apply in_map_iff in H3 as (x & <- & Hx). apply Int_part_mono. pose proof (B2 x Hx). lra.
  - apply H2. apply in_map. auto.
Qed.

(** ** The non-windowed evaluation *)
Definition plain_over (o : option (over xr)) : Prop := match o with Some (OWin _ _ _ _) => False | _ => True end.

Definition main_image sm ps (mx my : R) (gs gf k : Z) : img xr :=
  let m := sm_eval sm ps (make_grid gs (Fin mx, Fin my) gf) in
  if (1 <? k)%Z then block_mean m (Z.to_nat k) else m.

Definition gsize (mx Mx my My : R) : Z := (Z.max (pixel_index mx Mx) (pixel_index my My) + 1)%Z.

Lemma finish_settings rotate (t1 t2 : pst xr) pa ij m : p_psf t1 = p_psf t2 -> p_psf_over t1 = p_psf_over t2 ->
  finish rotate t1 pa ij m = finish rotate t2 pa ij m.
Proof. intros K1 K2. unfold finish, psf_factor. now rewrite K1, K2. Qed.

Lemma evaluate_plain rotate sm (st : pst xr) rx ry ps pa mx Mx my My : cache_ok st -> plain_over (p_over st) ->
  is_min mx rx -> is_max Mx rx -> is_min my ry -> is_max My ry ->
  fst (evaluate rotate sm st (map Fin rx) (map Fin ry) ps pa) =
  finish rotate st pa (combine (map (pixel_index mx) rx) (map (pixel_index my) ry))
    (main_image sm ps mx my (gsize mx Mx my My) (over_factor st) (over_factor st / psf_factor st)).
Proof.
  intros C P Hx1 Hx2 Hy1 Hy2. unfold evaluate.
  rewrite (pymin_is_min mx rx), (pymin_is_min my ry), (pymax_is_max Mx rx), (pymax_is_max My ry) by auto.
  cbn [bind]. rewrite !mapM_to_int by auto. cbn [bind]. cbv zeta.
  rewrite (zmax_index mx Mx), (zmax_index my My) by auto.
  change (Z.max (pixel_index mx Mx) (pixel_index my My) + 1)%Z with (gsize mx Mx my My).
  pose proof (main_grid_ok st (gsize mx Mx my My) (over_factor st) (Fin mx) (Fin Mx) (Fin my) (Fin My) C) as [A _].
  pose proof (main_grid_settings st (gsize mx Mx my My) (over_factor st) (Fin mx, Fin Mx, Fin my, Fin My)) as (_ & B1 & B2 & _).
  destruct (main_grid st _ _ _) as [r st']. cbn [fst snd] in *. subst r.
  unfold main_image. destruct (p_over st) as [[f|]|]; [|destruct P|]; cbn [fst]; now apply finish_settings.
Qed.

Lemma combine_map2 {A B C D} (f : A -> C) (g : B -> D) l1 : forall l2,
  combine (map f l1) (map g l2) = map (fun p => (f (fst p), g (snd p))) (combine l1 l2).
Proof. induction l1; intros [|b l2]; cbn; auto. now rewrite IHl1. Qed.

(** requested pixels of an image large enough *)
Lemma pick_ok (mm : img xr) (v : R -> R -> xr) mx Mx my My rx ry n :
  is_min mx rx -> is_max Mx rx -> is_min my ry -> is_max My ry ->
  n = gsize mx Mx my My -> iny mm = Z.to_nat n -> inx mm = Z.to_nat n ->
  (forall x y, In x rx -> In y ry -> px mm (Z.to_nat (pixel_index my y)) (Z.to_nat (pixel_index mx x)) = v x y) ->
  mapM (fun q : Z * Z => let '(i, j) := q in
          if ((j <? Z.of_nat (iny mm)) && (i <? Z.of_nat (inx mm)))%Z
          then Ok (px mm (Z.to_nat j) (Z.to_nat i)) else Err IndexError)
     (combine (map (pixel_index mx) rx) (map (pixel_index my) ry)) =
  Ok (map (fun p => v (fst p) (snd p)) (combine rx ry)).
Proof.
  intros Hx1 Hx2 Hy1 Hy2 En E1 E2 Hv. rewrite combine_map2.
  rewrite (mapM_Ok_map _ (fun q => px mm (Z.to_nat (snd q)) (Z.to_nat (fst q)))).
  - f_equal. rewrite map_map. cbn [fst snd]. apply map_ext_in. intros [x y] Hp. cbn [fst snd].
    apply Hv; [now apply in_combine_l in Hp|now apply in_combine_r in Hp].
  - intros q Hq. apply in_map_iff in Hq as ([x y] & <- & Hp). cbn [fst snd].
    pose proof (in_combine_l _ _ _ _ Hp) as Ix. pose proof (in_combine_r _ _ _ _ Hp) as Iy.
    assert (Lx : (pixel_index mx x <= pixel_index mx Mx)%Z) by (apply Int_part_mono; pose proof (proj2 Hx2 x Ix); lra).
    assert (Ly : (pixel_index my y <= pixel_index my My)%Z) by (apply Int_part_mono; pose proof (proj2 Hy2 y Iy); lra).
    pose proof (pixel_index_nonneg mx x (proj2 Hx1 x Ix)). pose proof (pixel_index_nonneg my y (proj2 Hy1 y Iy)).
    unfold gsize in En. rewrite E1, E2.
    destruct (Z.ltb_spec (pixel_index my y) (Z.of_nat (Z.to_nat n))); [|lia].
    destruct (Z.ltb_spec (pixel_index mx x) (Z.of_nat (Z.to_nat n))); [|lia]. reflexivity.
Qed.

(** C40: neither PSF nor oversampling *)
Lemma fresh_image names f ps mx my n :
  sm_eval (mksm names (Fresh f)) ps (make_grid n (Fin mx, Fin my) 1) =
  mkimg (Z.to_nat n) (Z.to_nat n) (fun J I => f ps (Fin (mx + INR I)) (Fin (my + INR J))).
Proof.
  unfold sm_eval. rewrite make_grid_xr by lia. unfold rimg. cbn [sm_kind fst snd iny inx px].
  replace (n * 1)%Z with n by lia. f_equal.
  apply functional_extensionality; intro J. apply functional_extensionality; intro I.
  unfold gx. change (INR (Z.to_nat 1)) with 1%R. f_equal; f_equal; field.
Qed.

Lemma transparent rotate names f (st : pst xr) rx ry ps pa mx my :
  reachable rotate (mksm names (Fresh f)) st -> p_over st = None -> p_psf st = None -> p_psf_over st = None ->
  is_min mx rx -> is_min my ry ->
  fst (evaluate rotate (mksm names (Fresh f)) st (map Fin rx) (map Fin ry) ps pa) =
  Ok (map (fun p => f ps (Fin (pix mx (fst p))) (Fin (pix my (snd p)))) (combine rx ry)).
Proof.
  intros R Eo Ep Epo Hx1 Hy1.
  assert (Nx : rx <> []) by (intros ->; destruct Hx1 as [[] _]).
  assert (Ny : ry <> []) by (intros ->; destruct Hy1 as [[] _]).
  destruct (max_exists rx Nx) as [Mx Hx2]. destruct (max_exists ry Ny) as [My Hy2].
  apply reachable_cache_ok in R; [|reflexivity].
  rewrite (evaluate_plain _ _ _ _ _ _ _ mx Mx my My); auto; [|now rewrite Eo].
  unfold main_image, finish, over_factor, psf_factor. rewrite Eo, Ep, Epo. cbn [Z.div Z.ltb]. change (1 / 1)%Z with 1%Z.
  change (1 <? 1)%Z with false. cbv iota.
  rewrite fresh_image.
  apply (pick_ok _ (fun x y => f ps (Fin (pix mx x)) (Fin (pix my y))) mx Mx my My rx ry (gsize mx Mx my My)); auto.
  intros x y Ix Iy. cbn [px].
  pose proof (pixel_index_nonneg mx x (proj2 Hx1 x Ix)). pose proof (pixel_index_nonneg my y (proj2 Hy1 y Iy)).
  rewrite !INR_IZR_INZ, !Z2Nat.id by lia. reflexivity.
Qed.

(** whole-number offsets are their own pixel *)
Lemma pix_whole m z : pix m (m + IZR z) = (m + IZR z)%R.
Proof. unfold pix. replace (m + IZR z - m)%R with (IZR z) by ring. now rewrite Int_part_IZR. Qed.

Lemma transparent_pixels rotate names f (st : pst xr) ox oy (zx zy : list Z) ps pa :
  reachable rotate (mksm names (Fresh f)) st -> p_over st = None -> p_psf st = None -> p_psf_over st = None ->
  zx <> [] -> zy <> [] ->
  let rx := map (fun z => ox + IZR z)%R zx in
  let ry := map (fun z => oy + IZR z)%R zy in
  fst (evaluate rotate (mksm names (Fresh f)) st (map Fin rx) (map Fin ry) ps pa) =
  Ok (map (fun p => f ps (Fin (fst p)) (Fin (snd p))) (combine rx ry)).
Proof.
  intros R Eo Ep Epo Nx Ny. cbv zeta.
  assert (G : forall o (zs : list Z), zs <> [] -> exists z0, is_min (o + IZR z0)%R (map (fun z => o + IZR z)%R zs)).
  { intros o zs Hz. destruct (min_exists (map (fun z => o + IZR z)%R zs)) as [m Hm].
    { destruct zs; [congruence|discriminate]. }
    destruct (Hm) as [H1 _]. apply in_map_iff in H1 as (z0 & <- & _). now exists z0. }
  destruct (G ox zx Nx) as [ax Hax]. destruct (G oy zy Ny) as [ay Hay].
  rewrite (transparent _ _ _ _ _ _ _ _ _ _ R Eo Ep Epo Hax Hay). f_equal. apply map_ext_in.
  intros [x y] Hp. cbn [fst snd].
  assert (W : forall o a z, pix (o + IZR a) (o + IZR z) = (o + IZR z)%R).
  { intros o a z. replace (o + IZR z)%R with (o + IZR a + IZR (z - a))%R by (rewrite minus_IZR; ring). apply pix_whole. }
  pose proof (in_combine_l _ _ _ _ Hp) as Ix. pose proof (in_combine_r _ _ _ _ Hp) as Iy.
  apply in_map_iff in Ix as (zx1 & <- & _). apply in_map_iff in Iy as (zy1 & <- & _). now rewrite !W.
Qed.

(** C41: integer oversampling *)
Lemma mean_one g cx cy : mean_samples g 1 cx cy = g cx cy.
Proof.
  unfold mean_samples, sum2, sum_to. change (INR 1) with 1%R. change (INR 0) with 0%R.
  replace (cx - 1 / 2 + (0 + 1 / 2) / 1)%R with cx by field. replace (cy - 1 / 2 + (0 + 1 / 2) / 1)%R with cy by field. field.
Qed.

Lemma main_image_mean names f g ps mx my n (fz : Z) : computes f ps g -> (0 < fz)%Z -> (0 <= n)%Z ->
  main_image (mksm names (Fresh f)) ps mx my n fz fz =
    rimg (Z.to_nat n) (Z.to_nat n)
      (fun J I => mean_samples g (Z.to_nat fz) (mx + INR I) (my + INR J)).
Proof.
  intros Hc Hf Hn. unfold main_image. rewrite make_grid_xr by lia. unfold sm_eval. cbn [sm_kind fst snd iny inx px rimg].
  set (F := Z.to_nat fz). assert (HF : (0 < F)%nat) by (unfold F; lia).
  assert (E1 : mkimg (Z.to_nat (n * fz)) (Z.to_nat (n * fz)) (fun j i => f ps (Fin (gx mx F i)) (Fin (gx my F j))) =
               rimg (Z.to_nat (n * fz)) (Z.to_nat (n * fz)) (fun j i => g (gx mx F i) (gx my F j))).
  { unfold rimg. f_equal. do 2 (apply functional_extensionality; intro). apply Hc. }
  rewrite E1. destruct (Z.ltb_spec 1 fz) as [L|L].
  - rewrite block_mean_rimg by auto.
    assert (Ed : (Z.to_nat (n * fz) / F = Z.to_nat n)%nat).
    { unfold F. rewrite Z2Nat.inj_mul by lia. apply Nat.div_mul. lia. }
    rewrite Ed. unfold rimg. f_equal.
    apply functional_extensionality; intro J. apply functional_extensionality; intro I. f_equal.
    unfold mean_samples. f_equal. apply sum2_ext. intros a b _ _. rewrite !gx_split by auto.
    f_equal; ring.
  - assert (fz = 1%Z) by lia. subst fz. change F with 1%nat.
    replace (n * 1)%Z with n by lia. unfold rimg. f_equal.
    apply functional_extensionality; intro J. apply functional_extensionality; intro I. f_equal.
    rewrite mean_one. unfold gx. change (INR 1) with 1%R. f_equal; field.
Qed.

Lemma oversampled rotate names f g (st : pst xr) fz rx ry ps pa mx my :
  reachable rotate (mksm names (Fresh f)) st -> p_over st = Some (OInt fz) -> p_psf st = None -> p_psf_over st = None ->
  computes f ps g -> is_min mx rx -> is_min my ry ->
  (0 < fz)%Z /\
  fst (evaluate rotate (mksm names (Fresh f)) st (map Fin rx) (map Fin ry) ps pa) =
  Ok (map (fun p => Fin (mean_samples g (Z.to_nat fz) (pix mx (fst p)) (pix my (snd p)))) (combine rx ry)).
Proof.
  intros R Eo Ep Epo Hc Hx1 Hy1.
  assert (Pf : (0 < fz)%Z).
  { apply factors_positive in R as [R _]. unfold over_factor in R. now rewrite Eo in R. }
  split; auto.
  assert (Nx : rx <> []) by (intros ->; destruct Hx1 as [[] _]).
  assert (Ny : ry <> []) by (intros ->; destruct Hy1 as [[] _]).
  destruct (max_exists rx Nx) as [Mx Hx2]. destruct (max_exists ry Ny) as [My Hy2].
  apply reachable_cache_ok in R; [|reflexivity].
  rewrite (evaluate_plain _ _ _ _ _ _ _ mx Mx my My); auto; [|now rewrite Eo].
  unfold finish, over_factor, psf_factor. rewrite Eo, Ep, Epo. rewrite Z.div_1_r.
  change (1 <? 1)%Z with false. cbv iota.
  assert (Hn : (0 <= gsize mx Mx my My)%Z).
  { pose proof (pixel_index_nonneg mx Mx (proj2 Hx1 Mx (proj1 Hx2))). unfold gsize. lia. }
  rewrite (main_image_mean names f g) by auto.
  apply (pick_ok _ (fun x y => Fin (mean_samples g (Z.to_nat fz) (pix mx x) (pix my y))) mx Mx my My rx ry (gsize mx Mx my My)); auto.
  intros x y Ix Iy. cbn [px rimg].
  pose proof (pixel_index_nonneg mx x (proj2 Hx1 x Ix)). pose proof (pixel_index_nonneg my y (proj2 Hy1 y Iy)).
  rewrite !INR_IZR_INZ, !Z2Nat.id by lia. reflexivity.
Qed.

Lemma mean_affine a b c f cx cy : (0 < f)%nat ->
  mean_samples (fun x y => a + b * x + c * y)%R f cx cy = (a + b * cx + c * cy)%R.
Proof.
  intros Hf. pose proof (INR_pos f Hf) as Hp. unfold mean_samples, sum2.
  assert (E : forall n, sum_to n (fun _ => 1%R) = INR n).
  { clear. induction n; [reflexivity|]. cbn [sum_to]. rewrite IHn, S_INR. ring. }
  assert (Es : sum_to f (fun q => (INR q + 1/2) / INR f)%R = (INR f / 2)%R).
  { rewrite (sum_to_ext f _ (fun q => / INR f * INR q + (1/2 / INR f) * 1)%R) by (intros; field; lra).
    rewrite sum_to_add, !sum_to_mult, sum_index, E. field. lra. }
  assert (In : forall q, sum_to f (fun i => a + b * (cx - 1/2 + (INR i + 1/2) / INR f) + c * q)%R =
     (INR f * (a + b * cx + c * q))%R).
  { intros q. rewrite (sum_to_ext f _ (fun i => b * ((INR i + 1/2) / INR f) + (a + b * (cx - 1/2) + c * q) * 1)%R) by (intros; ring).
    rewrite sum_to_add, !sum_to_mult, E. rewrite Es. field. }
  rewrite (sum_to_ext f _ (fun q => INR f * (c * ((INR q + 1/2) / INR f) + (a + b * cx + c * (cy - 1/2)) * 1))%R).
  2:{ intros q _. rewrite In. ring. }
  rewrite sum_to_mult, sum_to_add, !sum_to_mult, E. rewrite Es. field. lra.
Qed.

(** ** Windowed oversampling *)
Lemma nearest_unique x z : nearest_even x z -> Rrint x = z.
Proof.
  intros H. apply Z.le_antisymm; eapply nearest_mono; eauto using Rrint_nearest; apply Rle_refl.
Qed.

Lemma index_of_first s l k : nth_error l k = Some s -> (forall k', (k' < k)%nat -> nth_error l k' <> Some s) ->
  index_of s l = Some k.
Proof.
  revert k. induction l as [|a l IH]; intros [|k] H1 H2; cbn in H1; try discriminate.
  - apply Some_inj in H1. subst. cbn. now rewrite String.eqb_refl.
  - cbn. destruct (String.eqb_spec s a) as [->|N].
    + exfalso. apply (H2 0%nat); [lia|reflexivity].
    + rewrite (IH k); auto. intros k' Hk. apply (H2 (S k')). lia.
Qed.

Lemma center_value_spec (sm : submodel xr) ps c v : centre_is (sm_names sm) ps c v -> center_value sm ps c = Ok (Fin v).
Proof.
  destruct c; cbn; intros H; try tauto.
  - now subst.
  - now subst.
  - destruct H as (k & H1 & H2 & H3). rewrite (index_of_first _ _ _ H1 H2). now rewrite H3.
Qed.

Section Window.
  Variables (rotate : img xr -> xr -> img xr) (names : list string) (f : list xr -> xr -> xr -> xr)
    (g : R -> R -> R) (st : pst xr) (cx cy : pyv xr) (size fz : Z) (rx ry : list R) (ps : list xr) (pa : xr)
    (mx Mx my My x0 y0 : R) (i0 j0 : Z).
  Let sm := mksm names (Fresh f).
  Hypothesis (HR : reachable rotate sm st) (Ho : p_over st = Some (OWin cx cy size fz)) (Hp : p_psf st = None)
    (Hpo : p_psf_over st = None) (Hc : computes f ps g) (Hx1 : is_min mx rx) (Hx2 : is_max Mx rx)
    (Hy1 : is_min my ry) (Hy2 : is_max My ry) (Hcx : centre_is names ps cx x0) (Hcy : centre_is names ps cy y0)
    (Hi0 : window_start x0 size i0) (Hj0 : window_start y0 size j0) (Hf : (1 < fz)%Z) (Hs : (0 < size)%Z).
  Let n := gsize mx Mx my My.
  Let imax := pixel_index mx Mx.
  Let jmax := pixel_index my My.

  Definition clip_lo (i0 : Z) : Z := if (i0 <? 0)%Z then 0%Z else i0.
  Definition clip_hi (imax i1 : Z) : Z := if (imax <? i1)%Z then (imax + 1)%Z else i1.

  Definition sub_image : img xr :=
    rimg (Z.to_nat size) (Z.to_nat size)
      (fun J I => mean_samples g (Z.to_nat fz) (IZR i0 + INR I) (IZR j0 + INR J)).
  Definition plain_image : img xr :=
    rimg (Z.to_nat n) (Z.to_nat n) (fun J I => g (mx + INR I)%R (my + INR J)%R).

  Lemma imax_nonneg : (0 <= imax)%Z. Proof. apply pixel_index_nonneg. apply (proj2 Hx1), (proj1 Hx2). Qed.
  Lemma jmax_nonneg : (0 <= jmax)%Z. Proof. apply pixel_index_nonneg. apply (proj2 Hy1), (proj1 Hy2). Qed.

  Lemma window_eval :
    fst (evaluate rotate sm st (map Fin rx) (map Fin ry) ps pa) =
    (do m <- write_window plain_image (clip_lo j0) (clip_hi jmax (j0 + size)) (clip_lo i0) (clip_hi imax (i0 + size)) sub_image;
     mapM (fun q : Z * Z => let '(i, j) := q in
              if ((j <? Z.of_nat (iny m)) && (i <? Z.of_nat (inx m)))%Z
              then Ok (px m (Z.to_nat j) (Z.to_nat i)) else Err IndexError)
       (combine (map (pixel_index mx) rx) (map (pixel_index my) ry))).
  Proof.
    pose proof imax_nonneg as Pi. pose proof jmax_nonneg as Pj.
    pose proof (reachable_cache_ok rotate sm st eq_refl HR) as C.
    unfold evaluate.
    rewrite (pymin_is_min mx rx), (pymin_is_min my ry), (pymax_is_max Mx rx), (pymax_is_max My ry) by auto.
    cbn [bind]. rewrite !mapM_to_int by auto. cbn [bind]. cbv zeta.
    rewrite (zmax_index mx Mx), (zmax_index my My) by auto. rewrite Ho.
    change (Z.max (pixel_index mx Mx) (pixel_index my My) + 1)%Z with n. fold imax jmax.
    pose proof (main_grid_ok st n (psf_factor st) (Fin mx) (Fin Mx) (Fin my) (Fin My) C) as [A _].
    pose proof (main_grid_settings st n (psf_factor st) (Fin mx, Fin Mx, Fin my, Fin My)) as (_ & B1 & B2 & _).
    destruct (main_grid st _ _ _) as [r st']. cbn [fst snd] in *. subst r.
    assert (P1 : psf_factor st = 1%Z) by (unfold psf_factor; now rewrite Hpo). rewrite P1.
    assert (Em : sm_eval sm ps (make_grid n (Fin mx, Fin my) 1) = plain_image).
    { unfold sm. rewrite fresh_image. unfold plain_image, rimg. f_equal.
      apply functional_extensionality; intro J. apply functional_extensionality; intro I. apply Hc. }
    rewrite Em. unfold apply_window. rewrite Z.div_1_r.
    destruct (Z.ltb_spec 1 fz); [|lia].
    rewrite (center_value_spec sm ps cx x0), (center_value_spec sm ps cy y0) by auto. cbn [bind]. cbv zeta.
    destruct Hi0 as (zx & Nx & Ex). destruct Hj0 as (zy & Ny & Ey).
    assert (Ox : (nrint (Fin x0) - nofZ (size / 2))%num = Fin (IZR i0)).
    { cbn [nrint nofZ nsub XRnum xrint xsub xadd xopp]. rewrite (nearest_unique _ _ Nx). rewrite Ex, minus_IZR. f_equal. }
    assert (Oy : (nrint (Fin y0) - nofZ (size / 2))%num = Fin (IZR j0)).
    { cbn [nrint nofZ nsub XRnum xrint xsub xadd xopp]. rewrite (nearest_unique _ _ Ny). rewrite Ey, minus_IZR. f_equal. }
    rewrite Ox, Oy.
    assert (Ri : forall z, round_int (Fin (IZR z)) = Ok z).
    { intros z. unfold round_int. cbn [nrint ntrunc XRnum xrint xtrunc]. now rewrite Rrint_IZR, Rtrunc_IZR. }
    rewrite !Ri. cbn [bind].
    assert (Es : block_mean (sm_eval sm ps (make_grid size (Fin (IZR i0), Fin (IZR j0)) fz)) (Z.to_nat fz) = sub_image).
    { pose proof (main_image_mean names f g ps (IZR i0) (IZR j0) size fz Hc ltac:(lia) ltac:(lia)) as M.
      unfold main_image in M. destruct (Z.ltb_spec 1 fz); [|lia]. exact M. }
    rewrite Es, !Z.mul_1_r. fold (clip_lo i0) (clip_lo j0).
    fold (clip_hi imax (i0 + size)) (clip_hi jmax (j0 + size)).
    destruct (write_window _ _ _ _ _ _) as [m|e]; [|reflexivity]. cbn [bind fst].
    unfold finish. rewrite B2, Hp. unfold psf_factor. rewrite B1, Hpo. reflexivity.
  Qed.

  Definition fits_axis (imax i0 : Z) : Prop :=
    (0 <= i0 /\ i0 + size <= imax + 1)%Z \/ (i0 = - n /\ size < n)%Z.

  Lemma clip_len imax' i : (0 <= imax' < n)%Z -> (1 < size)%Z ->
    (slen n (clip_lo i) (clip_hi imax' (i + size)) = size <-> fits_axis imax' i).
  Proof.
    intros Hm H1. unfold fits_axis, slen, stop_of, clip_lo, clip_hi.
    destruct (Z.ltb_spec i 0); destruct (Z.ltb_spec imax' (i + size)).
    - destruct (Z.ltb_spec (imax' + 1) 0); lia.
    - destruct (Z.ltb_spec (i + size) 0); lia.
    - destruct (Z.ltb_spec (imax' + 1) 0); lia.
    - destruct (Z.ltb_spec (i + size) 0); lia.
  Qed.

  Lemma imax_lt : (0 <= imax < n)%Z.
  Proof. pose proof imax_nonneg. unfold n, gsize. fold imax jmax. lia. Qed.
  Lemma jmax_lt : (0 <= jmax < n)%Z.
  Proof. pose proof jmax_nonneg. unfold n, gsize. fold imax jmax. lia. Qed.

  (** a window larger than one pixel is accepted exactly when it fits on both axes *)
  Lemma window_accept : (1 < size)%Z ->
    (fst (evaluate rotate sm st (map Fin rx) (map Fin ry) ps pa) = Err ValueError <->
     ~ (fits_axis imax i0 /\ fits_axis jmax j0)) /\
    (fits_axis imax i0 /\ fits_axis jmax j0 ->
     exists l, fst (evaluate rotate sm st (map Fin rx) (map Fin ry) ps pa) = Ok l).
  Proof.
    intros H1. rewrite window_eval. unfold write_window.
    pose proof imax_lt as Li. pose proof jmax_lt as Lj.
    cbn [plain_image sub_image rimg iny inx]. rewrite !Z2Nat.id by lia.
    pose proof (clip_len imax i0 Li H1) as Ci. pose proof (clip_len jmax j0 Lj H1) as Cj.
    unfold bcast_ok. destruct (Z.eqb_spec size 1); [lia|]. rewrite !orb_false_r.
    set (mm := mkimg _ _ _).
    assert (Pk : forall mm' : img xr, iny mm' = Z.to_nat n -> inx mm' = Z.to_nat n -> exists l : list xr,
      mapM (fun q : Z * Z => let '(i, j) := q in
              if ((j <? Z.of_nat (iny mm')) && (i <? Z.of_nat (inx mm')))%Z
              then Ok (px mm' (Z.to_nat j) (Z.to_nat i)) else Err IndexError)
       (combine (map (pixel_index mx) rx) (map (pixel_index my) ry)) = Ok l).
    { intros mm' E1 E2. eexists. apply (pick_ok mm' (fun x y => px mm' (Z.to_nat (pixel_index my y)) (Z.to_nat (pixel_index mx x))) mx Mx my My rx ry n); auto. }
    destruct (Z.eqb_spec size (slen n (clip_lo j0) (clip_hi jmax (j0 + size)))) as [E1|E1];
    destruct (Z.eqb_spec size (slen n (clip_lo i0) (clip_hi imax (i0 + size)))) as [E2|E2]; cbn [andb bind].
    - destruct (Pk mm) as [l El]; auto. rewrite El. split; [|eauto]. split; [discriminate|]. intros K. exfalso. apply K. intuition.
    - split; [|intros [K _]; exfalso; apply E2; symmetry; tauto]. split; auto. intros _ [K _]. apply E2. symmetry. tauto.
    - split; [|intros [_ K]; exfalso; apply E1; symmetry; tauto]. split; auto. intros _ [_ K]. apply E1. symmetry. tauto.
    - split; [|intros [K _]; exfalso; apply E2; symmetry; tauto]. split; auto. intros _ [K _]. apply E2. symmetry. tauto.
  Qed.

  Lemma slice_in imax' i k : (0 <= imax' < n)%Z -> (0 <= i)%Z -> (i + size <= imax' + 1)%Z ->
    in_slice n (clip_lo i) (clip_hi imax' (i + size)) k = insideb i size k.
  Proof.
    intros Hm H0 H1. unfold in_slice, insideb, stop_of, clip_lo, clip_hi.
    destruct (Z.ltb_spec i 0); [lia|].
    destruct (Z.ltb_spec imax' (i + size)).
    - destruct (Z.ltb_spec (imax' + 1) 0); [lia|]. f_equal; [f_equal; lia|f_equal; lia].
    - destruct (Z.ltb_spec (i + size) 0); [lia|]. f_equal; [f_equal; lia|f_equal; lia].
  Qed.

  (** inside the image (in pixel indices): the window values are those of the pixels with the same
      index counted from coordinate 0, not from the first requested coordinate *)
  Lemma window_values : (0 <= i0)%Z -> (i0 + size <= imax + 1)%Z -> (0 <= j0)%Z -> (j0 + size <= jmax + 1)%Z ->
    fst (evaluate rotate sm st (map Fin rx) (map Fin ry) ps pa) =
    Ok (map (fun p =>
          let i := pixel_index mx (fst p) in
          let j := pixel_index my (snd p) in
          Fin (if insideb i0 size i && insideb j0 size j
               then mean_samples g (Z.to_nat fz) (IZR i) (IZR j)
               else g (mx + IZR i)%R (my + IZR j)%R)) (combine rx ry)).
  Proof.
    intros A1 A2 A3 A4. rewrite window_eval. unfold write_window.
    pose proof imax_lt as Li. pose proof jmax_lt as Lj.
    cbn [plain_image sub_image rimg iny inx]. rewrite !Z2Nat.id by lia.
    assert (L : forall imax' i, (0 <= imax' < n)%Z -> (0 <= i)%Z -> (i + size <= imax' + 1)%Z ->
      slen n (clip_lo i) (clip_hi imax' (i + size)) = size).
    { intros imax' i Hm H0 H1. unfold slen, stop_of, clip_lo, clip_hi.
      destruct (Z.ltb_spec i 0); [lia|]. destruct (Z.ltb_spec imax' (i + size)).
      - destruct (Z.ltb_spec (imax' + 1) 0); lia.
      - destruct (Z.ltb_spec (i + size) 0); lia. }
    rewrite !L by auto. unfold bcast_ok. rewrite Z.eqb_refl. cbn [orb andb bind].
    match goal with |- mapM (fun q => let '(i, j) := q in if ((j <? Z.of_nat (iny ?m)) && _)%Z then _ else _) _ = _ => set (mm := m) end.
    apply (pick_ok mm (fun x y => 
          let i := pixel_index mx x in
          let j := pixel_index my y in
          Fin (if insideb i0 size i && insideb j0 size j
               then mean_samples g (Z.to_nat fz) (IZR i) (IZR j)
               else g (mx + IZR i)%R (my + IZR j)%R)) mx Mx my My rx ry n); auto.
    intros x y Ix Iy. cbv zeta. subst mm. cbn [px plain_image rimg].
    pose proof (pixel_index_nonneg mx x (proj2 Hx1 x Ix)) as Nx. pose proof (pixel_index_nonneg my y (proj2 Hy1 y Iy)) as Ny.
    rewrite !Z2Nat.id by lia. rewrite !slice_in by auto. rewrite (andb_comm (insideb j0 size _)).
    destruct (insideb i0 size (pixel_index mx x) && insideb j0 size (pixel_index my y)) eqn:E.
    - apply andb_true_iff in E as [E1 E2]. unfold insideb in E1, E2.
      apply andb_true_iff in E1 as [E1 E1']. apply andb_true_iff in E2 as [E2 E2'].
      apply Z.leb_le in E1, E2. apply Z.ltb_lt in E1', E2'.
      assert (Lo : forall i, (0 <= i)%Z -> (i < n)%Z -> Z.min (clip_lo i) n = i).
      { intros i H0 H1. unfold clip_lo. destruct (Z.ltb_spec i 0); lia. }
      rewrite !Lo by lia.
      assert (Bx : forall k, (0 <= k < size)%Z -> bcast_ix size k = k).
      { intros k Hk. unfold bcast_ix. destruct (Z.eqb_spec size 1); lia. }
      rewrite !Bx by lia. cbn [sub_image rimg px]. do 2 f_equal;
      rewrite INR_IZR_INZ, Z2Nat.id by lia; rewrite minus_IZR; ring.
    - cbn [plain_image rimg px]. rewrite !INR_IZR_INZ, !Z2Nat.id by lia. reflexivity.
  Qed.
End Window.
