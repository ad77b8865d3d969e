(** Proofs about fitting.py: fit_model, fit_background, fit_gaussian2d, plot_fit, measure_fwhm. *)
From Coq Require Import String FunctionalExtensionality Sorting.Sorted.
From Verif Require Import Base Num Numpy L_Numpy M_Photometry S_Photometry L_Photometry M_PSF S_PSF L_PSF L_PSF2 M_Fitting S_Fitting L_Fitting.
Local Open Scope list_scope.

(** ** Pixel order *)
Lemma in_pixels ny nx j i : In (j, i) (pixels ny nx) <-> j < ny /\ i < nx.
Proof.
  unfold pixels. rewrite in_flat_map. split.
  - intros (j' & Hj & H). apply in_map_iff in H as (i' & [= <- <-] & Hi). apply in_seq in Hj, Hi. lia.
  - intros [Hj Hi]. exists j. split; [apply in_seq; lia|]. apply in_map_iff. exists i. split; auto. apply in_seq; lia.
Qed.

Lemma sorted_app {A} (R : A -> A -> Prop) l m : StronglySorted R l -> StronglySorted R m ->
  (forall x y, In x l -> In y m -> R x y) -> StronglySorted R (l ++ m).
Proof.
  induction l as [|x l IH]; intros Hl Hm H; auto. cbn. inversion Hl; subst. constructor.
  - apply IH; auto. intros. apply H; [right|]; auto.
  - apply Forall_app. split; auto. apply Forall_forall. intros y Hy. apply H; [left|]; auto.
Qed.

Lemma sorted_filter {A} (R : A -> A -> Prop) p l : StronglySorted R l -> StronglySorted R (filter p l).
Proof.
  induction 1 as [|x l Hl IH Hx]; cbn; [constructor|]. destruct (p x); auto. constructor; auto.
  apply Forall_forall. intros y Hy. apply filter_In in Hy as [Hy _]. rewrite Forall_forall in Hx. auto.
Qed.

Lemma row_sorted j s n : StronglySorted before (map (fun i => (j, i)) (seq s n)).
Proof.
  revert s. induction n as [|n IH]; intros s; cbn; constructor; auto.
  apply Forall_forall. intros y Hy. apply in_map_iff in Hy as (i & <- & Hi). apply in_seq in Hi. right. cbn. lia.
Qed.

Lemma pixels_sorted ny nx : StronglySorted before (pixels ny nx).
Proof.
  unfold pixels. generalize 0 at 2 as s. induction ny as [|ny IH]; intros s; cbn; [constructor|].
  apply sorted_app; auto; [apply row_sorted|].
  intros x y Hx Hy. apply in_map_iff in Hx as (i & <- & _). apply in_flat_map in Hy as (j & Hj & Hy).
  apply in_map_iff in Hy as (i' & <- & _). apply in_seq in Hj. left. cbn. lia.
Qed.

Lemma sorted_nth {A} (R : A -> A -> Prop) l : StronglySorted R l ->
  forall a b p q, nth_error l a = Some p -> nth_error l b = Some q -> a < b -> R p q.
Proof.
  induction 1 as [|x l Hl IH Hx]; intros a b p q Ha Hb L.
  - now destruct a.
  - destruct b; [lia|]. destruct a; cbn in *.
    + injection Ha as <-. rewrite Forall_forall in Hx. apply Hx. now apply nth_error_In in Hb.
    + apply (IH a b); auto. lia.
Qed.

Lemma before_asym p q : before p q -> ~ before q p.
Proof. unfold before. lia. Qed.

Lemma sorted_row_major l P : StronglySorted before l -> (forall j i, In (j, i) l <-> P j i) -> row_major P l.
Proof.
  intros Hs HP. split; auto. intros a b p q Ha Hb. split.
  - now apply (sorted_nth before l Hs).
  - intros Hpq. destruct (Nat.lt_trichotomy a b) as [L|[L|L]]; auto.
    + subst. rewrite Ha in Hb. injection Hb as <-. destruct (before_asym p p Hpq Hpq).
    + apply before_asym in Hpq. destruct Hpq. now apply (sorted_nth before l Hs b a).
Qed.

(** the order determines the list *)
Lemma row_major_unique P l m : row_major P l -> row_major P m -> l = m.
Proof.
  intros [Hl Il] [Hm Im].
  assert (S : forall l', (forall a b p q, nth_error l' a = Some p -> nth_error l' b = Some q -> (a < b <-> before p q)) ->
              StronglySorted before l').
  { clear. induction l' as [|x l' IH]; intros H; constructor.
    - apply IH. intros a b p q Ha Hb. rewrite <- (H (S a) (S b) p q Ha Hb). lia.
    - apply Forall_forall. intros y Hy. apply In_nth_error in Hy as [k Hk].
      apply (H 0 (S k) x y); auto. lia. }
  assert (I : forall x, In x l <-> In x m).
  { intros [j i]. rewrite Il, Im. tauto. }
  assert (Sl := S l Hl). assert (Sm := S m Hm). clear S Hl Hm Il Im P.
  revert m I Sm. induction Sl as [|x l Hl IH Hx]; intros m I Sm.
  - destruct m as [|y m]; auto. destruct (proj2 (I y)); now left.
  - destruct Sm as [|y m Hm Hy]. { destruct (proj1 (I x)); now left. }
    rewrite Forall_forall in Hx, Hy.
    assert (x = y).
    { destruct (proj1 (I x)) as [->|A]; [now left|auto|]. destruct (proj2 (I y)) as [->|B]; [now left|auto|].
      exfalso. apply (before_asym x y); auto. }
    subst y. f_equal. apply IH; auto. intros z. split; intros Hz.
    + destruct (proj1 (I z)) as [<-|]; [now right| |auto]. exfalso. apply (before_asym x x); auto.
    + destruct (proj2 (I z)) as [<-|]; [now right| |auto]. exfalso. apply (before_asym x x); auto.
Qed.

Lemma good_pixels_ok (image : img xr) :
  row_major (fun j i => j < iny image /\ i < inx image /\ px image j i <> NaN) (good_pixels image).
Proof.
  apply sorted_row_major.
  - apply sorted_filter, pixels_sorted.
  - intros j i. unfold good_pixels. rewrite filter_In, in_pixels. cbn [fst snd nisnan XRnum].
    destruct (px image j i); cbn; intuition (try discriminate; congruence).
Qed.

(** ** fit_model *)
Section FitModel.
  Context {M O : Type}.
  Implicit Types (f : fitter (T:=xr) M O).

  Lemma fit_model_call (image : img xr) (model : M) (weights : option (img xr)) f calc (opts : O) :
    fits weights image ->
    exists l, row_major (fun j i => j < iny image /\ i < inx image /\ px image j i <> NaN) l /\
      let values {A} (a : img A) := map (fun p => px a (fst p) (snd p)) l in
      fit_model M O (image, None) model weights f calc opts =
      (do m <- ft_run f calc model (mkfd (map snd l) (map fst l) (values image) None (option_map values weights))
                 (if ft_iterative f then Some opts else None);
       Ok (m, f)).
  Proof.
    intros H. exists (good_pixels image). split; [apply good_pixels_ok|]. intros values.
    unfold fit_model. cbn [fst snd option_map].
    destruct weights as [w|]; cbn [option_map]; [|reflexivity].
    destruct H as [Hy Hx]. unfold same_shape. rewrite Hy, Hx, !Nat.eqb_refl. reflexivity.
  Qed.

  Lemma fit_model_weights_shape (image : mimage) (model : M) (w : img xr) f calc (opts : O) :
    ~ fits (Some w) (fst image) -> fit_model M O image model (Some w) f calc opts = Err AssertionError.
  Proof.
    intros H. unfold fit_model, same_shape. cbn [fits] in H.
    destruct (Nat.eqb_spec (iny w) (iny (fst image))); destruct (Nat.eqb_spec (inx w) (inx (fst image))); cbn; auto.
    tauto.
  Qed.

  Lemma fit_model_class (image : mimage) (model : M) w f calc (opts : O) m f' :
    fit_model M O image model w f calc opts = Ok (m, f') -> f' = f.
  Proof.
    unfold fit_model. cbv zeta. destruct (match w with None => _ | Some _ => _ end); cbn [bind]; [|discriminate].
    match goal with |- (do m <- ?r; _) = _ -> _ => destruct r end; cbn [bind]; [|discriminate]. now intros [= _ ->].
  Qed.

  (** pixels where the image is NaN do not matter *)
  Lemma good_pixels_same (a b : img xr) : same_data a b -> good_pixels a = good_pixels b.
  Proof.
    intros (Hy & Hx & H). unfold good_pixels. rewrite <- Hy, <- Hx. apply filter_ext_in. intros [j i] Hin.
    apply in_pixels in Hin as [Hj Hi]. cbn [fst snd]. now rewrite H.
  Qed.

  Lemma fit_model_nan (a b : img xr) (model : M) w1 w2 f calc (opts : O) :
    same_data a b -> same_where_good a w1 w2 ->
    fit_model M O (a, None) model w1 f calc opts = fit_model M O (b, None) model w2 f calc opts.
  Proof.
    intros Hab Hw. unfold fit_model. cbn [fst snd option_map]. rewrite <- (good_pixels_same a b Hab).
    assert (Hz : map (fun p => px a (fst p) (snd p)) (good_pixels a) = map (fun p => px b (fst p) (snd p)) (good_pixels a)).
    { apply map_ext_in. intros [j i] Hin. apply (proj2 (good_pixels_ok a)) in Hin. cbn. apply Hab; tauto. }
    rewrite <- Hz. destruct Hab as (Hy & Hx & Hab).
    destruct w1 as [w1|], w2 as [w2|]; cbn [same_where_good] in Hw; try tauto.
    destruct Hw as (Wy & Wx & Hw). unfold same_shape. rewrite <- Wy, <- Wx, <- Hy, <- Hx.
    replace (map (fun p => px w2 (fst p) (snd p)) (good_pixels a)) with (map (fun p => px w1 (fst p) (snd p)) (good_pixels a)); auto.
    apply map_ext_in. intros [j i] Hin. apply (proj2 (good_pixels_ok a)) in Hin. cbn. apply Hw; tauto.
  Qed.

  (** ** fit_background *)
  Variable sigma_clip : img xr -> xr -> img bool.

  Lemma background_call (image : img xr) (model : M) s f calc (opts : O) :
    exists l, row_major (fun j i => j < iny image /\ i < inx image /\ px image j i <> NaN) l /\
      let values {A} (a : img A) := map (fun p => px a (fst p) (snd p)) l in
      fit_background M O sigma_clip image model (Some s) f calc opts =
      (do m <- ft_run f calc model (mkfd (map snd l) (map fst l) (values image) (Some (values (sigma_clip image s))) None)
                 (if ft_iterative f then Some opts else None);
       Ok (m, f)).
  Proof. exists (good_pixels image). split; [apply good_pixels_ok|]. reflexivity. Qed.

  Lemma background_none (image : img xr) (model : M) f calc (opts : O) :
    fit_background M O sigma_clip image model None f calc opts = fit_model M O (image, None) model None f calc opts.
  Proof. reflexivity. Qed.

  (** for a fitter that does not look at masks, clipping changes nothing *)
  Lemma background_unmasked (image : img xr) (model : M) s f calc (opts : O) :
    (forall b m x y z k w o, ft_run f b m (mkfd x y z k w) o = ft_run f b m (mkfd x y z None w) o) ->
    fit_background M O sigma_clip image model s f calc opts = fit_model M O (image, None) model None f calc opts.
  Proof.
    intros H. destruct s as [s|]; auto. unfold fit_background, fit_model. cbn [fst snd option_map bind].
    now rewrite H.
  Qed.
End FitModel.

(** ** fit_gaussian2d *)
Lemma any_nan_ok (image : img xr) :
  any_nan (img_list image) = true <-> exists j i, j < iny image /\ i < inx image /\ px image j i = NaN.
Proof.
  unfold any_nan, img_list. rewrite existsb_exists. split.
  - intros (v & Hin & Hv). apply in_map_iff in Hin as ([j i] & <- & Hin). apply in_pixels in Hin as [Hj Hi].
    cbn [fst snd nisnan XRnum] in Hv. exists j, i. repeat split; auto. destruct (px image j i); cbn in Hv; congruence.
  - intros (j & i & Hj & Hi & E). exists NaN. split; auto. apply in_map_iff. exists (j, i). split; auto.
    now apply in_pixels.
Qed.

Lemma start_empty (image : img xr) : (iny image = 0 \/ inx image = 0) -> start_gaussian image = Err ValueError.
Proof.
  intros H. unfold start_gaussian, img_max, img_list.
  assert (E : pixels (iny image) (inx image) = []).
  { destruct (pixels (iny image) (inx image)) as [|[j i] l] eqn:P; auto.
    assert (In (j, i) (pixels (iny image) (inx image))) by (rewrite P; now left).
    apply in_pixels in H0. lia. }
  now rewrite E.
Qed.

Lemma start_nan (image : img xr) : (exists j i, j < iny image /\ i < inx image /\ px image j i = NaN) ->
  start_gaussian image = Ok (mkgauss NaN (Fin (INR (inx image / 2))) (Fin (INR (iny image / 2))) (Fin 1) (Fin 1) (Fin 0)).
Proof.
  intros H. unfold start_gaussian, img_max. rewrite (proj2 (any_nan_ok image) H).
  destruct (img_list image) as [|x l] eqn:E.
  - apply any_nan_ok in H. rewrite E in H. discriminate.
  - cbn [pymax bind]. rewrite !nofnat_xr. reflexivity.
Qed.

Lemma start_finite (image : img xr) v : 0 < iny image -> 0 < inx image -> finite_img image v ->
  exists a, start_gaussian image = Ok (mkgauss (Fin a) (Fin (INR (inx image / 2))) (Fin (INR (iny image / 2))) (Fin 1) (Fin 1) (Fin 0)) /\
    (forall j i, j < iny image -> i < inx image -> (v j i <= a)%R) /\
    exists j i, j < iny image /\ i < inx image /\ v j i = a.
Proof.
  intros Hy Hx Hf.
  assert (E : img_list image = map Fin (map (fun p => v (fst p) (snd p)) (pixels (iny image) (inx image)))).
  { unfold img_list. rewrite map_map. apply map_ext_in. intros [j i] Hin. apply in_pixels in Hin as [Hj Hi]. now apply Hf. }
  assert (NN : any_nan (img_list image) = false).
  { rewrite E. unfold any_nan. generalize (map (fun p => v (fst p) (snd p)) (pixels (iny image) (inx image))).
    induction l as [|x l IH]; auto. }
  unfold start_gaussian, img_max. rewrite NN, E.
  destruct (map (fun p => v (fst p) (snd p)) (pixels (iny image) (inx image))) as [|x l] eqn:P.
  { destruct (pixels (iny image) (inx image)) as [|q qs] eqn:Q; [|discriminate].
    assert (Z0 : In (0, 0) (pixels (iny image) (inx image))) by now apply in_pixels. rewrite Q in Z0. destruct Z0. }
  cbn [map pymax bind].
  assert (G : forall l x, exists a, pymax_from (Fin x) (map Fin l) = Fin a /\ (forall y, In y (x :: l) -> (y <= a)%R) /\ In a (x :: l)).
  { clear. induction l as [|z l IH]; intros x.
    - exists x. cbn. repeat split; auto. intros y [->|[]]. lra.
    - cbn [map].
      change (pymax_from (Fin x) (Fin z :: map Fin l)) with (pymax_from (if Rltb x z then Fin z else Fin x) (map Fin l)).
      unfold Rltb. destruct (Rlt_dec x z) as [L|L].
      + destruct (IH z) as (a & -> & Ha & Hi). exists a. repeat split; [|now right].
        intros y [<-|Hy]; [|now apply Ha]. specialize (Ha z (or_introl eq_refl)). lra.
      + destruct (IH x) as (a & -> & Ha & Hi). exists a. repeat split.
        * intros y [<-|[<-|Hy]]; [apply Ha; now left| |apply Ha; now right]. specialize (Ha x (or_introl eq_refl)). lra.
        * destruct Hi as [->|Hi]; [now left|right; now right]. }
  destruct (G l x) as (a & -> & Ha & Hi). exists a. rewrite !nofnat_xr. split; [reflexivity|]. rewrite <- P in Ha, Hi. split.
  - intros j i Hj Hi'. apply Ha. apply in_map_iff. exists (j, i). split; auto. now apply in_pixels.
  - apply in_map_iff in Hi as ([j i] & <- & Hin). apply in_pixels in Hin as [Hj Hi']. exists j, i. auto.
Qed.

(** ** plot_fit *)
Lemma plot_size (image : img xr) :
  size_means (VSeq [VInt (Z.of_nat (inx image)); VInt (Z.of_nat (iny image))]) false (Z.of_nat (inx image)) (Z.of_nat (iny image)).
Proof. constructor; left; reflexivity. Qed.

Lemma plot_fit_residual f g (image : img xr) center x0 y0 :
  real_function f g -> origin_is center (Z.of_nat (inx image)) (Z.of_nat (iny image)) x0 y0 ->
  exists mi r, plot_fit (pointwise f) image Center center = Ok (mi, r) /\
    image_of mi (iny image) (inx image) (fun j i => g (x0 + INR i) (y0 + INR j))%R /\
    iny r = iny image /\ inx r = inx image /\
    forall j i, j < iny image -> i < inx image -> px r j i = (px image j i - Fin (g (x0 + INR i) (y0 + INR j))%R)%num.
Proof.
  intros Hf Ho. destruct (center_pixels f g _ false 1 center _ _ x0 y0 Hf (plot_size image) Ho) as (m & Hm & Im).
  rewrite !Nat2Z.id in Im. destruct Im as (My & Mx & Mp). unfold plot_fit. rewrite Hm. cbn [bind].
  unfold img_sub, same_shape. rewrite My, Mx, !Nat.eqb_refl. cbn. exists m.
  eexists. split; [reflexivity|]. cbn [iny inx px]. repeat split; auto.
  intros j i Hj Hi. now rewrite Mp.
Qed.

(** ** measure_fwhm *)
Section Fwhm.
  Context {O : Type} (fitr : fitter (T:=xr) (gaussian xr) O) (opts : O).

  Lemma fwhm_plot (image : img xr) c : forall r, measure_fwhm O fitr opts c image true <> Ok r.
  Proof.
    intros r. unfold measure_fwhm. destruct (fit_gaussian2d O fitr opts image); cbn [bind]; [|discriminate].
    destruct (round_int _); discriminate.
  Qed.

  Lemma fwhm_plot_error (image : img xr) c r : measure_fwhm O fitr opts c image false = Ok r ->
    measure_fwhm O fitr opts c image true = Err AttributeError.
  Proof.
    unfold measure_fwhm. destruct (fit_gaussian2d O fitr opts image); cbn [bind]; [|discriminate].
    destruct (round_int _); cbn; [auto|discriminate].
  Qed.

  Lemma gauss_forms A x0 y0 sx sy t x y : (sx <> 0)%R -> (sy <> 0)%R ->
    gauss2d_astropy A x0 y0 sx sy t x y = gauss2d A x0 y0 sx sy t x y.
  Proof.
    intros Hx Hy. unfold gauss2d_astropy, gauss2d. f_equal. f_equal. f_equal. rewrite sin_2a. field. auto.
  Qed.

  Lemma exp_half s : (0 < s)%R -> exp (- ((s * fwhm_factor / 2) * (s * fwhm_factor / 2) / (2 * (s * s)))) = (1/2)%R.
  Proof.
    intros Hs. unfold fwhm_factor.
    assert (Hl : (0 < ln 2)%R) by (rewrite <- ln_1; apply ln_increasing; lra).
    replace (s * (2 * sqrt (2 * ln 2)) / 2 * (s * (2 * sqrt (2 * ln 2)) / 2) / (2 * (s * s)))%R
      with ((sqrt (2 * ln 2) * sqrt (2 * ln 2)) / 2)%R by (field; lra).
    rewrite sqrt_sqrt by lra. replace (2 * ln 2 / 2)%R with (ln 2) by field. rewrite exp_Ropp, exp_ln by lra. lra.
  Qed.

  (** the two numbers are the full widths at half maximum along the rotated axes *)
  Lemma fwhm_axes A x0 y0 sx sy t d e : (0 < sx)%R -> (0 < sy)%R -> (d = 1 \/ d = -1)%R -> (e = 1 \/ e = -1)%R ->
    let wx := (sx * fwhm_factor / 2)%R in
    let wy := (sy * fwhm_factor / 2)%R in
    gauss2d_astropy A x0 y0 sx sy t (x0 + d * wx * cos t)%R (y0 + d * wx * sin t)%R = (A / 2)%R /\
    gauss2d_astropy A x0 y0 sx sy t (x0 - e * wy * sin t)%R (y0 + e * wy * cos t)%R = (A / 2)%R /\
    gauss2d_astropy A x0 y0 sx sy t x0 y0 = A.
  Proof.
    intros Hx Hy Hd He wx wy.
    assert (Dd : (d * d = 1)%R) by (destruct Hd; subst; lra).
    assert (Ee : (e * e = 1)%R) by (destruct He; subst; lra).
    assert (T : (cos t * cos t = 1 - sin t * sin t)%R) by (pose proof (sin2_cos2 t); unfold Rsqr in *; lra).
    rewrite !gauss_forms by lra. unfold gauss2d. repeat split.
    - match goal with |- (A * exp (- ?q) = _)%R => replace q with (wx * wx / (2 * (sx * sx)))%R end.
      + unfold wx. rewrite exp_half by auto. lra.
      + replace (cos t * (x0 + d * wx * cos t - x0) + sin t * (y0 + d * wx * sin t - y0))%R
          with (d * wx * (cos t * cos t + sin t * sin t))%R by ring.
        rewrite T. field_simplify_eq; [|lra]. replace (d^2)%R with 1%R by (rewrite <- Dd; ring). ring.
    - match goal with |- (A * exp (- ?q) = _)%R => replace q with (wy * wy / (2 * (sy * sy)))%R end.
      + unfold wy. rewrite exp_half by auto. lra.
      + replace (- sin t * (x0 - e * wy * sin t - x0) + cos t * (y0 + e * wy * cos t - y0))%R
          with (e * wy * (cos t * cos t + sin t * sin t))%R by ring.
        rewrite T. field_simplify_eq; [|lra]. replace (e^2)%R with 1%R by (rewrite <- Ee; ring). ring.
    - match goal with |- (A * exp ?q = _)%R => replace q with 0%R by (field; lra) end. rewrite exp_0. ring.
  Qed.

  Lemma fwhm_result (image : img xr) fx fy :
    measure_fwhm O fitr opts (Fin fwhm_factor) image false = Ok (Fin fx, Fin fy) ->
    exists g, fit_gaussian2d O fitr opts image = Ok g /\
      g_sx g = Fin (fx / fwhm_factor)%R /\ g_sy g = Fin (fy / fwhm_factor)%R.
  Proof.
    assert (P : (fwhm_factor <> 0)%R).
    { unfold fwhm_factor. assert (0 < ln 2)%R by (rewrite <- ln_1; apply ln_increasing; lra).
      assert (0 < sqrt (2 * ln 2))%R by (apply sqrt_lt_R0; lra). lra. }
    unfold measure_fwhm. destruct (fit_gaussian2d O fitr opts image) as [g|]; cbn [bind]; [|discriminate].
    destruct (round_int _); cbn [bind]; [|discriminate]. intros H. injection H as Hx Hy.
    assert (S : forall s w, (s * Fin fwhm_factor)%num = Fin w -> s = Fin (w / fwhm_factor)).
    { intros s w. destruct s; cbn; unfold xopp, xsgn_inf; try (destruct (Rltb _ _); try destruct (Rltb _ _); discriminate); try discriminate.
      intros [= <-]. f_equal. field. auto. }
    exists g. repeat split; auto.
  Qed.
End Fwhm.
