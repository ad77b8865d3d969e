(** Evaluation with a delta PSF, flux through a PSF, and what happens when oversample is set back
    to None. *)
From Coq Require Import String FunctionalExtensionality.
From Verif Require Import Base Num Numpy L_Numpy S_Photometry L_Photometry M_PSF S_PSF L_PSF L_PSF2 L_PSF3 L_PSF4.
Local Open Scope list_scope.

Definition delta_psf (r s : nat) : img xr := rimg (2 * r + 1) (2 * s + 1) (delta r s).

Lemma image_finite sm ps (st : pst xr) f g mx my n imax jmax m :
  sm_kind sm = Fresh f -> computes f ps g -> (0 < over_factor st)%Z -> (0 < psf_factor st)%Z ->
  match p_over st with
  | Some (OWin cx cy size fz) =>
      apply_window sm ps cx cy size fz (psf_factor st) imax jmax
        (sm_eval sm ps (make_grid n (Fin mx, Fin my) (psf_factor st)))
  | _ => Ok (main_image sm ps mx my n (over_factor st) (over_factor st / psf_factor st))
  end = Ok m -> finite_image m.
Proof.
  destruct sm as [names k]. cbn [sm_kind]. intros -> Hc Po Pp.
  assert (MI : finite_image (main_image (mksm names (Fresh f)) ps mx my n (over_factor st) (over_factor st / psf_factor st))).
  { unfold main_image. cbv zeta. rewrite (sample_rimg _ _ _ _ _ _ _ _ Hc Po).
    destruct (Z.ltb_spec 1 (over_factor st / psf_factor st)).
    - rewrite block_mean_rimg by lia. do 3 eexists. reflexivity.
    - do 3 eexists. reflexivity. }
  destruct (p_over st) as [[fz|cx cy size fz]|] eqn:Eo.
  - intros H. apply Ok_inj in H. now subst.
  - assert (Ff : (0 < fz)%Z) by (unfold over_factor in Po; now rewrite Eo in Po).
    pose proof (sample_lin names ps 0 f f f g g Hc Hc) as SL.
    assert (H3 : computes f ps (fun x y => 0 * g x y + g x y)%R) by (intros x y; rewrite Hc; f_equal; ring).
    specialize (SL H3 n mx my (psf_factor st) Pp). cbv zeta in SL.
    destruct (window_lin names ps 0 f f f g g Hc Hc H3 cx cy size fz (psf_factor st) imax jmax _ _ _ Ff Pp SL)
      as [(w1 & w2 & w3 & E1 & _ & _ & (a & b & h1 & h2 & -> & _))|(e & E1 & _)]; rewrite E1; [|discriminate].
    intros H. apply Ok_inj in H. subst. do 3 eexists. reflexivity.
  - intros H. apply Ok_inj in H. now subst.
Qed.

Lemma delta_invisible rotate names f g (st : pst xr) r s X Y ps :
  reachable rotate (mksm names (Fresh f)) st -> computes f ps g ->
  p_psf st = Some (delta_psf r s) -> p_psf_over st = None ->
  fst (evaluate rotate (mksm names (Fresh f)) st (map Fin X) (map Fin Y) ps (Fin 0)) =
  fst (evaluate rotate (mksm names (Fresh f)) (with_psf (fresh_object st) None) (map Fin X) (map Fin Y) ps (Fin 0)).
Proof.
  intros R Hc Ep Epo. set (sm := mksm names (Fresh f)) in *.
  destruct (factors_positive _ _ _ R) as [Po Pp].
  rewrite (cache_invisible rotate sm st) by auto. clear R.
  assert (C1 : cache_ok (fresh_object st)) by (left; auto).
  assert (C2 : cache_ok (with_psf (fresh_object st) None)) by (left; auto).
  destruct X as [|x X]; [reflexivity|].
  destruct Y as [|y Y].
  { unfold evaluate. destruct (max_exists (x :: X) ltac:(discriminate)) as [Mx Hx2]. destruct (min_exists (x :: X) ltac:(discriminate)) as [mx Hx1].
    rewrite (pymin_is_min mx), (pymax_is_max Mx) by auto. reflexivity. }
  destruct (min_exists (x :: X) ltac:(discriminate)) as [mx Hx]. destruct (min_exists (y :: Y) ltac:(discriminate)) as [my Hy].
  destruct (evaluate_image rotate sm (fresh_object st) _ _ ps (Fin 0) mx my C1 Hx Hy) as (Mx & My & Hx2 & Hy2 & E1).
  destruct (evaluate_image rotate sm (with_psf (fresh_object st) None) _ _ ps (Fin 0) mx my C2 Hx Hy) as (Mx' & My' & Hx2' & Hy2' & E2).
  assert (Mx' = Mx) as -> by (apply Rle_antisym; [apply Hx2; apply Hx2'|apply Hx2'; apply Hx2]).
  assert (My' = My) as -> by (apply Rle_antisym; [apply Hy2; apply Hy2'|apply Hy2'; apply Hy2]).
  rewrite E1, E2. clear E1 E2.
  change (p_over (with_psf (fresh_object st) None)) with (p_over (fresh_object st)).
  change (psf_factor (with_psf (fresh_object st) None)) with (psf_factor (fresh_object st)).
  change (over_factor (with_psf (fresh_object st) None)) with (over_factor (fresh_object st)).
  match goal with |- bind ?a _ = _ => destruct a as [m|e] eqn:Em; [|reflexivity] end. cbn [bind].
  apply (image_finite sm ps (fresh_object st) f g) in Em; auto.
  destruct Em as (ny & nx & h & ->). apply (finish_delta rotate (fresh_object st) r s); auto.
  apply index_nonneg; auto.
Qed.

(** ** PSF sampled more finely than the data *)
Lemma sum_to_plus a b h : sum_to (a + b) h = (sum_to a h + sum_to b (fun k => h (a + k)%nat))%R.
Proof. induction b; cbn. { rewrite Nat.add_0_r. ring. } rewrite Nat.add_succ_r. cbn. rewrite IHb. ring. Qed.

Lemma sum_to_blocks p k h : sum_to p (fun a => sum_to k (fun b => h (a * k + b)%nat)) = sum_to (p * k) h.
Proof.
  induction p; auto. cbn [sum_to]. rewrite IHp. replace (S p * k)%nat with (p * k + k)%nat by lia. now rewrite sum_to_plus.
Qed.

Lemma sum2_blocks p k (h : nat -> nat -> R) :
  sum2 p p (fun a b => sum2 k k (fun a' b' => h (a * k + a')%nat (b * k + b')%nat)) = sum2 (p * k) (p * k) h.
Proof.
  unfold sum2. rewrite <- sum_to_blocks. apply sum_to_ext. intros a _.
  rewrite (sum_to_swap p k (fun b a' => sum_to k (fun b' => h (a * k + a')%nat (b * k + b')%nat))).
  apply sum_to_ext. intros a' _. now rewrite sum_to_blocks.
Qed.

Lemma delta_oversampled rotate names f g (st : pst xr) r s fz p X Y ps mx my :
  reachable rotate (mksm names (Fresh f)) st -> computes f ps g ->
  p_over st = Some (OInt fz) -> p_psf st = Some (delta_psf r s) -> p_psf_over st = Some p -> (fz mod p = 0)%Z ->
  is_min mx X -> is_min my Y ->
  fst (evaluate rotate (mksm names (Fresh f)) st (map Fin X) (map Fin Y) ps (Fin 0)) =
  Ok (map (fun q => Fin (mean_samples g (Z.to_nat fz) (pix mx (fst q)) (pix my (snd q)))) (combine X Y)).
Proof.
  intros R Hc Eo Ep Epo Hdiv Hx Hy. set (sm := mksm names (Fresh f)) in *.
  destruct (factors_positive _ _ _ R) as [Po Pp].
  assert (Pf : (0 < fz)%Z) by (unfold over_factor in Po; now rewrite Eo in Po).
  assert (Pq : (0 < p)%Z) by (unfold psf_factor in Pp; now rewrite Epo in Pp).
  apply reachable_cache_ok in R; [|reflexivity].
  assert (Nx : X <> []) by (intros ->; destruct Hx as [[] _]).
  assert (Ny : Y <> []) by (intros ->; destruct Hy as [[] _]).
  destruct (max_exists X Nx) as [Mx Hx2]. destruct (max_exists Y Ny) as [My Hy2].
  rewrite (evaluate_plain rotate sm st X Y ps (Fin 0) mx Mx my My); auto; [|now rewrite Eo].
  unfold over_factor, psf_factor. rewrite Eo, Epo.
  set (n := gsize mx Mx my My).
  assert (Hn : (0 <= n)%Z).
  { pose proof (pixel_index_nonneg mx Mx (proj2 Hx Mx (proj1 Hx2))). unfold n, gsize. lia. }
  set (K := Z.to_nat (fz / p)). set (P := Z.to_nat p).
  assert (EF : Z.to_nat fz = (P * K)%nat).
  { unfold P, K. rewrite <- Z2Nat.inj_mul; [|lia|apply Z.div_pos; lia].
    rewrite <- (Z_div_exact_2 fz p) by lia. reflexivity. }
  assert (HK : (0 < K)%nat) by (destruct K; [|lia]; rewrite Nat.mul_0_r in EF; lia).
  assert (HP : (0 < P)%nat) by (unfold P; lia).
  set (G := fun j i : nat => g (gx mx (P * K) i) (gx my (P * K) j)).
  assert (EM : exists h, main_image sm ps mx my n fz (fz / p) = rimg (Z.to_nat n * P) (Z.to_nat n * P) h /\
     forall j i, h j i = (sum2 K K (fun a b => G (j * K + a)%nat (i * K + b)%nat) / (INR K * INR K))%R).
  { unfold main_image, sm. cbv zeta. rewrite (sample_rimg _ _ _ _ _ _ _ _ Hc Pf).
    assert (En : Z.to_nat (n * fz) = (Z.to_nat n * P * K)%nat) by (rewrite Z2Nat.inj_mul, EF; lia). rewrite En, EF.
    destruct (Z.ltb_spec 1 (fz / p)) as [L|L].
    - fold K. rewrite block_mean_rimg by auto. rewrite !Nat.div_mul by lia. eexists. split; [reflexivity|]. intros j i. reflexivity.
    - assert (K = 1%nat) as EK by (unfold K in *; lia).
      eexists. rewrite EK. rewrite !Nat.mul_1_r. split; [reflexivity|]. intros j i. unfold G. rewrite EK.
      unfold sum2. cbn [sum_to]. rewrite !Nat.mul_1_r, !Nat.add_0_r. change (INR 1) with 1%R. field. }
  destruct EM as (h & -> & Hh). unfold finish. cbv zeta. rewrite Ep. unfold delta_psf.
  assert (E0 : neqb (Fin 0) (n0 : xr) = true) by (cbn; apply Reqb_true; reflexivity). rewrite E0.
  rewrite convolve_rimg. unfold psf_factor. rewrite Epo.
  set (C := rconv (Z.to_nat n * P) (Z.to_nat n * P) h (2 * r + 1) (2 * s + 1) (delta r s)).
  assert (HC : forall j i, (j < Z.to_nat n * P)%nat -> (i < Z.to_nat n * P)%nat -> C j i = h j i) by (intros; now apply rconv_delta).
  assert (INK : INR K <> 0%R) by (pose proof (INR_pos K HK); lra).
  assert (INP : INR P <> 0%R) by (pose proof (INR_pos P HP); lra).
  assert (Val : forall j i, (j < Z.to_nat n)%nat -> (i < Z.to_nat n)%nat ->
     (sum2 P P (fun a b => C (j * P + a)%nat (i * P + b)%nat) / (INR P * INR P))%R =
     mean_samples g (Z.to_nat fz) (mx + INR i) (my + INR j)).
  { intros j i Hj Hi.
    rewrite (sum2_ext P P _ (fun a b => / (INR K * INR K) * sum2 K K (fun a' b' => (fun A B => G (j * (P * K) + A)%nat (i * (P * K) + B)%nat) (a * K + a')%nat (b * K + b')%nat))%R).
    2:{ intros a b Ha Hb. rewrite HC, Hh by nia. unfold Rdiv. rewrite Rmult_comm. f_equal.
        apply sum2_ext. intros a' b' _ _. f_equal; nia. }
    rewrite sum2_mult. rewrite (sum2_blocks P K (fun A B => G (j * (P * K) + A)%nat (i * (P * K) + B)%nat)). unfold mean_samples. rewrite EF, mult_INR.
    rewrite (sum2_ext (P * K) (P * K) (fun a b : nat => g _ _) (fun A B => G (j * (P * K) + A)%nat (i * (P * K) + B)%nat)).
    2:{ intros a b Ha Hb. unfold G. rewrite !gx_split by lia. rewrite !mult_INR. f_equal; field; auto. }
    field. auto. }
  assert (PK : forall mm, iny mm = Z.to_nat n -> inx mm = Z.to_nat n ->
     (forall j i, (j < Z.to_nat n)%nat -> (i < Z.to_nat n)%nat -> px mm j i = Fin (mean_samples g (Z.to_nat fz) (mx + INR i) (my + INR j))) ->
     mapM (fun q : Z * Z => let '(i, j) := q in
          if ((j <? Z.of_nat (iny mm)) && (i <? Z.of_nat (inx mm)))%Z
          then Ok (px mm (Z.to_nat j) (Z.to_nat i)) else Err IndexError)
     (combine (map (pixel_index mx) X) (map (pixel_index my) Y)) =
     Ok (map (fun q => Fin (mean_samples g (Z.to_nat fz) (pix mx (fst q)) (pix my (snd q)))) (combine X Y))).
  { intros mm I1 I2 Hv.
    apply (pick_ok mm (fun x y => Fin (mean_samples g (Z.to_nat fz) (pix mx x) (pix my y))) mx Mx my My X Y n); auto.
    intros x y Ix Iy.
    pose proof (pixel_index_nonneg mx x (proj2 Hx x Ix)). pose proof (pixel_index_nonneg my y (proj2 Hy y Iy)).
    assert (Lx : (pixel_index mx x <= pixel_index mx Mx)%Z) by (apply Int_part_mono; pose proof (proj2 Hx2 x Ix); lra).
    assert (Ly : (pixel_index my y <= pixel_index my My)%Z) by (apply Int_part_mono; pose proof (proj2 Hy2 y Iy); lra).
    rewrite Hv by (unfold n, gsize; lia). rewrite !INR_IZR_INZ, !Z2Nat.id by lia. reflexivity. }
  destruct (Z.ltb_spec 1 p) as [L|L].
  - fold P. rewrite block_mean_rimg by auto. rewrite !Nat.div_mul by lia. apply PK; auto.
    intros j i Hj Hi. cbn [px rimg]. f_equal. now apply Val.
  - assert (P = 1%nat) as E1 by (unfold P; lia). apply PK; cbn [iny inx rimg]; try (rewrite E1; lia).
    intros j i Hj Hi. cbn [px rimg]. f_equal. rewrite <- Val by auto. rewrite E1. unfold sum2. cbn [sum_to].
    rewrite !Nat.mul_1_r, !Nat.add_0_r. change (INR 1) with 1%R. field.
Qed.

(** ** Flux of a square image *)
Definition row_major_x (n : nat) (mx : R) : list R := flat_map (fun _ : nat => map (fun i => mx + INR i)%R (seq 0 n)) (seq 0 n).
Definition row_major_y (n : nat) (my : R) : list R := flat_map (fun j : nat => map (fun _ : nat => my + INR j)%R (seq 0 n)) (seq 0 n).

Lemma combine_app {A B} (l1 l2 : list A) (m1 m2 : list B) : List.length l1 = List.length m1 ->
  combine (l1 ++ l2) (m1 ++ m2) = combine l1 m1 ++ combine l2 m2.
Proof. revert m1. induction l1; intros [|b m1] H; cbn in *; try discriminate; auto. f_equal. auto. Qed.

Lemma combine_same {A B C} (f : A -> B) (g : A -> C) l : combine (map f l) (map g l) = map (fun x => (f x, g x)) l.
Proof. induction l; cbn; congruence. Qed.

Lemma combine_row_major n mx my : combine (row_major_x n mx) (row_major_y n my) =
  flat_map (fun j => map (fun i => (mx + INR i, my + INR j)%R) (seq 0 n)) (seq 0 n).
Proof.
  unfold row_major_x, row_major_y. generalize (seq 0 n) at 2 4 6. induction l as [|j l IH]; auto. cbn [flat_map].
  rewrite combine_app by now rewrite !map_length. rewrite IH, combine_same. reflexivity.
Qed.

Lemma row_major_min_x n mx : (0 < n)%nat -> is_min mx (row_major_x n mx).
Proof.
  intros Hn. split.
  - unfold row_major_x. apply in_flat_map. exists 0%nat. split; [apply in_seq; lia|].
    apply in_map_iff. exists 0%nat. split; [cbn; ring|apply in_seq; lia].
  - intros x H. unfold row_major_x in H. apply in_flat_map in H as (j & _ & H). apply in_map_iff in H as (i & <- & _).
    pose proof (pos_INR i). lra.
Qed.
Lemma row_major_max_x n mx : (0 < n)%nat -> is_max (mx + INR (n - 1)) (row_major_x n mx).
Proof.
  intros Hn. split.
  - unfold row_major_x. apply in_flat_map. exists 0%nat. split; [apply in_seq; lia|].
    apply in_map_iff. exists (n - 1)%nat. split; [auto|apply in_seq; lia].
  - intros x H. unfold row_major_x in H. apply in_flat_map in H as (j & _ & H). apply in_map_iff in H as (i & <- & Hi).
    apply in_seq in Hi. apply Rplus_le_compat_l, le_INR. lia.
Qed.
Lemma row_major_min_y n my : (0 < n)%nat -> is_min my (row_major_y n my).
Proof.
  intros Hn. split.
  - unfold row_major_y. apply in_flat_map. exists 0%nat. split; [apply in_seq; lia|].
    apply in_map_iff. exists 0%nat. split; [cbn; ring|apply in_seq; lia].
  - intros x H. unfold row_major_y in H. apply in_flat_map in H as (j & _ & H). apply in_map_iff in H as (i & <- & _).
    pose proof (pos_INR j). lra.
Qed.
Lemma row_major_max_y n my : (0 < n)%nat -> is_max (my + INR (n - 1)) (row_major_y n my).
Proof.
  intros Hn. split.
  - unfold row_major_y. apply in_flat_map. exists (n - 1)%nat. split; [apply in_seq; lia|].
    apply in_map_iff. exists 0%nat. split; [auto|apply in_seq; lia].
  - intros x H. unfold row_major_y in H. apply in_flat_map in H as (j & Hj & H). apply in_map_iff in H as (i & <- & Hi).
    apply in_seq in Hj. apply Rplus_le_compat_l, le_INR. lia.
Qed.

Lemma pixel_index_nat m k : pixel_index m (m + INR k) = Z.of_nat k.
Proof. unfold pixel_index. replace (m + INR k - m)%R with (IZR (Z.of_nat k)) by (rewrite <- INR_IZR_INZ; ring). apply Int_part_IZR. Qed.

Lemma flux_conserved rotate names f g (st : pst xr) r s p n mx my ps :
  reachable rotate (mksm names (Fresh f)) st -> computes f ps g ->
  plain_over (p_over st) -> p_psf st = Some (rimg (2 * r + 1) (2 * s + 1) p) -> p_psf_over st = None ->
  (0 < n)%nat ->
  let F := Z.to_nat (over_factor st) in
  let G := fun j i : nat => mean_samples g F (mx + INR i) (my + INR j) in
  (forall j i, (j < n)%nat -> (i < n)%nat -> G j i <> 0%R -> (r <= j /\ j + r < n /\ s <= i /\ i + s < n)%nat) ->
  exists l, fst (evaluate rotate (mksm names (Fresh f)) st (map Fin (row_major_x n mx)) (map Fin (row_major_y n my)) ps (Fin 0)) = Ok (map Fin l) /\
    List.length l = (n * n)%nat /\
    rsum l = (sum2 n n G * sum2 (2 * r + 1) (2 * s + 1) p)%R.
Proof.
  intros R Hc Eo Ep Epo Hn F G HG. set (sm := mksm names (Fresh f)) in *.
  destruct (factors_positive _ _ _ R) as [Po Pp].
  apply reachable_cache_ok in R; [|reflexivity].
  pose proof (row_major_min_x n mx Hn) as Hx1. pose proof (row_major_max_x n mx Hn) as Hx2.
  pose proof (row_major_min_y n my Hn) as Hy1. pose proof (row_major_max_y n my Hn) as Hy2.
  rewrite (evaluate_plain rotate sm st _ _ ps (Fin 0) mx _ my _ R Eo Hx1 Hx2 Hy1 Hy2).
  assert (P1 : psf_factor st = 1%Z) by (unfold psf_factor; now rewrite Epo).
  rewrite P1, Z.div_1_r.
  assert (En : gsize mx (mx + INR (n - 1)) my (my + INR (n - 1)) = Z.of_nat n).
  { unfold gsize. rewrite !pixel_index_nat. lia. }
  rewrite En. unfold sm. rewrite (main_image_mean names f g) by (auto; lia). rewrite Nat2Z.id. fold F.
  unfold finish. rewrite Ep. cbv zeta.
  assert (E0 : neqb (Fin 0) (n0 : xr) = true) by (cbn; apply Reqb_true; reflexivity). rewrite E0.
  change (fun J I : nat => mean_samples g F (mx + INR I) (my + INR J)) with G. rewrite convolve_rimg.
  rewrite P1. change (1 <? 1)%Z with false. cbv iota.
  set (C := rconv n n G (2 * r + 1) (2 * s + 1) p).
  set (v := fun x y => C (Z.to_nat (pixel_index my y)) (Z.to_nat (pixel_index mx x))).
  exists (flat_map (fun j => map (fun i => C j i) (seq 0 n)) (seq 0 n)). split; [|split].
  - rewrite (pick_ok (rimg n n C) (fun x y => Fin (v x y)) mx _ my _ _ _ (Z.of_nat n) Hx1 Hx2 Hy1 Hy2);
      cbn [iny inx rimg]; try (now rewrite Nat2Z.id); auto.
    f_equal. rewrite combine_row_major. clear. generalize (seq 0 n) at 2 4. induction l as [|j l IH]; auto.
    cbn [flat_map map]. rewrite !map_app, IH. f_equal. rewrite !map_map. apply map_ext. intros i. cbn [fst snd]. unfold v.
    rewrite !pixel_index_nat, !Nat2Z.id. reflexivity.
  - assert (E : forall l : list nat, List.length (flat_map (fun j => map (fun i => C j i) (seq 0 n)) l) = (List.length l * n)%nat).
    { induction l as [|j l IH]; auto. cbn [flat_map List.length]. rewrite app_length, map_length, seq_length, IH. reflexivity. }
    rewrite E, seq_length. reflexivity.
  - rewrite <- (rconv_flux n n G r s p HG). fold C. unfold sum2. rewrite <- rsum_seq. clear.
    generalize (seq 0 n) at 2 3. induction l as [|j l IH]; auto. cbn [flat_map map rsum]. rewrite rsum_app, IH, rsum_seq. reflexivity.
Qed.

(** ** oversample set back to None while psf_oversample is set *)
Lemma mapM_some_err {A B} (f : A -> result B) e l : (forall x, In x l -> (exists y, f x = Ok y) \/ f x = Err e) ->
  (exists x, In x l /\ f x = Err e) -> mapM f l = Err e.
Proof.
  induction l as [|a l IH]; intros H [x [Hx E]]; [destruct Hx|]. cbn [mapM].
  destruct (H a) as [[y Ey]|Ea]; [now left| |]. 2:{ now rewrite Ea. }
  rewrite Ey. cbn [bind]. rewrite IH; auto. { intros; apply H; now right. }
  destruct Hx as [->|Hx]; [congruence|eauto].
Qed.

Lemma combine_has_l {A B} (l : list A) : forall (m : list B) x, List.length l = List.length m -> In x l -> exists y, In (x, y) (combine l m).
Proof.
  induction l as [|a l IH]; intros [|b m] x H I; cbn in *; try discriminate; [destruct I|]. destruct I as [->|I]; [eauto|].
  destruct (IH m x) as [y Hy]; auto. eauto.
Qed.
Lemma combine_has_r {A B} (l : list A) : forall (m : list B) y, List.length l = List.length m -> In y m -> exists x, In (x, y) (combine l m).
Proof.
  induction l as [|a l IH]; intros [|b m] x H I; cbn in *; try discriminate; [destruct I|]. destruct I as [->|I]; [eauto|].
  destruct (IH m x) as [y Hy]; auto. eauto.
Qed.

Lemma none_breaks rotate names f (st : pst xr) k X Y ps pa :
  reachable rotate (mksm names (Fresh f)) st -> p_over st = None -> p_psf_over st = Some k -> (1 < k)%Z ->
  X <> [] -> List.length X = List.length Y ->
  fst (evaluate rotate (mksm names (Fresh f)) st (map Fin X) (map Fin Y) ps pa) = Err IndexError.
Proof.
  intros R Eo Ek Hk Nx EL. set (sm := mksm names (Fresh f)) in *.
  assert (Ny : Y <> []) by (destruct X, Y; cbn in *; congruence).
  apply reachable_cache_ok in R; [|reflexivity].
  destruct (max_exists X Nx) as [Mx Hx2]. destruct (min_exists X Nx) as [mx Hx1].
  destruct (max_exists Y Ny) as [My Hy2]. destruct (min_exists Y Ny) as [my Hy1].
  rewrite (evaluate_plain rotate sm st _ _ ps pa mx Mx my My R); auto; [|now rewrite Eo].
  unfold over_factor, psf_factor. rewrite Eo, Ek.
  replace (1 / k)%Z with 0%Z by (symmetry; apply Z.div_small; lia).
  unfold main_image. change (1 <? 0)%Z with false. cbv iota zeta. unfold sm. rewrite fresh_image.
  set (n := gsize mx Mx my My). unfold finish. cbv zeta.
  match goal with |- context [block_mean ?m _] => set (mm := m) end.
  assert (Dy : iny mm = Z.to_nat n /\ inx mm = Z.to_nat n) by (unfold mm; destruct (p_psf st); auto).
  unfold psf_factor. rewrite Ek. destruct (Z.ltb_spec 1 k); [|lia].
  pose proof (pixel_index_nonneg mx Mx (proj2 Hx1 Mx (proj1 Hx2))) as P1.
  pose proof (pixel_index_nonneg my My (proj2 Hy1 My (proj1 Hy2))) as P2.
  assert (Dn : (Z.of_nat (Z.to_nat n / Z.to_nat k) < n)%Z).
  { rewrite Nat2Z.inj_div, !Z2Nat.id by (unfold n, gsize; lia). apply Z.div_lt; unfold n, gsize; lia. }
  apply mapM_some_err.
  - intros [i j] _. destruct (_ && _); eauto.
  - cbn [iny inx block_mean]. destruct Dy as [-> ->].
    destruct (Z.le_ge_cases (pixel_index my My) (pixel_index mx Mx)) as [L|L].
    + destruct (combine_has_l (map (pixel_index mx) X) (map (pixel_index my) Y) (pixel_index mx Mx)) as [j Hj].
      { now rewrite !map_length. } { apply in_map, (proj1 Hx2). }
      exists (pixel_index mx Mx, j). split; auto.
      destruct (Z.ltb_spec (pixel_index mx Mx) (Z.of_nat (Z.to_nat n / Z.to_nat k))); [|now rewrite andb_false_r].
      exfalso. clear -Dn H0 L Hk P1 P2. unfold n, gsize in *. rewrite Nat2Z.inj_div, !Z2Nat.id in * by lia.
      assert ((Z.max (pixel_index mx Mx) (pixel_index my My) + 1) / k <= pixel_index mx Mx)%Z; [|lia].
      assert (Z.max (pixel_index mx Mx) (pixel_index my My) + 1 < k * (pixel_index mx Mx + 1) \/ pixel_index mx Mx = 0)%Z by nia.
      destruct H as [H|H]; [|rewrite Z.div_small; lia].
      apply Z.lt_succ_r. apply Z.div_lt_upper_bound; lia.
    + destruct (combine_has_r (map (pixel_index mx) X) (map (pixel_index my) Y) (pixel_index my My)) as [i Hi].
      { now rewrite !map_length. } { apply in_map, (proj1 Hy2). }
      exists (i, pixel_index my My). split; auto.
      destruct (Z.ltb_spec (pixel_index my My) (Z.of_nat (Z.to_nat n / Z.to_nat k))); [|reflexivity].
      exfalso. clear -Dn H0 L Hk P1 P2. unfold n, gsize in *. rewrite Nat2Z.inj_div, !Z2Nat.id in * by lia.
      assert ((Z.max (pixel_index mx Mx) (pixel_index my My) + 1) / k <= pixel_index my My)%Z; [|lia].
      assert (Z.max (pixel_index mx Mx) (pixel_index my My) + 1 < k * (pixel_index my My + 1) \/ pixel_index my My = 0)%Z by nia.
      destruct H as [H|H]; [|rewrite Z.div_small; lia].
      apply Z.lt_succ_r. apply Z.div_lt_upper_bound; lia.
Qed.
