(** Proofs about the mode 'integrate'. *)
From Coq Require Import String.
From Coquelicot Require Import Coquelicot.
From Verif Require Import Base Num Numpy S_Photometry M_PSF S_PSF M_Fitting S_Fitting L_PSF L_Fitting M_Integrate S_Integrate.
From Verif Require Import L_Quad.
From Verif Require L_Photometry.
Local Open Scope list_scope.
Local Open Scope R_scope.

Lemma continuous2_cont2 g : continuous2 g -> cont2 g.
Proof.
  intros H x y eps. destruct (H x y eps (cond_pos eps)) as (d & Hd & P). exists (mkposreal d Hd). intros u v Hu Hv. apply P; auto.
Qed.

Lemma slope_continuous L g : slope_at_most L g -> continuous2 g.
Proof.
  intros H x y e He. set (M := Rabs L + 1). assert (HM : 0 < M) by (unfold M; generalize (Rabs_pos L); lra).
  exists (e / (2 * M)). split; [apply Rdiv_lt_0_compat; lra|]. intros x' y' Hx Hy.
  generalize (Rabs_pos (x' - x)) (Rabs_pos (y' - y)). intros Px Py.
  apply Rle_lt_trans with (M * (Rabs (x' - x) + Rabs (y' - y))).
  - eapply Rle_trans; [apply H|]. apply Rmult_le_compat_r; [lra|]. unfold M. generalize (Rle_abs L). lra.
  - apply Rlt_le_trans with (M * (e / (2 * M) + e / (2 * M))); [apply Rmult_lt_compat_l; lra|]. right. field. lra.
Qed.

Lemma integral2_box g a b c d : cont2 g -> a <= b -> c <= d -> integral2 g a b c d (box g a b c d).
Proof.
  intros G A C. exists (fun x => RInt (fun y => g x y) c d). split.
  - intros x _. apply (RInt_correct (V := R_CompleteNormedModule)). apply inner_ex. exact G.
  - apply (RInt_correct (V := R_CompleteNormedModule)). apply outer_ex; auto.
Qed.
Lemma integral2_unique g a b c d I : cont2 g -> a <= b -> c <= d -> integral2 g a b c d I -> I = box g a b c d.
Proof. intros G A C (h & H1 & H2). eapply iterated_box; eauto. Qed.

(** pixel (j, i) of an image starting at (x0, y0) *)
Definition pixel_box (g : R -> R -> R) (x0 y0 : R) (j i : nat) : R :=
  box g (x0 + INR i - 1/2) (x0 + INR i + 1/2) (y0 + INR j - 1/2) (y0 + INR j + 1/2).

Lemma integrate_box dblquad f g size flag center nx ny x0 y0 : integrates dblquad -> real_function f g -> cont2 g ->
  size_means size flag nx ny -> origin_is center nx ny x0 y0 -> (0 <= nx)%Z -> (0 <= ny)%Z ->
  exists m, model_to_image_integrate dblquad f size flag center = Ok m /\
    image_of m (Z.to_nat ny) (Z.to_nat nx) (pixel_box g x0 y0).
Proof.
  intros HI Hf G Hs Ho Nx Ny. unfold model_to_image_integrate.
  replace (validate_image_size size flag) with (@Ok (Z * Z) (nx, ny)) by (symmetry; apply validate_ok; exact Hs). cbn [bind].
  generalize (origin_ok center nx ny x0 y0 Ho). intros E.
  match goal with |- context [bind ?o _] => replace o with (@Ok (xr * xr) (Fin x0, Fin y0)) by (symmetry; exact E) end.
  cbn [bind]. change (Fin x0 + nofZ nx)%num with (Fin (x0 + IZR nx)). change (Fin y0 + nofZ ny)%num with (Fin (y0 + IZR ny)).
  rewrite !range_len_ok. cbn [bind]. unfold discretize_integrate.
  destruct (Z.ltb_spec nx 0); [lia|]. destruct (Z.ltb_spec ny 0); [lia|]. cbn [orb].
  eexists. split; [reflexivity|]. repeat split. intros j i _ _. cbn [px].
  rewrite half_xr. change (Fin x0 - Fin (1/2))%num with (Fin (x0 - 1/2)).
  change (Fin y0 - Fin (1/2))%num with (Fin (y0 - 1/2)). rewrite !arange_at_xr, !plus_INR. change (INR 1) with 1.
  replace (x0 - 1/2 + (INR i + 1)) with (x0 + INR i + 1/2) by field.
  replace (x0 - 1/2 + INR i) with (x0 + INR i - 1/2) by field.
  replace (y0 - 1/2 + (INR j + 1)) with (y0 + INR j + 1/2) by field.
  replace (y0 - 1/2 + INR j) with (y0 + INR j - 1/2) by field.
  apply (HI _ g); [lra| |apply integral2_box; auto; lra]. intros y x. apply Hf.
Qed.

Lemma integrate_negative dblquad (f : xr -> xr -> xr) size flag center nx ny x0 y0 :
  size_means size flag nx ny -> origin_is center nx ny x0 y0 -> (nx < 0)%Z \/ (ny < 0)%Z ->
  model_to_image_integrate dblquad f size flag center = Err ValueError.
Proof.
  intros Hs Ho Nx. unfold model_to_image_integrate.
  replace (validate_image_size size flag) with (@Ok (Z * Z) (nx, ny)) by (symmetry; apply validate_ok; exact Hs). cbn [bind].
  generalize (origin_ok center nx ny x0 y0 Ho). intros E.
  match goal with |- context [bind ?o _] => replace o with (@Ok (xr * xr) (Fin x0, Fin y0)) by (symmetry; exact E) end.
  cbn [bind]. change (Fin x0 + nofZ nx)%num with (Fin (x0 + IZR nx)). change (Fin y0 + nofZ ny)%num with (Fin (y0 + IZR ny)).
  rewrite !range_len_ok. cbn [bind]. unfold discretize_integrate.
  destruct (Z.ltb_spec nx 0); [reflexivity|]. destruct (Z.ltb_spec ny 0); [reflexivity|]. lia.
Qed.

Lemma integrate_pixels dblquad f g size flag center nx ny x0 y0 : integrates dblquad -> real_function f g -> continuous2 g ->
  size_means size flag nx ny -> origin_is center nx ny x0 y0 -> (0 <= nx)%Z -> (0 <= ny)%Z ->
  exists m v, model_to_image_integrate dblquad f size flag center = Ok m /\ image_of m (Z.to_nat ny) (Z.to_nat nx) v /\
    forall j i, integral2 g (x0 + INR i - 1/2) (x0 + INR i + 1/2) (y0 + INR j - 1/2) (y0 + INR j + 1/2) (v j i).
Proof.
  intros HI Hf G Hs Ho Nx Ny. apply continuous2_cont2 in G.
  destruct (integrate_box dblquad f g size flag center nx ny x0 y0) as (m & E & I); auto.
  exists m, (pixel_box g x0 y0). split; auto. split; auto. intros j i. apply integral2_box; auto; lra.
Qed.

Lemma row_sum g x0 c d n : cont2 g -> c <= d ->
  sum_to n (fun i => box g (x0 + INR i - 1/2) (x0 + INR i + 1/2) c d) = box g (x0 - 1/2) (x0 + INR n - 1/2) c d.
Proof.
  intros G C. induction n as [|n IH].
  - cbn [sum_to]. change (INR 0) with 0. rewrite Rplus_0_r, box_empty_x. reflexivity.
  - cbn [sum_to]. rewrite IH, S_INR. replace (x0 + (INR n + 1) - 1/2) with (x0 + INR n + 1/2) by field. apply box_add_x; auto.
Qed.
Lemma column_sum g a b y0 n : cont2 g ->
  sum_to n (fun j => box g a b (y0 + INR j - 1/2) (y0 + INR j + 1/2)) = box g a b (y0 - 1/2) (y0 + INR n - 1/2).
Proof.
  intros G. induction n as [|n IH].
  - cbn [sum_to]. change (INR 0) with 0. rewrite Rplus_0_r, box_empty_y. reflexivity.
  - cbn [sum_to]. rewrite IH, S_INR. replace (y0 + (INR n + 1) - 1/2) with (y0 + INR n + 1/2) by field.
    apply box_add_y; auto; generalize (pos_INR n); lra.
Qed.
Lemma all_sum g x0 y0 ny nx : cont2 g ->
  sum2 ny nx (pixel_box g x0 y0) = box g (x0 - 1/2) (x0 + INR nx - 1/2) (y0 - 1/2) (y0 + INR ny - 1/2).
Proof.
  intros G. unfold sum2, pixel_box. rewrite <- column_sum by auto. apply L_Photometry.sum_to_ext. intros j _.
  apply row_sum; auto. lra.
Qed.

Lemma integrate_total dblquad f g size flag center nx ny x0 y0 F : integrates dblquad -> real_function f g -> continuous2 g ->
  size_means size flag nx ny -> origin_is center nx ny x0 y0 -> (0 <= nx)%Z -> (0 <= ny)%Z ->
  integral2 g (x0 - 1/2) (x0 + IZR nx - 1/2) (y0 - 1/2) (y0 + IZR ny - 1/2) F ->
  exists m v, model_to_image_integrate dblquad f size flag center = Ok m /\ image_of m (Z.to_nat ny) (Z.to_nat nx) v /\
    sum2 (Z.to_nat ny) (Z.to_nat nx) v = F.
Proof.
  intros HI Hf G Hs Ho Nx Ny HF. apply continuous2_cont2 in G.
  destruct (integrate_box dblquad f g size flag center nx ny x0 y0) as (m & E & I); auto.
  exists m, (pixel_box g x0 y0). split; auto. split; auto. rewrite all_sum by auto.
  rewrite !INR_IZR_INZ, !Z2Nat.id by auto. symmetry. apply integral2_unique; auto.
  - assert (0 <= IZR nx) by (apply IZR_le; auto). lra.
  - assert (0 <= IZR ny) by (apply IZR_le; auto). lra.
Qed.

Lemma integral2_affine p q r a b c d : 
  box (fun x y => p + q * x + r * y) a b c d = (b - a) * (d - c) * (p + q * ((a + b) / 2) + r * ((c + d) / 2)).
Proof. apply box_affine. Qed.

Lemma integrate_affine dblquad f p q r size flag center nx ny x0 y0 : integrates dblquad ->
  real_function f (fun x y => p + q * x + r * y) -> size_means size flag nx ny -> origin_is center nx ny x0 y0 ->
  (0 <= nx)%Z -> (0 <= ny)%Z ->
  exists m, model_to_image_integrate dblquad f size flag center = Ok m /\
    image_of m (Z.to_nat ny) (Z.to_nat nx) (fun j i => p + q * (x0 + INR i) + r * (y0 + INR j)).
Proof.
  intros HI Hf Hs Ho Nx Ny.
  destruct (integrate_box dblquad f _ size flag center nx ny x0 y0 HI Hf (cont2_affine p q r) Hs Ho Nx Ny) as (m & E & I1 & I2 & I3).
  exists m. split; auto. split; [auto|split; [auto|]]. intros j i Hj Hi. rewrite I3 by auto. f_equal. unfold pixel_box. rewrite box_affine. field.
Qed.

Lemma integrate_bounds dblquad f g size flag center nx ny x0 y0 lo hi : integrates dblquad -> real_function f g -> continuous2 g ->
  size_means size flag nx ny -> origin_is center nx ny x0 y0 -> (0 <= nx)%Z -> (0 <= ny)%Z ->
  exists m v, model_to_image_integrate dblquad f size flag center = Ok m /\ image_of m (Z.to_nat ny) (Z.to_nat nx) v /\
    forall j i, (forall x y, Rabs (x - (x0 + INR i)) < 1/2 -> Rabs (y - (y0 + INR j)) < 1/2 -> lo <= g x y <= hi) -> lo <= v j i <= hi.
Proof.
  intros HI Hf G Hs Ho Nx Ny. apply continuous2_cont2 in G.
  destruct (integrate_box dblquad f g size flag center nx ny x0 y0) as (m & E & I); auto.
  exists m, (pixel_box g x0 y0). split; auto. split; auto. intros j i H.
  assert (B : (x0 + INR i + 1/2 - (x0 + INR i - 1/2)) * (y0 + INR j + 1/2 - (y0 + INR j - 1/2)) = 1) by field.
  assert (P : (x0 + INR i + 1/2 - (x0 + INR i - 1/2)) * (y0 + INR j + 1/2 - (y0 + INR j - 1/2)) * lo <= pixel_box g x0 y0 j i <=
              (x0 + INR i + 1/2 - (x0 + INR i - 1/2)) * (y0 + INR j + 1/2 - (y0 + INR j - 1/2)) * hi).
  { apply box_bounds; auto; try lra. intros x y Hx Hy. apply H; apply Rabs_def1; lra. }
  rewrite B in P. lra.
Qed.

(** ** the other modes against the integral *)

Lemma sum_to_scal c n f : sum_to n (fun i => c * f i) = c * sum_to n f.
Proof. induction n; cbn [sum_to]; [ring|]. rewrite IHn. ring. Qed.
Lemma sum_to_const c n : sum_to n (fun _ => c) = INR n * c.
Proof. induction n; cbn [sum_to]; [change (INR 0) with 0; ring|]. rewrite IHn, S_INR. ring. Qed.
Lemma sum_to_minus n f h : sum_to n f - sum_to n h = sum_to n (fun i => f i - h i).
Proof. induction n; cbn [sum_to]; [ring|]. rewrite <- IHn. ring. Qed.
Lemma sum_to_abs n f e : (forall i, (i < n)%nat -> Rabs (f i) <= e) -> Rabs (sum_to n f) <= INR n * e.
Proof.
  intros H. induction n as [|n IH]; cbn [sum_to].
  - rewrite Rabs_R0. change (INR 0) with 0. lra.
  - rewrite S_INR. eapply Rle_trans; [apply Rabs_triang|]. assert (Rabs (sum_to n f) <= INR n * e) by (apply IH; intros; apply H; lia).
    assert (Rabs (f n) <= e) by (apply H; lia). lra.
Qed.

(** one cell of width 1/k: the integral is its area times the value at its centre, up to the slope *)
Lemma cell g L cx cy w : slope_at_most L g -> 0 <= w -> 0 <= L ->
  Rabs (box g (cx - w) (cx + w) (cy - w) (cy + w) - (2 * w) * (2 * w) * g cx cy) <= (2 * w) * (2 * w) * (L * (2 * w)).
Proof.
  intros H W HL. generalize (box_bounds g (cx - w) (cx + w) (cy - w) (cy + w) (g cx cy - L * (2 * w)) (g cx cy + L * (2 * w))). intros B.
  assert (P : (cx + w - (cx - w)) * (cy + w - (cy - w)) * (g cx cy - L * (2 * w)) <= box g (cx - w) (cx + w) (cy - w) (cy + w) <=
    (cx + w - (cx - w)) * (cy + w - (cy - w)) * (g cx cy + L * (2 * w))).
  { apply B; try lra. 
    - apply continuous2_cont2. eapply slope_continuous. exact H.
    - intros x y Hx Hy. specialize (H cx cy x y).
      assert (Rabs (x - cx) <= w) by (apply Rabs_le; lra). assert (Rabs (y - cy) <= w) by (apply Rabs_le; lra).
      assert (L * (Rabs (x - cx) + Rabs (y - cy)) <= L * (2 * w)) by (apply Rmult_le_compat_l; lra).
      apply Rabs_le_between in H. lra. }
  apply Rabs_le. replace (cx + w - (cx - w)) with (2 * w) in P by ring. replace (cy + w - (cy - w)) with (2 * w) in P by ring. nra.
Qed.

(** a pixel cut into k x k cells *)
Lemma cut_x g a w c d n : cont2 g -> c <= d -> sum_to n (fun i => box g (a + INR i * w) (a + (INR i + 1) * w) c d) = box g a (a + INR n * w) c d.
Proof.
  intros G C. induction n as [|n IH]; cbn [sum_to].
  - change (INR 0) with 0. rewrite Rmult_0_l, Rplus_0_r, box_empty_x. reflexivity.
  - rewrite IH, S_INR. apply box_add_x; auto.
Qed.
Lemma cut_y g a b c w n : cont2 g -> 0 <= w -> sum_to n (fun j => box g a b (c + INR j * w) (c + (INR j + 1) * w)) = box g a b c (c + INR n * w).
Proof.
  intros G C. induction n as [|n IH]; cbn [sum_to].
  - change (INR 0) with 0. rewrite Rmult_0_l, Rplus_0_r, box_empty_y. reflexivity.
  - rewrite IH, S_INR. apply box_add_y; auto; generalize (Rmult_le_pos _ _ (pos_INR n) C); lra.
Qed.

Lemma mean_close g L k cx cy : slope_at_most L g -> 0 <= L -> (0 < k)%nat ->
  Rabs (mean_samples g k cx cy - box g (cx - 1/2) (cx + 1/2) (cy - 1/2) (cy + 1/2)) <= L / INR k.
Proof.
  intros H HL Hk. assert (K : 0 < INR k) by (apply lt_0_INR; lia).
  assert (G : cont2 g) by (apply continuous2_cont2; eapply slope_continuous; exact H).
  set (w := / INR k). assert (W : 0 < w) by (apply Rinv_0_lt_compat; auto).
  assert (KW : INR k * w = 1) by (unfold w; field; lra).
  assert (D : box g (cx - 1/2) (cx + 1/2) (cy - 1/2) (cy + 1/2) =
    sum_to k (fun a => sum_to k (fun b => box g (cx - 1/2 + INR b * w) (cx - 1/2 + (INR b + 1) * w) (cy - 1/2 + INR a * w) (cy - 1/2 + (INR a + 1) * w)))).
  { transitivity (sum_to k (fun a => box g (cx - 1/2) (cx - 1/2 + INR k * w) (cy - 1/2 + INR a * w) (cy - 1/2 + (INR a + 1) * w))).
    - rewrite cut_y by (auto; lra). rewrite KW. f_equal; field.
    - apply L_Photometry.sum_to_ext. intros a _. symmetry. apply cut_x; auto. lra. }
  rewrite D. unfold mean_samples, sum2.
  assert (E : sum_to k (fun a => sum_to k (fun b => g (cx - 1/2 + (INR b + 1/2) / INR k) (cy - 1/2 + (INR a + 1/2) / INR k))) / (INR k * INR k) =
    sum_to k (fun a => sum_to k (fun b => w * w * g (cx - 1/2 + (INR b + 1/2) * w) (cy - 1/2 + (INR a + 1/2) * w)))).
  { transitivity ((w * w) * sum_to k (fun a => sum_to k (fun b => g (cx - 1/2 + (INR b + 1/2) / INR k) (cy - 1/2 + (INR a + 1/2) / INR k)))).
    - unfold w. field. lra.
    - rewrite <- sum_to_scal. apply L_Photometry.sum_to_ext. intros a _. rewrite <- sum_to_scal. reflexivity. }
  rewrite E, sum_to_minus.
  replace (L / INR k) with (INR k * (INR k * (w * w * (L * w)))) by (unfold w; field; lra).
  apply sum_to_abs. intros a _. rewrite sum_to_minus. apply sum_to_abs. intros b _.
  generalize (cell g L (cx - 1/2 + (INR b + 1/2) * w) (cy - 1/2 + (INR a + 1/2) * w) (w / 2) H ltac:(lra) HL).
  replace (2 * (w / 2)) with w by field.
  replace (cx - 1/2 + (INR b + 1/2) * w - w / 2) with (cx - 1/2 + INR b * w) by field.
  replace (cx - 1/2 + (INR b + 1/2) * w + w / 2) with (cx - 1/2 + (INR b + 1) * w) by field.
  replace (cy - 1/2 + (INR a + 1/2) * w - w / 2) with (cy - 1/2 + INR a * w) by field.
  replace (cy - 1/2 + (INR a + 1/2) * w + w / 2) with (cy - 1/2 + (INR a + 1) * w) by field.
  rewrite Rabs_minus_sym. auto.
Qed.

Lemma mean_one g cx cy : mean_samples g 1 cx cy = g cx cy.
Proof. unfold mean_samples, sum2. cbn [sum_to INR]. replace (cx - 1/2 + (0 + 1/2) / 1) with cx by field. replace (cy - 1/2 + (0 + 1/2) / 1) with cy by field. field. Qed.

Lemma corners_close g L cx cy : slope_at_most L g -> 0 <= L ->
  Rabs ((g (cx - 1/2) (cy - 1/2) + g (cx + 1/2) (cy - 1/2) + g (cx - 1/2) (cy + 1/2) + g (cx + 1/2) (cy + 1/2)) / 4
        - box g (cx - 1/2) (cx + 1/2) (cy - 1/2) (cy + 1/2)) <= L.
Proof.
  intros H HL. set (m := (_ + _ + _ + _) / 4).
  assert (G : cont2 g) by (apply continuous2_cont2; eapply slope_continuous; exact H).
  assert (P : (cx + 1/2 - (cx - 1/2)) * (cy + 1/2 - (cy - 1/2)) * (m - L) <= box g (cx - 1/2) (cx + 1/2) (cy - 1/2) (cy + 1/2) <=
    (cx + 1/2 - (cx - 1/2)) * (cy + 1/2 - (cy - 1/2)) * (m + L)).
  { apply box_bounds; auto; try lra. intros x y Hx Hy.
    generalize (H x y (cx - 1/2) (cy - 1/2)) (H x y (cx + 1/2) (cy - 1/2)) (H x y (cx - 1/2) (cy + 1/2)) (H x y (cx + 1/2) (cy + 1/2)).
    rewrite (Rabs_left1 (cx - 1/2 - x)), (Rabs_left1 (cy - 1/2 - y)), (Rabs_pos_eq (cx + 1/2 - x)), (Rabs_pos_eq (cy + 1/2 - y)) by lra.
    intros A B C D. apply Rabs_le_between in A. apply Rabs_le_between in B. apply Rabs_le_between in C. apply Rabs_le_between in D.
    unfold m. split; lra. }
  apply Rabs_le. replace ((cx + 1/2 - (cx - 1/2)) * (cy + 1/2 - (cy - 1/2))) with 1 in P by field. lra.
Qed.

Lemma modes_close dblquad f g L size flag center k nx ny x0 y0 : integrates dblquad -> real_function f g -> slope_at_most L g -> 0 <= L ->
  size_means size flag nx ny -> origin_is center nx ny x0 y0 -> (0 <= nx)%Z -> (0 <= ny)%Z -> (0 < k)%Z ->
  exists m c l o, model_to_image_integrate dblquad f size flag center = Ok m /\
    model_to_image (pointwise f) size flag Center k center = Ok c /\
    model_to_image (pointwise f) size flag LinearInterp k center = Ok l /\
    model_to_image (pointwise f) size flag Oversample k center = Ok o /\
    forall j i, (j < Z.to_nat ny)%nat -> (i < Z.to_nat nx)%nat -> exists vm vc vl vo,
      px m j i = Fin vm /\ px c j i = Fin vc /\ px l j i = Fin vl /\ px o j i = Fin vo /\
      Rabs (vc - vm) <= L /\ Rabs (vl - vm) <= L /\ Rabs (vo - vm) <= L / IZR k.
Proof.
  intros HI Hf H HL Hs Ho Nx Ny Hk.
  assert (G : cont2 g) by (apply continuous2_cont2; eapply slope_continuous; exact H).
  destruct (integrate_box dblquad f g size flag center nx ny x0 y0) as (m & E & M1 & M2 & M3); auto.
  destruct (center_pixels f g size flag k center nx ny x0 y0) as (c & Ec & C1 & C2 & C3); auto.
  destruct (bilinear_pixels f g size flag k center nx ny x0 y0) as (l & El & L1 & L2 & L3); auto.
  destruct (oversample_pixels f g size flag k center nx ny x0 y0) as (o & Eo & O1 & O2 & O3); auto.
  exists m, c, l, o. repeat (split; [assumption|]). intros j i Hj Hi.
  exists (pixel_box g x0 y0 j i). eexists. eexists. eexists.
  split; [apply M3; auto|]. split; [apply C3; auto|]. split; [apply L3; auto|]. split; [apply O3; auto|].
  unfold pixel_box. split; [|split].
  - rewrite <- (mean_one g). replace L with (L / INR 1) by (cbn; field). apply mean_close; auto.
  - apply corners_close; auto.
  - replace (IZR k) with (INR (Z.to_nat k)) by (rewrite INR_IZR_INZ, Z2Nat.id by lia; reflexivity). apply mean_close; auto. lia.
Qed.
