(** Proofs about fitting.py: sizes, sampling. *)
From Coq Require Import String FunctionalExtensionality.
From Verif Require Import Base Num Numpy L_Numpy M_Photometry S_Photometry L_Photometry M_PSF S_PSF L_PSF L_PSF2 M_Fitting S_Fitting.
Local Open Scope list_scope.
Local Open Scope R_scope.

Lemma Rtrunc_IZR z : Rtrunc (IZR z) = z.
Proof.
  unfold Rtrunc. destruct (Rleb 0 (IZR z)).
  - apply Int_part_spec. lra.
  - assert (Int_part (- IZR z) = - z)%Z by (rewrite <- opp_IZR; apply Int_part_spec; lra). lia.
Qed.

Lemma niswhole_spec x : niswhole (Fin x) = true -> x = IZR (Rtrunc x).
Proof. unfold niswhole. cbn. unfold Reqb. destruct (Req_EM_T _ _); [auto|discriminate]. Qed.
Lemma niswhole_IZR z : niswhole (Fin (IZR z)) = true.
Proof. unfold niswhole. cbn. rewrite Rtrunc_IZR. unfold Reqb. destruct (Req_EM_T _ _); auto; congruence. Qed.

Lemma size_entry_ok (v : pyv xr) z : size_entry v = Ok z <-> whole_number v z.
Proof.
  unfold whole_number. split.
  - destruct v as [| z' | t | s | l | |]; cbn; try discriminate.
    + intros [= ->]. auto.
    + destruct (niswhole t) eqn:E; try discriminate. destruct t as [| | |r]; try discriminate.
      cbn. intros [= <-]. right. f_equal. f_equal. now apply niswhole_spec.
  - intros [->| ->]; cbn [size_entry]; auto. rewrite niswhole_IZR. cbn. now rewrite Rtrunc_IZR.
Qed.

Lemma validate_ok (size : pyv xr) flag nx ny :
  validate_image_size size flag = Ok (nx, ny) <-> size_means size flag nx ny.
Proof.
  split.
  - destruct size as [| z | t | s | l | |]; cbn [validate_image_size]; try discriminate.
    + destruct flag; [discriminate|]. cbn. intros [= <- <-]. constructor. left; auto.
    + destruct flag; [discriminate|]. intros H. destruct (size_entry (VFloat t)) eqn:E; [|discriminate].
      cbn in H. injection H as <- <-. constructor. now apply size_entry_ok.
    + destruct l as [|a [|b [|c l]]]; try discriminate. intros H.
      destruct (size_entry a) eqn:Ea; [|discriminate]. cbn [bind] in H.
      destruct (size_entry b) eqn:Eb; [|discriminate]. cbn in H. injection H as <- <-.
      constructor; now apply size_entry_ok.
  - intros H. destruct H as [v z H | a b x y flag Ha Hb].
    + apply size_entry_ok in H. destruct v; try discriminate H; cbn [validate_image_size].
      * now rewrite H.
      * now rewrite H.
    + cbn [validate_image_size]. apply size_entry_ok in Ha, Hb. now rewrite Ha, Hb.
Qed.

(** rejected sizes *)
Lemma validate_rejects (size : pyv xr) flag : (forall nx ny, ~ size_means size flag nx ny) ->
  validate_image_size size flag =
  Err (match size with
       | VSeq [a; b] => match (match a with VInt _ => b | VFloat x => if niswhole x then b else a | _ => a end) with
                        | VInt _ | VFloat _ => AssertionError | _ => TypeError end
       | VSeq _ => AssertionError
       | VInt _ | VFloat _ => if flag then ValueError else AssertionError
       | _ => ValueError
       end).
Proof.
  intros H. destruct (validate_image_size size flag) as [[nx ny]|e] eqn:E.
  { apply validate_ok in E. now destruct (H nx ny). }
  rewrite <- E. clear H.
  destruct size as [| z | t | s | l | |]; cbn [validate_image_size] in *; auto.
  - destruct flag; auto. discriminate.
  - destruct flag; auto. cbn [size_entry] in *. destruct (niswhole t); auto. destruct (ntrunc t); auto. discriminate.
  - destruct l as [|a [|b [|c l]]]; auto. 
    destruct a as [| za | ta | | | |]; cbn [size_entry bind] in *; auto.
    + destruct b as [| zb | tb | | | |]; cbn [size_entry bind] in *; auto; try discriminate.
      destruct (niswhole tb); auto. destruct (ntrunc tb); auto. discriminate.
    + destruct (niswhole ta) eqn:Wa; [|reflexivity].
      assert (exists z, ntrunc ta = Some z) as [za Ha].
      { unfold niswhole in Wa. destruct (ntrunc ta); [eauto|discriminate]. }
      rewrite Ha in *. cbn [bind] in *.
      destruct b as [| zb | tb | | | |]; cbn [size_entry bind] in *; auto; try discriminate.
      destruct (niswhole tb); auto. destruct (ntrunc tb); auto. discriminate.
Qed.

Lemma size_rejected (model : img xr -> img xr -> result (img xr)) size flag m f center : (forall nx ny, ~ size_means size flag nx ny) ->
  exists e, model_to_image model size flag m f center = Err e /\ (e = AssertionError \/ e = ValueError \/ e = TypeError).
Proof.
  intros H. unfold model_to_image. rewrite (validate_rejects size flag H). eexists; split; [reflexivity|].
  destruct size as [| | | |l| |]; auto; try (destruct flag; auto).
  - destruct l as [|a [|b [|c l]]]; auto. destruct (match a with VInt _ => b | VFloat x => _ | _ => a end); auto.
  - destruct l as [|a [|b [|c l]]]; auto. destruct (match a with VInt _ => b | VFloat x => _ | _ => a end); auto.
Qed.

Lemma center_entry_ok v r : real_number v r -> center_entry v = Ok (Fin r).
Proof. intros [(z & -> & ->)| ->]; reflexivity. Qed.

Lemma half_floor n h : (2 * h <= n < 2 * h + 2)%Z -> (n / 2 = h)%Z.
Proof. intros H. symmetry. apply (Z.div_unique_pos n 2 h (n - 2 * h)); lia. Qed.

Lemma origin_ok center nx ny x0 y0 : origin_is center nx ny x0 y0 ->
  match center with None => Ok (n0, n0) | Some c => model_center_to_image_origin c nx ny end = Ok (Fin x0, Fin y0).
Proof.
  destruct center as [[| | | |l| |]|]; cbn [origin_is]; try tauto.
  - destruct l as [|a [|b [|c l]]]; try tauto.
    intros (cx & cy & Ha & Hb & (hx & Hx & ->) & (hy & Hy & ->)).
    cbn [model_center_to_image_origin]. rewrite (center_entry_ok _ _ Ha), (center_entry_ok _ _ Hb). cbn [bind].
    now rewrite (half_floor _ _ Hx), (half_floor _ _ Hy).
  - intros [-> ->]. reflexivity.
Qed.

Lemma center_rejected (model : img xr -> img xr -> result (img xr)) size flag m f c nx ny :
  size_means size flag nx ny -> (forall a b, c <> VSeq [a; b]) ->
  model_to_image model size flag m f (Some c) = Err AssertionError.
Proof.
  intros Hs Hc. unfold model_to_image. apply validate_ok in Hs. rewrite Hs. cbn [bind].
  destruct c as [| | | |l| |]; auto. destruct l as [|a [|b [|d l]]]; auto. now destruct (Hc a b).
Qed.

Lemma range_len_ok x n : range_len (Fin x) (Fin (x + IZR n)) = Ok n.
Proof.
  unfold range_len. cbn [nsub XRnum xsub xopp xadd]. replace (x + IZR n + - x) with (IZR n) by ring.
  rewrite niswhole_IZR. cbn. now rewrite Rtrunc_IZR.
Qed.

Lemma arange_at_xr x k : arange_at (Fin x) k = Fin (x + INR k).
Proof. unfold arange_at. rewrite nofnat_xr. cbn. f_equal. ring. Qed.

Lemma model_to_image_discretize (model : img xr -> img xr -> result (img xr)) size flag m f center nx ny x0 y0 :
  size_means size flag nx ny -> origin_is center nx ny x0 y0 ->
  model_to_image model size flag m f center =
  discretize_model model (Fin x0) (Fin (x0 + IZR nx)) (Fin y0) (Fin (y0 + IZR ny)) m f.
Proof.
  intros Hs Ho. unfold model_to_image. apply validate_ok in Hs. rewrite Hs. cbn [bind].
  rewrite (origin_ok _ _ _ _ _ Ho). reflexivity.
Qed.

(** mode 'center': the model is called once on the pixel coordinates *)
Lemma center_mode (model : img xr -> img xr -> result (img xr)) size flag f center nx ny x0 y0 :
  size_means size flag nx ny -> origin_is center nx ny x0 y0 ->
  model_to_image model size flag Center f center =
  model (rimg (Z.to_nat ny) (Z.to_nat nx) (fun _ i => x0 + INR i)) (rimg (Z.to_nat ny) (Z.to_nat nx) (fun j _ => y0 + INR j)).
Proof.
  intros Hs Ho. rewrite (model_to_image_discretize _ _ _ _ _ _ _ _ _ _ Hs Ho).
  unfold discretize_model. rewrite !range_len_ok. cbn [bind]. unfold discretize_center, meshgrid, rimg.
  f_equal; f_equal; do 2 (apply functional_extensionality; intro); apply arange_at_xr.
Qed.

Lemma center_pixels f g size flag k center nx ny x0 y0 :
  real_function f g -> size_means size flag nx ny -> origin_is center nx ny x0 y0 ->
  exists m, model_to_image (pointwise f) size flag Center k center = Ok m /\
    image_of m (Z.to_nat ny) (Z.to_nat nx) (fun j i => g (x0 + INR i) (y0 + INR j)).
Proof.
  intros Hf Hs Ho. rewrite (center_mode _ _ _ _ _ _ _ _ _ Hs Ho). eexists; split; [reflexivity|].
  repeat split. intros j i _ _. cbn. apply Hf.
Qed.

Lemma bilinear_pixels f g size flag k center nx ny x0 y0 :
  real_function f g -> size_means size flag nx ny -> origin_is center nx ny x0 y0 ->
  exists m, model_to_image (pointwise f) size flag LinearInterp k center = Ok m /\
    image_of m (Z.to_nat ny) (Z.to_nat nx) (fun j i =>
      let x := x0 + INR i in let y := y0 + INR j in
      (g (x - 1/2) (y - 1/2) + g (x + 1/2) (y - 1/2) + g (x - 1/2) (y + 1/2) + g (x + 1/2) (y + 1/2)) / 4).
Proof.
  intros Hf Hs Ho. rewrite (model_to_image_discretize _ _ _ _ _ _ _ _ _ _ Hs Ho).
  unfold discretize_model. rewrite !range_len_ok. cbn [bind]. unfold discretize_bilinear, meshgrid, pointwise.
  cbn [bind]. eexists; split; [reflexivity|]. split; [|split]; cbn [iny inx px].
  - lia.
  - lia.
  - intros j i Hj Hi. rewrite half_xr. change (Fin x0 - Fin (1/2))%num with (Fin (x0 - 1/2)).
    change (Fin y0 - Fin (1/2))%num with (Fin (y0 - 1/2)).
    rewrite !arange_at_xr, !Hf. cbn [nadd nmul XRnum xadd xmul]. f_equal. rewrite !plus_INR. change (INR 1) with 1.
    replace (x0 - 1/2 + (INR i + 1)) with (x0 + INR i + 1/2) by field.
    replace (x0 - 1/2 + INR i) with (x0 + INR i - 1/2) by field.
    replace (y0 - 1/2 + (INR j + 1)) with (y0 + INR j + 1/2) by field.
    replace (y0 - 1/2 + INR j) with (y0 + INR j - 1/2) by field.
    field.
Qed.

(** sample points of the oversampled axis *)
Lemma oversample_axis_xr x n f k : (0 < f)%Z -> (0 <= n)%Z -> (k < Z.to_nat (n * f))%nat ->
  nth k (oversample_axis (Fin x) (Fin (x + IZR n)) f (Z.to_nat (n * f))) NaN = Fin (gx x (Z.to_nat f) k).
Proof.
  intros Hf Hn Hk. unfold oversample_axis. rewrite half_xr.
  assert (Pf : IZR f > 0) by (apply (IZR_lt 0); lia).
  cbn [nofZ n1 nsub nadd ndiv nmul XRnum]. unfold n1. cbn [nofZ XRnum xdiv]. rewrite Reqb_false by lra.
  cbn [xsub xadd xopp xmul].
  assert (G : gx x (Z.to_nat f) k = x + (1/2 + INR k) / IZR f - 1/2).
  { unfold gx. rewrite (INR_IZR_INZ (Z.to_nat f)), Z2Nat.id by lia. ring. }
  assert (EN : INR (Z.to_nat (n * f)) = IZR n * IZR f).
  { rewrite INR_IZR_INZ, Z2Nat.id by lia. apply mult_IZR. }
  destruct (Nat.eq_dec (Z.to_nat (n * f)) 1) as [E1|E1].
  - assert (P : (n * f = 1)%Z) by lia. assert (n = 1)%Z as -> by (destruct (Z.eq_mul_1 n f P); lia).
    assert (f = 1)%Z as -> by lia. change (Z.to_nat (1 * 1)) with 1%nat in *.
    rewrite linspace_one_fin. assert (k = 0)%nat as -> by lia. cbn [nth]. f_equal. rewrite G. cbn. field.
  - set (m := Z.to_nat (n * f)) in *. apply nth_error_nth. rewrite nth_linspace_fin by lia. f_equal. f_equal. rewrite G.
    assert (INR m > 1). { change 1 with (INR 1). apply lt_INR. lia. }
    rewrite ?minus_INR by lia. rewrite EN in *. change (INR 1) with 1 in *. field. split; lra.
Qed.

Lemma oversample_pixels f g size flag k center nx ny x0 y0 :
  (0 < k)%Z -> (0 <= nx)%Z -> (0 <= ny)%Z ->
  real_function f g -> size_means size flag nx ny -> origin_is center nx ny x0 y0 ->
  exists m, model_to_image (pointwise f) size flag Oversample k center = Ok m /\
    image_of m (Z.to_nat ny) (Z.to_nat nx) (fun j i => mean_samples g (Z.to_nat k) (x0 + INR i) (y0 + INR j)).
Proof.
  intros Hk Hnx Hny Hf Hs Ho. rewrite (model_to_image_discretize _ _ _ _ _ _ _ _ _ _ Hs Ho).
  unfold discretize_model. rewrite !range_len_ok. cbn [bind].
  destruct (Z.eqb_spec k 0); [lia|]. destruct (Z.ltb_spec (nx * k) 0); [nia|]. destruct (Z.ltb_spec (ny * k) 0); [nia|].
  cbn [orb]. unfold discretize_oversample, meshgrid, pointwise. cbn [bind]. eexists; split; [reflexivity|].
  set (K := Z.to_nat k).
  assert (KP : (0 < K)%nat) by (unfold K; lia).
  assert (EX : Z.to_nat (nx * k) = (Z.to_nat nx * K)%nat) by (unfold K; apply Z2Nat.inj_mul; lia).
  assert (EY : Z.to_nat (ny * k) = (Z.to_nat ny * K)%nat) by (unfold K; apply Z2Nat.inj_mul; lia).
  split; [|split]; cbn [iny inx px].
  - rewrite EY. apply Nat.div_mul. lia.
  - rewrite EX. apply Nat.div_mul. lia.
  - intros j i Hj Hi.
    assert (IN : forall a, (a < K)%nat -> nsum (map (fun b : nat =>
        f (nth (i * K + b) (oversample_axis (Fin x0) (Fin (x0 + IZR nx)) k (Z.to_nat (nx * k))) nnan)
          (nth (j * K + a) (oversample_axis (Fin y0) (Fin (y0 + IZR ny)) k (Z.to_nat (ny * k))) nnan)) (seq 0 K)) =
       Fin (sum_to K (fun b => g (gx x0 K (i * K + b)) (gx y0 K (j * K + a))))).
    { intros a Ha. rewrite <- rsum_seq, <- nsum_fin, map_map. f_equal. apply map_ext_in. intros b Hb. apply in_seq in Hb.
      cbn [nnan XRnum]. rewrite !oversample_axis_xr by (auto; try lia; rewrite ?EX, ?EY; nia). apply Hf. }
    assert (KR : 0 < INR K) by now apply INR_pos.
    transitivity (nsum (map (fun a => Fin (sum_to K (fun b => g (gx x0 K (i * K + b)) (gx y0 K (j * K + a))) / INR K)) (seq 0 K)) / nofnat K)%num.
    + f_equal. f_equal. apply map_ext_in. intros a Ha. apply in_seq in Ha. rewrite IN by lia. rewrite nofnat_xr.
      cbn [ndiv XRnum xdiv]. now rewrite Reqb_false by lra.
    + rewrite <- (map_map (fun a => sum_to K (fun b => g (gx x0 K (i * K + b)) (gx y0 K (j * K + a))) / INR K) Fin).
      rewrite nsum_fin, rsum_seq, nofnat_xr. cbn [ndiv XRnum xdiv]. rewrite Reqb_false by lra. f_equal.
      unfold mean_samples, sum2. fold K.
      rewrite (sum_to_ext K _ (fun a => / INR K * sum_to K (fun b => g (x0 + INR i - 1/2 + (INR b + 1/2) / INR K)
                                                                   (y0 + INR j - 1/2 + (INR a + 1/2) / INR K)))).
      2:{ intros a Ha. unfold Rdiv. rewrite Rmult_comm. f_equal. apply sum_to_ext. intros b Hb.
          now rewrite !gx_split by auto. }
      rewrite sum_to_mult. field. lra.
Qed.

(** modes and factors that are refused *)
Lemma refused_modes (model : smodel (T:=xr)) size flag k center nx ny x0 y0 :
  size_means size flag nx ny -> origin_is center nx ny x0 y0 ->
  model_to_image model size flag OtherMode k center = Err ValueError /\
  model_to_image model size flag Oversample 0 center = Err ZeroDivisionError /\
  ((k < 0)%Z -> (0 < nx)%Z \/ (0 < ny)%Z -> model_to_image model size flag Oversample k center = Err ValueError).
Proof.
  intros Hs Ho. rewrite !(model_to_image_discretize _ _ _ _ _ _ _ _ _ _ Hs Ho).
  unfold discretize_model. rewrite !range_len_ok. cbn [bind]. split; [reflexivity|]. split; [reflexivity|].
  intros Hk Hn. destruct (Z.eqb_spec k 0); [lia|].
  replace ((nx * k <? 0)%Z || (ny * k <? 0)%Z) with true; [reflexivity|]. symmetry. apply orb_true_iff. rewrite !Z.ltb_lt.
  destruct Hn; [left|right]; nia.
Qed.
