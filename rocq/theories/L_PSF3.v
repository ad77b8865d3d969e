(** PSF convolution: linearity, delta PSF, flux; and evaluation with a PSF. *)
From Coq Require Import String FunctionalExtensionality.
From Verif Require Import Base Num Numpy L_Numpy S_Photometry L_Photometry M_PSF S_PSF L_PSF L_PSF2.
Local Open Scope list_scope.

Definition ext (ny nx : nat) (g : nat -> nat -> R) (j i : Z) : R :=
  if ((0 <=? j) && (j <? Z.of_nat ny) && (0 <=? i) && (i <? Z.of_nat nx))%Z
  then g (Z.to_nat j) (Z.to_nat i) else 0%R.

Definition rconv (ny nx : nat) (g : nat -> nat -> R) (ph pw : nat) (p : nat -> nat -> R) (j i : nat) : R :=
  sum2 ph pw (fun a b => p a b * ext ny nx g (Z.of_nat j + (Z.of_nat ph - 1) / 2 - Z.of_nat a)
                                            (Z.of_nat i + (Z.of_nat pw - 1) / 2 - Z.of_nat b))%R.

Lemma zpx_rimg ny nx g j i : zpx (rimg ny nx g) j i = Fin (ext ny nx g j i).
Proof. unfold zpx, ext, rimg. cbn [iny inx px]. destruct (_ && _); reflexivity. Qed.

Lemma convolve_rimg ny nx g ph pw p :
  convolve_same (rimg ny nx g) (rimg ph pw p) = rimg ny nx (rconv ny nx g ph pw p).
Proof.
  unfold convolve_same. cbn [iny inx rimg]. unfold rimg at 3. f_equal.
  apply functional_extensionality; intro j. apply functional_extensionality; intro i.
  unfold rconv. rewrite <- nsum2_fin. f_equal. f_equal.
  apply functional_extensionality; intro a. f_equal. apply functional_extensionality; intro b.
  fold (rimg ny nx g). rewrite zpx_rimg. reflexivity.
Qed.

(** ** Linearity *)
Lemma ext_lin ny nx c g1 g2 j i :
  ext ny nx (fun j i => c * g1 j i + g2 j i)%R j i = (c * ext ny nx g1 j i + ext ny nx g2 j i)%R.
Proof. unfold ext. destruct (_ && _); ring. Qed.

Lemma sum2_lin ny nx c f g : sum2 ny nx (fun j i => c * f j i + g j i)%R = (c * sum2 ny nx f + sum2 ny nx g)%R.
Proof. rewrite (sum2_add ny nx (fun j i => c * f j i)%R). now rewrite sum2_mult. Qed.

Lemma rconv_lin ny nx c g1 g2 ph pw p j i :
  rconv ny nx (fun j i => c * g1 j i + g2 j i)%R ph pw p j i =
  (c * rconv ny nx g1 ph pw p j i + rconv ny nx g2 ph pw p j i)%R.
Proof.
  unfold rconv. rewrite <- sum2_lin. apply sum2_ext. intros a b _ _. rewrite ext_lin. ring.
Qed.

Lemma convolve_linear ny nx c g1 g2 ph pw p :
  exists h1 h2,
    convolve_same (rimg ny nx g1) (rimg ph pw p) = rimg ny nx h1 /\
    convolve_same (rimg ny nx g2) (rimg ph pw p) = rimg ny nx h2 /\
    convolve_same (rimg ny nx (fun j i => c * g1 j i + g2 j i)%R) (rimg ph pw p) =
      rimg ny nx (fun j i => c * h1 j i + h2 j i)%R.
Proof.
  exists (rconv ny nx g1 ph pw p), (rconv ny nx g2 ph pw p). rewrite !convolve_rimg. repeat split.
  unfold rimg. f_equal. apply functional_extensionality; intro j. apply functional_extensionality; intro i.
  f_equal. apply rconv_lin.
Qed.

(** ** Delta PSF *)
Lemma sum_to_zero n f : (forall i, (i < n)%nat -> f i = 0%R) -> sum_to n f = 0%R.
Proof. induction n; intros H; cbn; auto. rewrite IHn, H; auto. ring. Qed.

Lemma sum_to_single n f k : (k < n)%nat -> (forall i, (i < n)%nat -> i <> k -> f i = 0%R) -> sum_to n f = f k.
Proof.
  induction n; intros Hk H; [lia|]. cbn. destruct (Nat.eq_dec k n) as [->|N].
  - rewrite sum_to_zero; [ring|]. intros i Hi. apply H; lia.
  - rewrite IHn; [|lia|]. + rewrite (H n); [ring|lia|lia]. + intros i Hi Hn. apply H; lia.
Qed.

Lemma rconv_delta ny nx g r s j i : (j < ny)%nat -> (i < nx)%nat ->
  rconv ny nx g (2 * r + 1) (2 * s + 1) (delta r s) j i = g j i.
Proof.
  intros Hj Hi. unfold rconv, sum2. rewrite (sum_to_single _ _ r); [|lia|].
  - rewrite (sum_to_single _ _ s); [|lia|].
    + unfold delta. rewrite !Nat.eqb_refl. cbn [andb].
      replace (Z.of_nat (2 * r + 1) - 1)%Z with (Z.of_nat r * 2)%Z by lia.
      replace (Z.of_nat (2 * s + 1) - 1)%Z with (Z.of_nat s * 2)%Z by lia. rewrite !Z.div_mul by lia.
      unfold ext. replace (Z.of_nat j + Z.of_nat r - Z.of_nat r)%Z with (Z.of_nat j) by lia.
      replace (Z.of_nat i + Z.of_nat s - Z.of_nat s)%Z with (Z.of_nat i) by lia.
      destruct (Z.leb_spec 0 (Z.of_nat j)); [|lia]. destruct (Z.ltb_spec (Z.of_nat j) (Z.of_nat ny)); [|lia].
      destruct (Z.leb_spec 0 (Z.of_nat i)); [|lia]. destruct (Z.ltb_spec (Z.of_nat i) (Z.of_nat nx)); [|lia].
      cbn [andb]. rewrite !Nat2Z.id. ring.
    + intros b _ N. unfold delta. destruct (Nat.eqb_spec b s); [lia|]. rewrite andb_false_r. ring.
  - intros a _ N. apply sum_to_zero. intros b _. unfold delta. destruct (Nat.eqb_spec a r); [lia|]. cbn. ring.
Qed.

(** ** Flux *)
Lemma sum_to_swap n m f : sum_to n (fun i => sum_to m (fun k => f i k)) = sum_to m (fun k => sum_to n (fun i => f i k)).
Proof.
  induction n; cbn. { symmetry. apply sum_to_zero. auto. } rewrite IHn, sum_to_add. reflexivity.
Qed.

Lemma sum2_swap a b c d f :
  sum2 a b (fun j i => sum2 c d (fun k l => f j i k l)) = sum2 c d (fun k l => sum2 a b (fun j i => f j i k l)).
Proof.
  unfold sum2.
  transitivity (sum_to a (fun j => sum_to c (fun k => sum_to b (fun i => sum_to d (fun l => f j i k l))))).
  { apply sum_to_ext. intros. apply sum_to_swap. }
  rewrite sum_to_swap. apply sum_to_ext. intros k _.
  transitivity (sum_to a (fun j => sum_to d (fun l => sum_to b (fun i => f j i k l)))).
  { apply sum_to_ext. intros. apply sum_to_swap. }
  apply sum_to_swap.
Qed.

Lemma shift_one n (F : Z -> R) d :
  sum_to n (fun j => F (Z.of_nat j + (d + 1))%Z) = (sum_to n (fun j => F (Z.of_nat j + d)%Z) + F (Z.of_nat n + d)%Z - F d)%R.
Proof.
  induction n; cbn [sum_to]. { replace (Z.of_nat 0 + d)%Z with d by lia. ring. }
  rewrite IHn. replace (Z.of_nat n + (d + 1))%Z with (Z.of_nat (S n) + d)%Z by lia. ring.
Qed.

Lemma shift_same n r (F : Z -> R) : (forall z, (z < Z.of_nat r \/ Z.of_nat n - Z.of_nat r <= z)%Z -> F z = 0%R) ->
  forall d, (- Z.of_nat r <= d <= Z.of_nat r)%Z ->
  sum_to n (fun j => F (Z.of_nat j + d)%Z) = sum_to n (fun j => F (Z.of_nat j)).
Proof.
  intros H.
  assert (Step : forall d, (- Z.of_nat r <= d < Z.of_nat r)%Z ->
     sum_to n (fun j => F (Z.of_nat j + (d + 1))%Z) = sum_to n (fun j => F (Z.of_nat j + d)%Z)).
  { intros d Hd. rewrite shift_one, (H d), (H (Z.of_nat n + d)%Z) by lia. ring. }
  assert (Up : forall k, (k <= r)%nat -> sum_to n (fun j => F (Z.of_nat j + Z.of_nat k)%Z) = sum_to n (fun j => F (Z.of_nat j))).
  { induction k; intros Hk. { apply sum_to_ext. intros. f_equal. lia. }
    rewrite <- IHk by lia. rewrite <- (Step (Z.of_nat k)) by lia. apply sum_to_ext. intros. f_equal. lia. }
  assert (Down : forall k, (k <= r)%nat -> sum_to n (fun j => F (Z.of_nat j + - Z.of_nat k)%Z) = sum_to n (fun j => F (Z.of_nat j))).
  { induction k; intros Hk. { apply sum_to_ext. intros. f_equal. lia. }
    rewrite <- IHk by lia. rewrite <- (Step (- Z.of_nat (S k))%Z) by lia. apply sum_to_ext. intros. f_equal. lia. }
  intros d Hd. destruct (Z.leb_spec 0 d).
  - rewrite <- (Up (Z.to_nat d)) by lia. apply sum_to_ext. intros. f_equal. lia.
  - rewrite <- (Down (Z.to_nat (- d))) by lia. apply sum_to_ext. intros. f_equal. lia.
Qed.

Lemma shift_le n (F : Z -> R) : (forall z, (0 <= F z)%R) -> (forall z, (z < 0 \/ Z.of_nat n <= z)%Z -> F z = 0%R) ->
  forall d, (sum_to n (fun j => F (Z.of_nat j + d)%Z) <= sum_to n (fun j => F (Z.of_nat j)))%R.
Proof.
  intros P H.
  assert (Up : forall k, (sum_to n (fun j => F (Z.of_nat j + Z.of_nat k)%Z) <= sum_to n (fun j => F (Z.of_nat j)))%R).
  { induction k. { apply sum_to_le. intros. apply Req_le. f_equal. lia. }
    eapply Rle_trans; [|exact IHk]. pose proof (shift_one n F (Z.of_nat k)) as E.
    rewrite (H (Z.of_nat n + Z.of_nat k)%Z) in E by lia. pose proof (P (Z.of_nat k)).
    rewrite (sum_to_ext n _ (fun j => F (Z.of_nat j + (Z.of_nat k + 1))%Z)) by (intros; f_equal; lia). lra. }
  assert (Down : forall k, (sum_to n (fun j => F (Z.of_nat j + - Z.of_nat k)%Z) <= sum_to n (fun j => F (Z.of_nat j)))%R).
  { induction k. { apply sum_to_le. intros. apply Req_le. f_equal. lia. }
    eapply Rle_trans; [|exact IHk]. pose proof (shift_one n F (- Z.of_nat (S k))%Z) as E.
    rewrite (H (- Z.of_nat (S k))%Z) in E by lia. pose proof (P (Z.of_nat n + - Z.of_nat (S k))%Z).
    rewrite (sum_to_ext n (fun j => F (Z.of_nat j + - Z.of_nat k)%Z) (fun j => F (Z.of_nat j + (- Z.of_nat (S k) + 1))%Z)) by (intros; f_equal; lia). lra. }
  intros d. destruct (Z.leb_spec 0 d).
  - rewrite (sum_to_ext n _ (fun j => F (Z.of_nat j + Z.of_nat (Z.to_nat d))%Z)) by (intros; f_equal; lia). apply Up.
  - rewrite (sum_to_ext n _ (fun j => F (Z.of_nat j + - Z.of_nat (Z.to_nat (- d)))%Z)) by (intros; f_equal; lia). apply Down.
Qed.

Lemma ext_in ny nx g j i : (j < ny)%nat -> (i < nx)%nat -> ext ny nx g (Z.of_nat j) (Z.of_nat i) = g j i.
Proof.
  intros Hj Hi. unfold ext.
  destruct (Z.leb_spec 0 (Z.of_nat j)); [|lia]. destruct (Z.ltb_spec (Z.of_nat j) (Z.of_nat ny)); [|lia].
  destruct (Z.leb_spec 0 (Z.of_nat i)); [|lia]. destruct (Z.ltb_spec (Z.of_nat i) (Z.of_nat nx)); [|lia].
  cbn [andb]. now rewrite !Nat2Z.id.
Qed.

Lemma ext_out ny nx g j i : (j < 0 \/ Z.of_nat ny <= j \/ i < 0 \/ Z.of_nat nx <= i)%Z -> ext ny nx g j i = 0%R.
Proof.
  intros H. unfold ext.
  destruct (Z.leb_spec 0 j); cbn [andb]; auto. destruct (Z.ltb_spec j (Z.of_nat ny)); cbn [andb]; auto.
  destruct (Z.leb_spec 0 i); cbn [andb]; auto. destruct (Z.ltb_spec i (Z.of_nat nx)); cbn [andb]; auto. lia.
Qed.

(** the image vanishes within r rows and s columns of its border *)
Lemma rconv_flux ny nx g r s p :
  (forall j i, (j < ny)%nat -> (i < nx)%nat -> g j i <> 0%R -> (r <= j /\ j + r < ny /\ s <= i /\ i + s < nx)%nat) ->
  sum2 ny nx (rconv ny nx g (2 * r + 1) (2 * s + 1) p) = (sum2 ny nx g * sum2 (2 * r + 1) (2 * s + 1) p)%R.
Proof.
  intros H. unfold rconv. rewrite sum2_swap.
  transitivity (sum2 (2 * r + 1) (2 * s + 1) (fun a b => sum2 ny nx g * p a b)%R).
  2:{ rewrite sum2_mult. ring. }
  apply sum2_ext. intros a b Ha Hb. rewrite sum2_mult. rewrite Rmult_comm. f_equal.
  replace (Z.of_nat (2 * r + 1) - 1)%Z with (Z.of_nat r * 2)%Z by lia.
  replace (Z.of_nat (2 * s + 1) - 1)%Z with (Z.of_nat s * 2)%Z by lia. rewrite !Z.div_mul by lia.
  set (dj := (Z.of_nat r - Z.of_nat a)%Z). set (di := (Z.of_nat s - Z.of_nat b)%Z).
  assert (Z0 : forall j i, (j < Z.of_nat r \/ Z.of_nat ny - Z.of_nat r <= j \/ i < Z.of_nat s \/ Z.of_nat nx - Z.of_nat s <= i)%Z ->
     ext ny nx g j i = 0%R).
  { intros j i Hji. destruct (Z_lt_ge_dec j 0); [apply ext_out; lia|]. destruct (Z_lt_ge_dec i 0); [apply ext_out; lia|].
    destruct (Z_lt_ge_dec j (Z.of_nat ny)); [|apply ext_out; lia]. destruct (Z_lt_ge_dec i (Z.of_nat nx)); [|apply ext_out; lia].
    replace j with (Z.of_nat (Z.to_nat j)) by lia. replace i with (Z.of_nat (Z.to_nat i)) by lia. rewrite ext_in by lia.
    destruct (Req_dec (g (Z.to_nat j) (Z.to_nat i)) 0) as [E|E]; auto. apply H in E; lia. }
  unfold sum2.
  transitivity (sum_to ny (fun j => sum_to nx (fun i => ext ny nx g (Z.of_nat j + dj) (Z.of_nat i)))).
  { apply sum_to_ext. intros j Hj.
    rewrite <- (shift_same nx s (fun z => ext ny nx g (Z.of_nat j + dj) z)) with (d := di).
    - apply sum_to_ext. intros i Hi. f_equal; unfold dj, di; lia.
    - intros z Hz. apply Z0. lia.
    - unfold di. lia. }
  rewrite (shift_same ny r (fun z => sum_to nx (fun i => ext ny nx g z (Z.of_nat i)))).
  - apply sum_to_ext. intros j Hj. apply sum_to_ext. intros i Hi. now apply ext_in.
  - intros z Hz. apply sum_to_zero. intros i Hi. apply Z0. lia.
  - unfold dj. lia.
Qed.

Lemma sum_to_nonneg n f : (forall i, (i < n)%nat -> (0 <= f i)%R) -> (0 <= sum_to n f)%R.
Proof. induction n; intros H; cbn; [lra|]. pose proof (H n ltac:(lia)). pose proof (IHn ltac:(auto)). lra. Qed.

(** nonnegative image and PSF: convolution never gains flux *)
Lemma rconv_flux_le ny nx g ph pw p :
  (forall j i, (j < ny)%nat -> (i < nx)%nat -> (0 <= g j i)%R) -> (forall a b, (a < ph)%nat -> (b < pw)%nat -> (0 <= p a b)%R) ->
  (sum2 ny nx (rconv ny nx g ph pw p) <= sum2 ny nx g * sum2 ph pw p)%R.
Proof.
  intros Hg Hp. unfold rconv. rewrite sum2_swap.
  replace (sum2 ny nx g * sum2 ph pw p)%R with (sum2 ph pw (fun a b => sum2 ny nx g * p a b)%R) by (rewrite sum2_mult; ring).
  apply sum2_le. intros a b Ha Hb. rewrite sum2_mult, (Rmult_comm _ (p a b)). apply Rmult_le_compat_l; [auto|].
  assert (P : forall j i, (0 <= ext ny nx g j i)%R).
  { intros j i. unfold ext. destruct (Z.leb_spec 0 j); cbn [andb]; [|lra]. destruct (Z.ltb_spec j (Z.of_nat ny)); cbn [andb]; [|lra].
    destruct (Z.leb_spec 0 i); cbn [andb]; [|lra]. destruct (Z.ltb_spec i (Z.of_nat nx)); [|lra]. apply Hg; lia. }
  set (dj := ((Z.of_nat ph - 1) / 2 - Z.of_nat a)%Z). set (di := ((Z.of_nat pw - 1) / 2 - Z.of_nat b)%Z).
  unfold sum2.
  apply Rle_trans with (sum_to ny (fun j => sum_to nx (fun i => ext ny nx g (Z.of_nat j + dj) (Z.of_nat i)))).
  { apply sum_to_le. intros j Hj.
    eapply Rle_trans; [|apply (shift_le nx (fun z => ext ny nx g (Z.of_nat j + dj) z)) with (d := di)].
    - apply Req_le. apply sum_to_ext. intros i Hi. f_equal; unfold dj, di; lia.
    - auto.
    - intros z Hz. apply ext_out. lia. }
  eapply Rle_trans; [apply (shift_le ny (fun z => sum_to nx (fun i => ext ny nx g z (Z.of_nat i))))|].
  - intros z. apply sum_to_nonneg. auto.
  - intros z Hz. apply sum_to_zero. intros i Hi. apply ext_out. lia.
  - apply Req_le. apply sum_to_ext. intros j Hj. apply sum_to_ext. intros i Hi. now apply ext_in.
Qed.
