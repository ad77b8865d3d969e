(** Proofs about segmentation.py: side of the cutout, catalogs. *)
From Coq Require Import String.
From Verif Require Import Base Num Numpy M_Utils M_Photometry S_Photometry M_PSF M_Fitting S_PetroR M_Segm S_Segm L_Numpy L_FracR L_Segm L_Segm3.
Local Open Scope R_scope.

Lemma Rtrunc_pos r : 0 <= r -> IZR (Rtrunc r) <= r < IZR (Rtrunc r) + 1.
Proof.
  intros H. unfold Rtrunc. destruct (Rleb_spec 0 r); [|lra]. destruct (base_Int_part r) as [A B]. lra.
Qed.
Lemma Rtrunc_neg r : r < 0 -> r <= IZR (Rtrunc r) < r + 1.
Proof.
  intros H. unfold Rtrunc. destruct (Rleb_spec 0 r); [lra|]. destruct (base_Int_part (- r)) as [A B]. rewrite opp_IZR. lra.
Qed.
Lemma Rtrunc_int z : Rtrunc (IZR z) = z.
Proof.
  destruct (Rle_lt_dec 0 (IZR z)) as [H|H].
  - destruct (Rtrunc_pos _ H) as [A B]. apply le_IZR in A. rewrite <- plus_IZR in B. apply lt_IZR in B. lia.
  - destruct (Rtrunc_neg _ H) as [A B]. apply le_IZR in A. rewrite <- plus_IZR in B. apply lt_IZR in B. lia.
Qed.

Lemma ceil_int x : exists z, to_int (nceil (Fin x)) = Ok z /\ x <= IZR z < x + 1.
Proof.
  unfold nceil. cbn [ntrunc XRnum xtrunc nofZ nltb xltb].
  assert (E : forall z, to_int (Fin (IZR z)) = Ok z) by (intros z; unfold to_int; cbn [ntrunc XRnum xtrunc]; now rewrite Rtrunc_int).
  destruct (Rle_lt_dec 0 x) as [H|H].
  - destruct (Rtrunc_pos _ H) as [A B]. destruct (Rltb_spec (IZR (Rtrunc x)) x); eexists; (split; [apply E|]); rewrite ?plus_IZR; lra.
  - destruct (Rtrunc_neg _ H) as [A B]. destruct (Rltb_spec (IZR (Rtrunc x)) x); [lra|]. eexists; (split; [apply E|]). lra.
Qed.

Theorem side_default (rs : list R) hi : is_max rs hi ->
  exists n, cutout_side VNone (map Fin rs) = Ok n /\ smallest_even (3 * hi) n.
Proof.
  intros H. pose proof (pymax_is_max _ _ H) as PM.
  destruct (ceil_int (hi * 3)) as (z & Ez & Hz).
  destruct (cutout_side VNone (map Fin rs)) as [n|e] eqn:E.
  - exists n. split; auto. destruct (side_cases _ _ _ E) as (m & Em & HE & Hm). rewrite PM in Em. cbn [bind] in Em.
    change ((Fin hi * nofZ 3)%num) with (Fin (hi * 3)) in Em. rewrite Ez in Em. injection Em as ->. split; auto.
    destruct Hm as [H1 H2]. apply IZR_le in H1, H2. rewrite plus_IZR in H2. lra.
  - exfalso. unfold cutout_side in E. rewrite PM in E. cbn [bind] in E.
    change ((Fin hi * nofZ 3)%num) with (Fin (hi * 3)) in E. rewrite Ez in E. discriminate.
Qed.

Theorem side_float x (rs : list xr) : 
  (forall r, x = Fin r -> 0 <= r -> exists n, cutout_side (VFloat x) rs = Ok n /\ Z.even n = true /\ r - 1 < IZR n <= r + 1) /\
  (x = NaN -> cutout_side (VFloat x) rs = Err ValueError) /\ (x = PInf \/ x = NInf -> cutout_side (VFloat x) rs = Err OverflowError).
Proof.
  split; [|split].
  - intros r -> H. destruct (cutout_side (VFloat (Fin r)) rs) as [n|e] eqn:E; [|discriminate]. exists n. split; auto.
    destruct (side_cases _ _ _ E) as (m & Em & HE & Hm). injection Em as Em. split; auto. destruct (Rtrunc_pos r H) as [A B]. rewrite Em in A, B.
    destruct Hm as [H1 H2]. apply IZR_le in H1, H2. rewrite plus_IZR in H2. lra.
  - intros ->. reflexivity.
  - intros [->| ->]; reflexivity.
Qed.

Theorem side_empty : cutout_side VNone (@nil xr) = Err ValueError.
Proof. reflexivity. Qed.


Theorem disc_inside_iff r side : 0 < r -> smallest_even (3 * r) side -> (disc_inside r side <-> r <= 1/2 \/ 2/3 < r).
Proof.
  intros Hr (HE & HS). apply Z.even_spec in HE as (k & ->). rewrite mult_IZR in HS.
  assert (D : disc_inside r (2 * k) <-> r <= IZR k - 1/2).
  { unfold disc_inside. rewrite mult_IZR. split.
    - intros H. destruct (H r 0) as ((_ & A) & _); lra.
    - intros H u v K. assert (A : u * u <= r * r) by nra. assert (B : v * v <= r * r) by nra.
      assert (-r <= u <= r) by (split; nra). assert (-r <= v <= r) by (split; nra). lra. }
  rewrite D. assert (K1 : (1 <= k)%Z). { apply Z.lt_pred_le, lt_IZR. cbn. lra. }
  destruct (Z.eq_dec k 1) as [->|N]; [split; intros; lra|].
  assert (K2 : (2 <= k)%Z) by lia. apply IZR_le in K2. split; [|intros]; [right|]; try lra.
Qed.

(** ** make_catalog *)
Theorem catalog_ok I S C (detect : I -> result (option S)) (deblend_ : I -> option S -> result (option S)) (catalog : I -> option S -> result C) image deblend cat segm d :
  make_catalog I S C detect deblend_ catalog image deblend = Ok (cat, segm, d) <->
  detect image = Ok segm /\
  if deblend then deblend_ image segm = Ok d /\ catalog image d = Ok cat else d = None /\ catalog image segm = Ok cat.
Proof.
  unfold make_catalog. destruct (detect image) as [s|e]; cbn [bind].
  2:{ split; [discriminate|intros [? _]; discriminate]. }
  destruct deblend; cbn [bind].
  - destruct (deblend_ image s) as [s'|e] eqn:E; cbn [bind].
    + destruct (catalog image s') as [c|e] eqn:E2; cbn [bind].
      * split.
        -- intros [= <- <- <-]. auto.
        -- intros ([= <-] & K & L). rewrite E in K. injection K as <-. rewrite E2 in L. now injection L as <-.
      * split; [discriminate|]. intros ([= <-] & K & L). rewrite E in K. injection K as <-. rewrite E2 in L. discriminate.
    + split; [discriminate|]. intros ([= <-] & K & L). rewrite E in K. discriminate.
  - destruct (catalog image s) as [c|e] eqn:E2; cbn [bind].
    + split.
      * intros [= <- <- <-]. auto.
      * intros ([= <-] & -> & L). rewrite E2 in L. now injection L as <-.
    + split; [discriminate|]. intros ([= <-] & _ & L). rewrite E2 in L. discriminate.
Qed.

Theorem catalog_errors I S C (detect : I -> result (option S)) (deblend_ : I -> option S -> result (option S)) (catalog : I -> option S -> result C) image (deblend : bool) e :
  (detect image = Err e \/
   (exists segm, detect image = Ok segm /\
     if deblend then deblend_ image segm = Err e \/ exists d, deblend_ image segm = Ok d /\ catalog image d = Err e
     else catalog image segm = Err e)) ->
  make_catalog I S C detect deblend_ catalog image deblend = Err e.
Proof.
  unfold make_catalog. intros [->|(s & -> & H)]; auto. cbn [bind]. destruct deblend.
  - destruct H as [->|(d & -> & H)]; cbn [bind]; auto. now rewrite H.
  - cbn [bind]. now rewrite H.
Qed.

Theorem default_disc (rs : list R) hi : is_max rs hi -> 0 < hi ->
  exists n, cutout_side VNone (map Fin rs) = Ok n /\ (disc_inside hi n <-> hi <= 1/2 \/ 2/3 < hi).
Proof. intros H Hp. destruct (side_default rs hi H) as (n & E & S). exists n. split; auto. now apply disc_inside_iff. Qed.
