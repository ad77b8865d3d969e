(** Proofs about masked_segm_image and source_photometry: contents of the cutouts, non-interference,
    side of the cutout. *)
From Coq Require Import String FunctionalExtensionality.
From Verif Require Import Base Num Numpy M_Utils M_Photometry S_Photometry M_PSF M_Fitting S_Fitting M_Segm S_Segm L_Numpy L_Photometry L_PSF
  L_Fitting L_Fitting2 L_Segm L_Segm2.
Local Open Scope list_scope.

(** ** masked_segm_image *)
Lemma requested_one s mb z : requested [s] mb z <-> wanted (item_label s) mb z.
Proof.
  unfold requested, wanted. split.
  - intros [(t & [<-|[]] & [->| ->])|H]; auto.
  - intros [->|H]; auto. left. exists s. split; [now left|]. destruct s; auto.
Qed.

Lemma requested_dec items mb z : requested items mb z \/ ~ requested items mb z.
Proof.
  destruct mb.
  - destruct (existsb (fun s => (z =? item_label s)%Z) items) eqn:E.
    + left. now apply requested_plain.
    + right. rewrite <- requested_plain. congruence.
  - destruct (existsb (fun s => (z =? item_label s)%Z) (items ++ [LInt 0])) eqn:E.
    + left. now apply requested_app.
    + right. rewrite <- requested_app. congruence.
Qed.


Lemma mask_any mem src segm mb items : items_of mem src = Some items -> (items <> [] \/ mb = false) ->
  exists m, fst (segm_mask mem src segm mb) = Ok (Some m) /\ iny m = iny segm /\ inx m = inx segm /\
    forall j i, px m j i = true <-> requested items mb (px segm j i).
Proof.
  intros HI HN. destruct src as [s|l|]; cbn [items_of] in HI; try discriminate; injection HI as <-.
  - destruct (mask_item mem s segm mb) as (m & E & H). exists m. rewrite E. auto.
  - now apply mask_list.
Qed.


Theorem masked_new mem src (h : heap xr) image segm fill mb items y :
  valid h image -> items_of mem src = Some items -> (items <> [] \/ mb = false) ->
  iny segm = iny (a_img (deref h image)) -> inx segm = inx (a_img (deref h image)) ->
  fits_type (a_type (deref h image)) (match fill with None => NaN | Some f => f end) y ->
  exists a, masked_segm_image mem src image segm fill mb h =
    (Ok (List.length h, snd (segm_mask mem src segm mb)), h ++ [a]) /\
    a_type a = a_type (deref h image) /\
    iny (a_img a) = iny (a_img (deref h image)) /\ inx (a_img a) = inx (a_img (deref h image)) /\
    forall j i, (j < iny (a_img a))%nat -> (i < inx (a_img a))%nat ->
      (requested items mb (px segm j i) -> px (a_img a) j i = px (a_img (deref h image)) j i) /\
      (~ requested items mb (px segm j i) -> px (a_img a) j i = y).
Proof.
  intros V HI HN Hy Hx HF. pose proof (masked_heap mem src h image segm fill mb V) as MH.
  destruct (mask_any mem src segm mb items HI HN) as (m & Em & My & Mx & Mp).
  assert (E : masked mem src (deref h image) segm fill mb =
              Ok (mkarr (a_type (deref h image)) (fill_mask m y (a_img (deref h image))))).
  { unfold masked. rewrite Em. cbn [bind]. unfold same_shape. rewrite My, Mx, Hy, Hx, !Nat.eqb_refl. cbn [andb].
    replace (cast (a_type (deref h image)) match fill with Some f => f | None => NaN end) with (@Ok xr y); auto.
    unfold fits_type in HF. unfold cast. destruct (a_type (deref h image)); [now rewrite HF|].
    destruct HF as (z & Ez & ->). rewrite Ez. reflexivity. }
  rewrite E in MH. eexists. split; [exact MH|]. cbn [a_type a_img fill_mask iny inx px]. repeat split; auto.
  - intros R. destruct (Nat.ltb_spec j (iny (a_img (deref h image)))); [|lia]. destruct (Nat.ltb_spec i (inx (a_img (deref h image)))); [|lia].
    cbn [andb]. now rewrite (proj2 (Mp j i) R).
  - intros R. destruct (Nat.ltb_spec j (iny (a_img (deref h image)))); [|lia]. destruct (Nat.ltb_spec i (inx (a_img (deref h image)))); [|lia].
    cbn [andb]. destruct (px m j i) eqn:P; auto. now apply Mp in P.
Qed.

Lemma masked_fail mem src (h : heap xr) image segm fill mb e : valid h image ->
  masked mem src (deref h image) segm fill mb = Err e ->
  exists t, masked_segm_image mem src image segm fill mb h = (Err e, h ++ t).
Proof. intros V E. pose proof (masked_heap mem src h image segm fill mb V) as MH. now rewrite E in MH. Qed.

Theorem masked_errors mem src (h : heap xr) image segm fill mb : valid h image ->
  forall e, (items_of mem src = None /\ e = TypeError) \/
    (items_of mem src = Some [] /\ mb = true /\ e = TypeError) \/
    (exists items, items_of mem src = Some items /\ (items <> [] \/ mb = false) /\
       ~ (iny segm = iny (a_img (deref h image)) /\ inx segm = inx (a_img (deref h image))) /\ e = IndexError) \/
    (exists items, items_of mem src = Some items /\ (items <> [] \/ mb = false) /\
       iny segm = iny (a_img (deref h image)) /\ inx segm = inx (a_img (deref h image)) /\
       a_type (deref h image) = DInt /\ (fill = None \/ fill = Some NaN) /\ e = ValueError) ->
  exists t, masked_segm_image mem src image segm fill mb h = (Err e, h ++ t).
Proof.
  intros V e H. apply masked_fail; auto. unfold masked. destruct H as [[HI ->]|[(HI & -> & ->)|[(items & HI & HN & HS & ->)|H]]].
  - destruct src; try discriminate. reflexivity.
  - destruct src as [s|l|]; try discriminate. cbn [items_of] in HI. injection HI as HI.
    rewrite (mask_empty mem l segm HI). reflexivity.
  - destruct (mask_any mem src segm mb items HI HN) as (m & Em & My & Mx & Mp). rewrite Em. cbn [bind].
    unfold same_shape. rewrite My, Mx.
    destruct (Nat.eqb_spec (iny segm) (iny (a_img (deref h image)))); cbn [andb]; auto.
    destruct (Nat.eqb_spec (inx segm) (inx (a_img (deref h image)))); cbn [andb]; auto. now destruct HS.
  - destruct H as (items & HI & HN & Hy & Hx & HT & HF & ->).
    destruct (mask_any mem src segm mb items HI HN) as (m & Em & My & Mx & Mp). rewrite Em. cbn [bind].
    unfold same_shape. rewrite My, Mx, Hy, Hx, !Nat.eqb_refl. cbn [andb]. rewrite HT.
    destruct HF as [->| ->]; reflexivity.
Qed.

(** ** cutouts *)
Lemma cut_is a x y size c : cut a x y size = Ok c -> is_cutout (a_img a) x y size c.
Proof.
  intros H. destruct (cut_square _ _ _ _ _ H) as (Hy & Hx & Hs). unfold is_cutout. rewrite Hy, Hx.
  split; [lia|]. split; [lia|]. intros j i Y X Hj Hi EY EX.
  unfold cut in H. destruct (Z.leb_spec size 0); [lia|]. destruct (_ || _)%bool; [discriminate|]. destruct (_ || _)%bool; [|discriminate].
  injection H as <-. cbn [px]. destruct (Nat.ltb_spec j (Z.to_nat size)); [|lia]. destruct (Nat.ltb_spec i (Z.to_nat size)); [|lia]. cbn [andb].
  replace (y - size / 2 + Z.of_nat j)%Z with Y by lia. replace (x - size / 2 + Z.of_nat i)%Z with X by lia.
  unfold inb. split; intros K.
  - destruct (Z.leb_spec 0 Y); [|lia]. destruct (Z.ltb_spec Y (Z.of_nat (iny (a_img a)))); [|lia].
    destruct (Z.leb_spec 0 X); [|lia]. destruct (Z.ltb_spec X (Z.of_nat (inx (a_img a)))); [|lia]. reflexivity.
  - destruct (Z.leb_spec 0 Y); destruct (Z.ltb_spec Y (Z.of_nat (iny (a_img a)))); destruct (Z.leb_spec 0 X);
    destruct (Z.ltb_spec X (Z.of_nat (inx (a_img a)))); cbn [andb]; auto. destruct K. lia.
Qed.


Lemma cut_ok a x y size : (0 < size)%Z -> overlaps (a_img a) x y size -> a_type a = DFloat -> exists c, cut a x y size = Ok c.
Proof.
  intros Hs (Y & X & H1 & H2 & H3 & H4) HT. unfold cut. destruct (Z.leb_spec size 0); [lia|].
  destruct (_ || _)%bool eqn:E. { exfalso. rewrite !orb_true_iff, !Z.leb_le in E. lia. }
  rewrite HT, orb_true_r. eauto.
Qed.

Lemma cut_away a x y size : (0 < size)%Z -> ~ overlaps (a_img a) x y size -> cut a x y size = Err ValueError \/ iny (a_img a) = 0%nat \/ inx (a_img a) = 0%nat.
Proof.
  intros Hs H. destruct (iny (a_img a)) eqn:E1; auto. destruct (inx (a_img a)) eqn:E2; auto. left.
  unfold cut. rewrite E1, E2. destruct (Z.leb_spec size 0); auto. destruct (_ || _)%bool eqn:E; auto. exfalso.
  rewrite !orb_false_iff, !Z.leb_gt in E. apply H. rewrite <- E1, <- E2 in E.
  exists (Z.max 0 (y - size / 2)), (Z.max 0 (x - size / 2)). lia.
Qed.

Lemma cut_size0 a x y size : (size <= 0)%Z -> cut a x y size = Err ValueError.
Proof. intros H. unfold cut. destruct (Z.leb_spec size 0); auto. lia. Qed.

Definition same_array (a b : array xr) : Prop := a_type a = a_type b /\ same_data (a_img a) (a_img b).

Lemma cut_same a b x y size : same_array a b -> cut a x y size = cut b x y size.
Proof.
  intros (HT & Hy & Hx & Hp). unfold cut. rewrite HT, Hy, Hx.
  destruct (size <=? 0)%Z; auto. destruct (_ || _)%bool; auto. destruct (_ || _)%bool; auto. f_equal.
  apply img_fun_eq; auto. cbn [px]. intros j i. destruct (_ && _)%bool; auto.
  destruct (inb (iny (a_img b)) (y - size / 2 + Z.of_nat j) && inb (inx (a_img b)) (x - size / 2 + Z.of_nat i)) eqn:E; auto.
  apply andb_true_iff in E as [E1 E2]. unfold inb in E1, E2. rewrite andb_true_iff, Z.leb_le, Z.ltb_lt in E1, E2.
  apply Hp; lia.
Qed.

(** ** masking with NaN *)
Lemma masked_same mem src a b segm mb items : items_of mem src = Some items ->
  a_type a = a_type b -> agree_on (requested items mb) segm (a_img a) (a_img b) ->
  match masked mem src a segm (Some NaN) mb, masked mem src b segm (Some NaN) mb with
  | Ok x, Ok y => same_array x y
  | Err e, Err e' => e = e'
  | _, _ => False
  end.
Proof.
  intros HI HT (Hy & Hx & Hp). unfold masked.
  destruct (fst (segm_mask mem src segm mb)) as [[m|]|e] eqn:Em; cbn [bind]; auto.
  unfold same_shape. rewrite Hy, Hx, HT.
  destruct (Nat.eqb_spec (iny m) (iny (a_img b))); cbn [andb]; auto. destruct (Nat.eqb_spec (inx m) (inx (a_img b))); cbn [andb]; auto.
  destruct (cast (a_type b) NaN) as [x|]; cbn [bind]; auto.
  assert (HN : items <> [] \/ mb = false).
  { destruct mb; auto. left. intros ->. destruct src as [s|l|]; try discriminate. cbn [items_of] in HI. injection HI as HI.
    rewrite (mask_empty mem l segm HI) in Em. discriminate. }
  destruct (mask_any mem src segm mb items HI HN) as (m' & Em' & _ & _ & Mp). rewrite Em in Em'. injection Em' as <-.
  split; auto. unfold same_data. cbn [a_img fill_mask iny inx px]. repeat split; auto. intros j i Hj Hi.
  rewrite Hy in Hj. rewrite Hx in Hi. rewrite Hy, Hx.
  destruct (Nat.ltb_spec j (iny (a_img b))); [|lia]. destruct (Nat.ltb_spec i (inx (a_img b))); [|lia]. cbn [andb].
  destruct (px m j i) eqn:P; auto. apply Hp; try lia. now apply Mp.
Qed.

Lemma masked_keeps src a segm mb x label : src = AItem (LInt label) \/ src = AItem (LCat label) ->
  masked [] src a segm (Some NaN) mb = Ok x -> a_type a = DFloat /\ a_type x = DFloat /\ keeps (wanted label mb) segm (a_img a) (a_img x) /\
    iny segm = iny (a_img a) /\ inx segm = inx (a_img a).
Proof.
  intros HS H. assert (exists s, src = AItem s /\ item_label s = label) as (s & -> & HL) by (destruct HS as [->| ->]; eauto).
  unfold masked in H. destruct (mask_item [] s segm mb) as (m & Em & My & Mx & Mp). rewrite Em in H. cbn [fst bind] in H.
  unfold same_shape in H. destruct (Nat.eqb_spec (iny m) (iny (a_img a))); [|discriminate].
  destruct (Nat.eqb_spec (inx m) (inx (a_img a))); [|discriminate]. cbn [andb] in H.
  destruct (a_type a) eqn:ET; [|discriminate]. cbn [cast bind] in H. injection H as <-. split; auto. split; auto. split; [|split; congruence].
  unfold keeps. cbn [a_img fill_mask iny inx px]. repeat split; auto; intros K;
    destruct (Nat.ltb_spec j (iny (a_img a))); try lia; destruct (Nat.ltb_spec i (inx (a_img a))); try lia; cbn [andb].
  - assert (P : px m j i = true) by (apply Mp, requested_one; now rewrite HL). now rewrite P.
  - destruct (px m j i) eqn:P; auto. apply Mp, requested_one in P. rewrite HL in P. contradiction.
Qed.

Lemma masked_float s a segm mb : a_type a = DFloat -> iny segm = iny (a_img a) -> inx segm = inx (a_img a) ->
  exists x, masked [] (AItem s) a segm (Some NaN) mb = Ok x /\ a_type x = DFloat /\ iny (a_img x) = iny (a_img a) /\ inx (a_img x) = inx (a_img a).
Proof.
  intros HT Hy Hx. destruct (mask_item [] s segm mb) as (m & Em & My & Mx & Mp). unfold masked. rewrite Em. cbn [fst bind].
  unfold same_shape. rewrite My, Mx, Hy, Hx, !Nat.eqb_refl, HT. cbn [andb cast bind]. eexists. split; [reflexivity|]. auto.
Qed.

Lemma masked_int s a segm mb : a_type a = DInt -> iny segm = iny (a_img a) -> inx segm = inx (a_img a) ->
  masked [] (AItem s) a segm (Some NaN) mb = Err ValueError.
Proof.
  intros HT Hy Hx. destruct (mask_item [] s segm mb) as (m & Em & My & Mx & Mp). unfold masked. rewrite Em. cbn [fst bind].
  unfold same_shape. rewrite My, Mx, Hy, Hx, !Nat.eqb_refl, HT. reflexivity.
Qed.

(** ** Side of the cutout *)

Lemma side_cases cs (rs : list xr) n : cutout_side cs rs = Ok n ->
  exists m, (match cs with
             | VNone => do m <- pymax rs; to_int (nceil (m * nofZ 3)%num)
             | VInt z => Ok z
             | VFloat x => to_int x
             | _ => Err TypeError
             end) = Ok m /\ Z.even n = true /\ (m <= n <= m + 1)%Z.
Proof.
  unfold cutout_side. intros H. apply bind_Ok in H. destruct H as (m & Em & H). exists m. split; auto. injection H as <-.
  pose proof (Z.mod_pos_bound m 2 ltac:(lia)). pose proof (Z.div_mod m 2 ltac:(lia)).
  destruct (Z.eqb_spec (m mod 2) 1) as [E|E]; split; try lia.
  - apply Z.even_spec. exists (m / 2 + 1)%Z. lia.
  - apply Z.even_spec. exists (m / 2)%Z. lia.
Qed.

Lemma side_even cs (rs : list xr) n : cutout_side cs rs = Ok n -> Z.even n = true.
Proof. intros H. now destruct (side_cases _ _ _ H) as (m & _ & E & _). Qed.

Lemma side_int z (rs : list xr) : exists n, cutout_side (VInt z) rs = Ok n /\ Z.even n = true /\ (z <= n <= z + 1)%Z.
Proof.
  destruct (cutout_side (VInt z) rs) as [n|] eqn:E; [|discriminate].
  destruct (side_cases _ _ _ E) as (m & Em & H). injection Em as <-. eauto.
Qed.
