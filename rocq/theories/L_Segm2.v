(** Proofs about segmentation.py: images in memory, masked_segm_image, cutouts; a version of
    source_photometry on plain values. *)
From Coq Require Import String FunctionalExtensionality.
From Verif Require Import Base Num Numpy M_Utils M_Photometry S_Photometry M_PSF M_Fitting M_Segm S_Segm L_Segm.
Local Open Scope list_scope.

(** ** Heaps *)
Definition hp := heap xr.

Lemma deref_app_old (h t : hp) r : (r < List.length h)%nat -> deref (h ++ t) r = deref h r.
Proof. intros H. unfold deref. now apply app_nth1. Qed.
Lemma deref_app_new (h t : hp) : forall a, deref (h ++ a :: t) (List.length h) = a.
Proof. intros a. unfold deref. rewrite app_nth2 by lia. now rewrite Nat.sub_diag. Qed.

Lemma set_nth_app {A} (h t : list A) k v : (List.length h <= k)%nat ->
  set_nth (h ++ t) k v = h ++ set_nth t (k - List.length h) v.
Proof.
  revert k. induction h as [|x h IH]; intros k H; cbn.
  - now rewrite Nat.sub_0_r.
  - destruct k; cbn in H; [lia|]. cbn. now rewrite IH by lia.
Qed.

Lemma deref_set (h : hp) k v r : (k < List.length h)%nat -> deref (set_nth h k v) r = if Nat.eqb r k then v else deref h r.
Proof.
  intros H. unfold deref. rewrite nth_set_nth. destruct (Nat.ltb_spec k (List.length h)); [|lia]. now rewrite andb_true_r.
Qed.

(** ** Plain values *)
(** m with f applied to every pixel *)
Definition pmap (f : nat -> nat -> xr -> xr) (m : img xr) : img xr :=
  mkimg (iny m) (inx m) (fun j i => if (j <? iny m)%nat && (i <? inx m)%nat then f j i (px m j i) else NaN).

Definition inb (n : nat) (z : Z) : bool := ((0 <=? z) && (z <? Z.of_nat n))%Z.

Definition cut (a : array xr) (x y size : Z) : result (img xr) :=
  let m := a_img a in
  let ny := Z.of_nat (iny m) in
  let nx := Z.of_nat (inx m) in
  let y0 := (y - size / 2)%Z in
  let x0 := (x - size / 2)%Z in
  let n := Z.to_nat size in
  if (size <=? 0)%Z then Err ValueError
  else if ((y0 + size <=? 0) || (ny <=? y0) || (x0 + size <=? 0) || (nx <=? x0))%Z%bool then Err ValueError
  else if ((0 <=? y0) && (y0 + size <=? ny) && (0 <=? x0) && (x0 + size <=? nx))%Z%bool ||
          match a_type a with DFloat => true | DInt => false end
  then Ok (mkimg n n (fun j i => if (j <? n)%nat && (i <? n)%nat then
             if inb (iny m) (y0 + Z.of_nat j) && inb (inx m) (x0 + Z.of_nat i)
             then px m (Z.to_nat (y0 + Z.of_nat j)) (Z.to_nat (x0 + Z.of_nat i)) else NaN
           else NaN))
  else Err ValueError.

(** [v] shows image c in heap h, lies inside its array, and does not reach below [lo] except at [r] *)
Definition shows (h : hp) (v : view) (c : img xr) : Prop :=
  (v_base v < List.length h)%nat /\ read v h = (Ok c, h) /\ v_h v = iny c /\ v_w v = inx c /\
  (v_y v + v_h v <= iny (a_img (deref h (v_base v))))%nat /\ (v_x v + v_w v <= inx (a_img (deref h (v_base v))))%nat.

Lemma shows_mono h t v c : shows h v c -> shows (h ++ t) v c.
Proof.
  intros (H1 & H2 & H3 & H4 & H5 & H6). unfold shows. rewrite app_length, deref_app_old by auto.
  repeat split; auto; [lia|]. unfold read in *. rewrite deref_app_old by auto. injection H2 as H2. f_equal. f_equal. exact H2.
Qed.

Lemma img_fun_eq (m1 m2 : img xr) : iny m1 = iny m2 -> inx m1 = inx m2 -> (forall j i, px m1 j i = px m2 j i) -> m1 = m2.
Proof.
  destruct m1 as [a b f], m2 as [c d g]. cbn. intros -> -> H. f_equal.
  do 2 (apply functional_extensionality; intro). apply H.
Qed.

Lemma cutout_shows (h : hp) r x y size : (r < List.length h)%nat ->
  match cut (deref h r) x y size with
  | Err e => exists t, cutout r x y size h = (Err e, h ++ t)
  | Ok c => exists v t, cutout r x y size h = (Ok v, h ++ t) /\ shows (h ++ t) v c /\
              (v_base v = r \/ (List.length h <= v_base v)%nat)
  end.
Proof.
  intros Hr. unfold cutout, cut. set (m := a_img (deref h r)). set (y0 := (y - size / 2)%Z). set (x0 := (x - size / 2)%Z).
  destruct (Z.leb_spec size 0). { exists []. now rewrite app_nil_r. }
  destruct ((y0 + size <=? 0) || (Z.of_nat (iny m) <=? y0) || (x0 + size <=? 0) || (Z.of_nat (inx m) <=? x0))%Z%bool eqn:EO.
  { exists []. now rewrite app_nil_r. }
  destruct ((0 <=? y0) && (y0 + size <=? Z.of_nat (iny m)) && (0 <=? x0) && (x0 + size <=? Z.of_nat (inx m)))%Z%bool eqn:EI.
  - cbn [orb]. eexists; exists []. rewrite app_nil_r. split; [reflexivity|].
    rewrite !andb_true_iff, !Z.leb_le in EI. destruct EI as (((I1 & I2) & I3) & I4).
    split; [|now left]. unfold shows. cbn [v_base v_h v_w v_y v_x iny inx]. fold m. repeat split; auto; try lia.
    unfold read. cbn [v_base v_h v_w v_y v_x]. fold m. f_equal. f_equal. apply img_fun_eq; auto. cbn [px]. intros j i.
    destruct (Nat.ltb_spec j (Z.to_nat size)); auto. destruct (Nat.ltb_spec i (Z.to_nat size)); auto. cbn [andb].
    unfold inb. destruct (Z.leb_spec 0 (y0 + Z.of_nat j)); [|lia]. destruct (Z.ltb_spec (y0 + Z.of_nat j) (Z.of_nat (iny m))); [|lia].
    destruct (Z.leb_spec 0 (x0 + Z.of_nat i)); [|lia]. destruct (Z.ltb_spec (x0 + Z.of_nat i) (Z.of_nat (inx m))); [|lia].
    cbn [andb]. f_equal; lia.
  - cbn [orb]. destruct (a_type (deref h r)); cbn [cast].
    + set (a := mkarr DFloat (mkimg (Z.to_nat size) (Z.to_nat size) (fun j i =>
        let y := (y0 + Z.of_nat j)%Z in let x := (x0 + Z.of_nat i)%Z in
        if ((0 <=? y) && (y <? Z.of_nat (iny m)) && (0 <=? x) && (x <? Z.of_nat (inx m)))%Z%bool
        then px m (Z.to_nat y) (Z.to_nat x) else NaN))). exists (mkview (List.length h) 0 0 (Z.to_nat size) (Z.to_nat size)), [a]. split; [reflexivity|].
      split; [|right; cbn; lia]. unfold shows. cbn [v_base v_h v_w v_y v_x iny inx]. rewrite deref_app_new. cbn [a_img a iny inx].
      repeat split; auto; try (rewrite app_length; cbn; lia).
      unfold read. cbn [v_base v_h v_w v_y v_x]. rewrite deref_app_new. cbn [a_img a]. f_equal. f_equal.
      apply img_fun_eq; auto. cbn [px]. intros j i. cbn [Nat.add]. destruct ((j <? Z.to_nat size)%nat && (i <? Z.to_nat size)%nat); auto. cbv zeta. unfold inb. now rewrite !andb_assoc.
    + exists []. rewrite app_nil_r. reflexivity.
Qed.

(** writing through a view *)
Lemma write_shows (h : hp) v c f : shows h v c ->
  exists a, write v f h = (Ok tt, set_nth h (v_base v) a) /\ shows (set_nth h (v_base v) a) v (pmap f c) /\
    iny (a_img a) = iny (a_img (deref h (v_base v))) /\ inx (a_img a) = inx (a_img (deref h (v_base v))).
Proof.
  intros (H1 & H2 & H3 & H4 & H5 & H6). eexists. split; [reflexivity|]. cbn [a_img iny inx]. split; [|auto].
  unfold shows. rewrite set_nth_length, deref_set by auto. rewrite Nat.eqb_refl. cbn [a_img iny inx pmap].
  repeat split; auto.
  unfold read. rewrite deref_set by auto. rewrite Nat.eqb_refl. cbn [a_img]. f_equal. f_equal. unfold pmap.
  unfold read in H2. injection H2 as H2. rewrite <- H2. cbn [iny inx].
  apply img_fun_eq; auto. cbn [px]. intros j i.
  destruct (Nat.ltb_spec j (v_h v)); auto. destruct (Nat.ltb_spec i (v_w v)); auto. cbn [andb].
  destruct (Nat.leb_spec (v_y v) (v_y v + j)); [|lia]. destruct (Nat.ltb_spec (v_y v + j) (v_y v + v_h v)); [|lia].
  destruct (Nat.leb_spec (v_x v) (v_x v + i)); [|lia]. destruct (Nat.ltb_spec (v_x v + i) (v_x v + v_w v)); [|lia].
  cbn [andb]. f_equal; lia.
Qed.

(** a view of another array is not affected *)
Lemma shows_other (h : hp) k a v c : shows h v c -> v_base v <> k -> (k < List.length h)%nat -> shows (set_nth h k a) v c.
Proof.
  intros (H1 & H2 & H3 & H4 & H5 & H6) N Hk. unfold shows. rewrite set_nth_length, deref_set by auto.
  destruct (Nat.eqb_spec (v_base v) k); [contradiction|]. repeat split; auto.
  unfold read in *. rewrite deref_set by auto. destruct (Nat.eqb_spec (v_base v) k); [contradiction|]. injection H2 as H2. f_equal. f_equal. exact H2.
Qed.

(** ** masked_segm_image *)
Definition fill_mask (mask : img bool) (x : xr) (m : img xr) : img xr :=
  mkimg (iny m) (inx m) (fun j i => if (j <? iny m)%nat && (i <? inx m)%nat then if px mask j i then px m j i else x else px m j i).

Definition masked (mem : lists) (src : source_arg) (a : array xr) (segm : img Z) (fill : option xr) (mb : bool) : result (array xr) :=
  let fill := match fill with None => NaN | Some f => f end in
  do m <- fst (segm_mask mem src segm mb);
  match m with
  | None => Err TypeError
  | Some mask =>
      if same_shape mask (a_img a) then
        do x <- cast (a_type a) fill; Ok (mkarr (a_type a) (fill_mask mask x (a_img a)))
      else Err IndexError
  end.

Lemma masked_heap mem src (h : hp) image segm fill mb : (image < List.length h)%nat ->
  match masked mem src (deref h image) segm fill mb with
  | Err e => exists t, masked_segm_image mem src image segm fill mb h = (Err e, h ++ t)
  | Ok a => masked_segm_image mem src image segm fill mb h =
              (Ok (List.length h, snd (segm_mask mem src segm mb)), h ++ [a])
  end.
Proof.
  intros Hi. unfold masked, masked_segm_image. destruct (segm_mask mem src segm mb) as [[m|e] mem']; cbn [fst snd bind].
  2:{ exists []. now rewrite app_nil_r. }
  unfold bindio at 1. unfold alloc. cbn.
  destruct m as [mask|]. 2:{ eexists; reflexivity. }
  destruct (same_shape mask (a_img (deref h image))) eqn:SS. 2:{ eexists; reflexivity. }
  change (@nnan xr XRnum) with NaN.
  unfold bindio, lift.
  destruct (cast (a_type (deref h image)) match fill with Some f => f | None => NaN end) as [x|e] eqn:EC; cbn [bind].
  2:{ eexists; reflexivity. }
  unfold write, ret. cbn [v_base v_y v_x v_h v_w]. rewrite deref_app_new. rewrite set_nth_app by lia. rewrite Nat.sub_diag. cbn [set_nth].
  f_equal. f_equal. f_equal. f_equal. apply img_fun_eq; auto. cbn [px fill_mask]. intros j i. rewrite !Nat.sub_0_r.
  change (0 <=? j)%nat with true. change (0 <=? i)%nat with true. rewrite !Nat.add_0_l, !andb_true_l, andb_true_r.
  destruct ((j <? iny (a_img (deref h image)))%nat && (i <? inx (a_img (deref h image)))%nat); auto.
  now destruct (px mask j i).
Qed.

(** ** source_photometry on plain values *)
Section Pure.
  Variable overlap : aperture xr -> nat -> nat -> option (nat -> nat -> xr).
  Variable sigma_clip : img xr -> xr -> img bool.
  Variable clipped_stats : img xr -> xr * xr.
  Variables M O : Type.
  Variable planar : M.
  Variable linear : fitter (T:=xr) M O.
  Variable opts : O.
  Variable evalM : M -> smodel (T:=xr).

  Definition bound_out (s : img xr) (sigma : xr) : img xr :=
    let '(mean, std) := clipped_stats s in
    pmap (fun _ _ old => if (old <? mean - std * sigma)%num then NaN else old)
      (pmap (fun _ _ old => if (mean + std * sigma <? old)%num then NaN else old) s).

  Definition bg_image (kind : sigma_kind) (s : img xr) (sigma : xr) : result (img xr * option (img bool)) :=
    match kind with
    | Clip => Ok (s, Some (sigma_clip s sigma))
    | Bound => Ok (bound_out s sigma, None)
    | OtherKind => Err TypeError
    end.

  Definition subtract (m s : img xr) (size : Z) (sigma : xr) (kind : sigma_kind) : result (img xr) :=
    do bg <- bg_image kind s sigma;
    do fitted <- fit_model M O bg planar None linear false opts;
    do mi <- model_to_image (evalM (fst fitted)) (VInt size) false Center 1 None;
    if Nat.eqb (iny mi) (iny m) && Nat.eqb (inx mi) (inx m) then
      let d := pmap (fun j i old => (old - px mi j i)%num) m in
      Ok (match kind with
          | Bound => mkimg (iny d) (inx d) (fun j i => clip_below (nopp sigma) (px d j i))
          | _ => d
          end)
    else Err ValueError.

  Definition pure_photometry (k : flavour) (src : source xr) (image : array xr) (segm : img Z) (r_list : list xr)
      (error : option (array xr)) (cutout_size : pyv xr) (bg_sub : bool) (sigma : xr) (kind : sigma_kind)
      (mb : bool) : result (list xr * list xr * list xr) :=
    do c <- source_row src;
    do size <- cutout_side cutout_size r_list;
    do err <- (match error with None => Ok None | Some e => do x <- cut e (c_x c) (c_y c) size; Ok (Some x) end);
    do full <- masked [] (as_arg src) image segm (Some NaN) mb;
    do m <- cut full (c_x c) (c_y c) size;
    do full_bg <- masked [] (AItem (LInt 0)) image segm (Some NaN) false;
    do s <- cut full_bg (c_x c) (c_y c) size;
    do final <- (if bg_sub && (10 <? List.length (good_pixels s))%nat then subtract m s size sigma kind else Ok m);
    let position := (nofnat (iny final) / n2, nofnat (inx final) / n2)%num in
    radial_photometry overlap k final position r_list err (Some (not_nan final)) (c_elong c) (c_theta c).

  Definition photometry := source_photometry overlap sigma_clip clipped_stats M O planar linear opts evalM.

  (** results of a computation that only adds to the heap *)
  Definition extends {A} (m : io (T:=xr) A) (h : hp) (r : result A) : Prop := exists t, m h = (r, h ++ t).

  Lemma bind_err {A B} (m : io (T:=xr) A) (f : A -> io (T:=xr) B) h h' e : m h = (Err e, h') -> bindio m f h = (Err e, h').
  Proof. intros H. unfold bindio. now rewrite H. Qed.
  Lemma bind_ok {A B} (m : io (T:=xr) A) (f : A -> io (T:=xr) B) h h' a : m h = (Ok a, h') -> bindio m f h = f a h'.
  Proof. intros H. unfold bindio. now rewrite H. Qed.

  Lemma bind_lift {A B} (m : result A) (f : A -> io (T:=xr) B) h :
    bindio (lift m) f h = match m with Ok a => f a h | Err e => (Err e, h) end.
  Proof. unfold bindio, lift. now destruct m. Qed.

  Lemma cut_square a x y size c : cut a x y size = Ok c -> iny c = Z.to_nat size /\ inx c = Z.to_nat size /\ (0 < size)%Z.
  Proof.
    unfold cut. destruct (Z.leb_spec size 0); [discriminate|].
    destruct (_ || _)%bool; [discriminate|]. destruct (_ || _)%bool; [|discriminate].
    intros [= <-]. auto.
  Qed.

  Lemma set_nth_ext (h t : hp) k a : (List.length h <= k)%nat -> exists t', set_nth (h ++ t) k a = h ++ t'.
  Proof. intros H. rewrite set_nth_app by auto. eauto. Qed.

  Theorem photometry_pure k src image segm r_list error cutout_size bg_sub sigma kind mb (h : hp) :
    (image < List.length h)%nat -> (forall e, error = Some e -> (e < List.length h)%nat) ->
    exists t, photometry k src image segm r_list error cutout_size bg_sub sigma kind mb h =
      (pure_photometry k src (deref h image) segm r_list (option_map (deref h) error) cutout_size bg_sub sigma kind mb, h ++ t).
  Proof.
    intros Hi He. unfold photometry, source_photometry, source_cutout, pure_photometry.
    rewrite bind_lift. destruct (source_row src) as [c|e]; cbn [bind]. 2:{ exists []. now rewrite app_nil_r. }
    rewrite bind_lift. destruct (cutout_side cutout_size r_list) as [size|e]; cbn [bind]. 2:{ exists []. now rewrite app_nil_r. }
    (* error cutout *)
    assert (E1 : exists t1, match
        match option_map (deref h) error with None => Ok None | Some e => do x <- cut e (c_x c) (c_y c) size; Ok (Some x) end with
      | Err e => match error with None => ret None | Some e => bindio (cutout e (c_x c) (c_y c) size) (fun v => ret (Some v)) end h
                 = (Err e, h ++ t1)
      | Ok er => exists vo, match error with None => ret None | Some e => bindio (cutout e (c_x c) (c_y c) size) (fun v => ret (Some v)) end h
                 = (Ok vo, h ++ t1) /\
                 match er, vo with None, None => True | Some x, Some v => shows (h ++ t1) v x | _, _ => False end
      end).
    { destruct error as [e|]; cbn [option_map].
      - pose proof (cutout_shows h e (c_x c) (c_y c) size (He e eq_refl)) as CS.
        destruct (cut (deref h e) (c_x c) (c_y c) size) as [x|ex]; cbn [bind].
        + destruct CS as (v & t & Ec & Sh & _). exists t, (Some v). split; auto. rewrite (bind_ok _ _ _ _ _ Ec). reflexivity.
        + destruct CS as (t & Ec). exists t. now apply bind_err.
      - exists []. rewrite app_nil_r. exists None. auto. }
    destruct E1 as (t1 & E1).
    destruct (match option_map (deref h) error with None => Ok None | Some e => do x <- cut e (c_x c) (c_y c) size; Ok (Some x) end) as [er|e];
      cbn [bind].
    2:{ exists t1. apply (bind_err _ _ _ _ _ E1). }
    destruct E1 as (vo & E1 & Sv). rewrite (bind_ok _ _ _ _ _ E1). clear E1. set (h1 := h ++ t1) in *.
    assert (L1 : (List.length h <= List.length h1)%nat) by (unfold h1; rewrite app_length; lia).
    assert (D1 : deref h1 image = deref h image) by now apply deref_app_old.
    (* masked image *)
    pose proof (masked_heap [] (as_arg src) h1 image segm (Some NaN) mb ltac:(lia)) as MH. rewrite D1 in MH.
    destruct (masked [] (as_arg src) (deref h image) segm (Some NaN) mb) as [full|e]; cbn [bind].
    2:{ destruct MH as (t & MH). exists (t1 ++ t). rewrite app_assoc. apply (bind_err _ _ _ _ _ MH). }
    rewrite (bind_ok _ _ _ _ _ MH). clear MH. cbn [fst]. set (h2 := h1 ++ [full]).
    assert (L2 : List.length h2 = S (List.length h1)) by (unfold h2; rewrite app_length; cbn; lia).
    assert (D2 : deref h2 (List.length h1) = full) by (unfold h2; apply deref_app_new).
    pose proof (cutout_shows h2 (List.length h1) (c_x c) (c_y c) size ltac:(lia)) as CS. rewrite D2 in CS.
    destruct (cut full (c_x c) (c_y c) size) as [m|e] eqn:Em; cbn [bind].
    2:{ destruct CS as (t & CS). exists (t1 ++ [full] ++ t). rewrite (bind_err _ _ _ _ _ CS). unfold h2, h1. now rewrite <- !app_assoc. }
    destruct CS as (vm & t3 & CS & Sm & Bm). rewrite (bind_ok _ _ _ _ _ CS). clear CS. set (h3 := h2 ++ t3) in *.
    assert (L3 : (List.length h2 <= List.length h3)%nat) by (unfold h3; rewrite app_length; lia).
    assert (Bm' : (List.length h1 <= v_base vm)%nat) by lia.
    assert (D3 : deref h3 image = deref h image).
    { unfold h3, h2. rewrite !deref_app_old by (rewrite ?app_length; cbn; lia). auto. }
    (* background image *)
    pose proof (masked_heap [] (AItem (LInt 0)) h3 image segm (Some NaN) false ltac:(lia)) as MH. rewrite D3 in MH.
    assert (P3 : h3 = h ++ (t1 ++ [full] ++ t3)) by (unfold h3, h2, h1; now rewrite <- !app_assoc).
    destruct (masked [] (AItem (LInt 0)) (deref h image) segm (Some NaN) false) as [bgf|e]; cbn [bind].
    2:{ destruct MH as (t & MH). eexists. rewrite (bind_err _ _ _ _ _ MH). rewrite P3, <- app_assoc. reflexivity. }
    rewrite (bind_ok _ _ _ _ _ MH). clear MH. cbn [fst]. set (h4 := h3 ++ [bgf]).
    assert (L4 : List.length h4 = S (List.length h3)) by (unfold h4; rewrite app_length; cbn; lia).
    assert (D4 : deref h4 (List.length h3) = bgf) by (unfold h4; apply deref_app_new).
    pose proof (cutout_shows h4 (List.length h3) (c_x c) (c_y c) size ltac:(lia)) as CS. rewrite D4 in CS.
    destruct (cut bgf (c_x c) (c_y c) size) as [s|e] eqn:Es; cbn [bind].
    2:{ destruct CS as (t & CS). eexists. rewrite (bind_err _ _ _ _ _ CS). unfold h4. rewrite P3, <- !app_assoc. reflexivity. }
    destruct CS as (vs & t5 & CS & Ss & Bs). rewrite (bind_ok _ _ _ _ _ CS). clear CS. set (h5 := h4 ++ t5) in *.
    assert (P5 : h5 = h1 ++ ([full] ++ t3 ++ [bgf] ++ t5)) by (unfold h5, h4, h3, h2; now rewrite <- !app_assoc).
    assert (Bs' : (List.length h3 <= v_base vs)%nat) by lia.
    assert (Sm5 : shows h5 vm m). { unfold h5, h4. apply shows_mono, shows_mono. exact Sm. }
    assert (Nb : v_base vm <> v_base vs).
    { destruct Sm as (B & _). lia. }
    assert (Sv5 : match er, vo with None, None => True | Some x, Some v => shows h5 v x /\ (v_base v < List.length h1)%nat | _, _ => False end).
    { destruct er as [x|], vo as [v|]; auto. split; [|apply Sv]. rewrite P5. now apply shows_mono. }
    clear Sv Sm D1 D2 D3 D4.
    assert (RS : read vs h5 = (Ok s, h5)) by apply Ss. rewrite (bind_ok _ _ _ _ _ RS).
    (* last step, from any heap in which the two cutouts are intact *)
    assert (LAST : forall h6 t6 final, h6 = h1 ++ t6 ->
        match er, vo with None, None => True | Some x, Some v => shows h6 v x | _, _ => False end ->
        exists t, bindio match vo with None => ret None | Some v => bindio (read v) (fun e => ret (Some e)) end
          (fun err => lift (radial_photometry overlap k final (nofnat (iny final) / n2, nofnat (inx final) / n2)%num r_list err
             (Some (not_nan final)) (c_elong c) (c_theta c))) h6 =
        (radial_photometry overlap k final (nofnat (iny final) / n2, nofnat (inx final) / n2)%num r_list er
             (Some (not_nan final)) (c_elong c) (c_theta c), h ++ t)).
    { intros h6 t6 final E6 S6. exists (t1 ++ t6). rewrite app_assoc. fold h1. rewrite <- E6.
      destruct er as [x|], vo as [v|]; try contradiction.
      - assert (RV : read v h6 = (Ok x, h6)) by apply S6. unfold bindio at 1. rewrite (bind_ok _ _ _ _ _ RV). reflexivity.
      - reflexivity. }
    (* error view survives a write to an array of ours *)
    assert (OTHER : forall hx kx ax, (List.length h1 <= kx < List.length hx)%nat ->
        match er, vo with None, None => True | Some x, Some v => shows hx v x /\ (v_base v < List.length h1)%nat | _, _ => False end ->
        match er, vo with None, None => True | Some x, Some v => shows (set_nth hx kx ax) v x /\ (v_base v < List.length h1)%nat | _, _ => False end).
    { intros hx kx ax K H6. destruct er as [x|], vo as [v|]; auto. destruct H6 as [H6 B]. split; auto. apply shows_other; auto; lia. }
    assert (WEAK : forall hx, match er, vo with None, None => True | Some x, Some v => shows hx v x /\ (v_base v < List.length h1)%nat | _, _ => False end ->
        match er, vo with None, None => True | Some x, Some v => shows hx v x | _, _ => False end).
    { intros hx H6. destruct er, vo; tauto. }
    destruct (bg_sub && (10 <? List.length (good_pixels s))%nat).
    2:{ cbn [bind]. assert (RM : read vm h5 = (Ok m, h5)) by apply Sm5. rewrite (bind_ok _ _ _ _ _ RM).
        apply (LAST h5 _ m P5). now apply WEAK. }
    (* background subtraction *)
    unfold subtract.
    assert (BG : match bg_image kind s sigma with
       | Err e => (match kind with
           | Clip => ret (s, Some (sigma_clip s sigma))
           | Bound => let '(mean, std) := clipped_stats s in
               bindio (write vs (fun _ _ old => if (mean + std * sigma <? old)%num then nnan else old)) (fun _ =>
               bindio (write vs (fun _ _ old => if (old <? mean - std * sigma)%num then nnan else old)) (fun _ =>
               bindio (read vs) (fun s' => ret (s', None))))
           | OtherKind => lift (Err TypeError)
           end) h5 = (Err e, h5)
       | Ok bg => exists h6 t6, h6 = h1 ++ t6 /\ (match kind with
           | Clip => ret (s, Some (sigma_clip s sigma))
           | Bound => let '(mean, std) := clipped_stats s in
               bindio (write vs (fun _ _ old => if (mean + std * sigma <? old)%num then nnan else old)) (fun _ =>
               bindio (write vs (fun _ _ old => if (old <? mean - std * sigma)%num then nnan else old)) (fun _ =>
               bindio (read vs) (fun s' => ret (s', None))))
           | OtherKind => lift (Err TypeError)
           end) h5 = (Ok bg, h6) /\ shows h6 vm m /\
           match er, vo with None, None => True | Some x, Some v => shows h6 v x /\ (v_base v < List.length h1)%nat | _, _ => False end
       end).
    { destruct kind; cbn [bg_image].
      - exists h5, ([full] ++ t3 ++ [bgf] ++ t5). auto.
      - unfold bound_out. destruct (clipped_stats s) as [mean std].
        destruct (write_shows h5 vs s (fun _ _ old => if (mean + std * sigma <? old)%num then nnan else old) Ss) as (a1 & W1 & S1 & _).
        destruct (write_shows _ vs _ (fun _ _ old => if (old <? mean - std * sigma)%num then nnan else old) S1) as (a2 & W2 & S2 & _).
        assert (K5 : (v_base vs < List.length h5)%nat) by apply Ss.
        eexists. exists (set_nth (set_nth ([full] ++ t3 ++ [bgf] ++ t5) (v_base vs - List.length h1) a1) (v_base vs - List.length h1) a2).
        split; [reflexivity|]. rewrite <- !set_nth_app by lia. rewrite <- P5. split; [|split].
        + rewrite (bind_ok _ _ _ _ _ W1), (bind_ok _ _ _ _ _ W2).
          assert (R2 := proj1 (proj2 S2)). rewrite (bind_ok _ _ _ _ _ R2). reflexivity.
        + apply shows_other; auto; [|rewrite set_nth_length; lia]. apply shows_other; auto.
        + apply OTHER; [rewrite set_nth_length; lia|]. apply OTHER; auto. lia.
      - reflexivity. }
    destruct (bg_image kind s sigma) as [bg|e]; cbn [bind].
    2:{ exists (t1 ++ [full] ++ t3 ++ [bgf] ++ t5). rewrite app_assoc. fold h1. rewrite <- P5. apply bind_err. apply bind_err. exact BG. }
    destruct BG as (h6 & t6 & P6 & BG & Sm6 & Sv6).
    unfold bindio at 1. rewrite (bind_ok _ _ _ _ _ BG). clear BG. rewrite bind_lift.
    destruct (fit_model M O bg planar None linear false opts) as [fitted|e]; cbn [bind].
    2:{ exists (t1 ++ t6). rewrite app_assoc. fold h1. now rewrite <- P6. }
    rewrite bind_lift.
    destruct (model_to_image (evalM (fst fitted)) (VInt size) false Center 1 None) as [mi|e]; cbn [bind].
    2:{ exists (t1 ++ t6). rewrite app_assoc. fold h1. now rewrite <- P6. }
    unfold isub. destruct Sm6 as (B6 & R6 & H6 & W6 & X6). rewrite H6, W6.
    destruct (Nat.eqb (iny mi) (iny m) && Nat.eqb (inx mi) (inx m)).
    2:{ exists (t1 ++ t6). rewrite app_assoc. fold h1. now rewrite <- P6. }
    destruct (write_shows h6 vm m (fun j i old => (old - px mi j i)%num)) as (a & Wr & Sh & _). { unfold shows. auto. }
    rewrite (bind_ok _ _ _ _ _ Wr). assert (RR := proj1 (proj2 Sh)). rewrite (bind_ok _ _ _ _ _ RR).
    assert (P7 : set_nth h6 (v_base vm) a = h1 ++ set_nth t6 (v_base vm - List.length h1) a) by (rewrite P6; now apply set_nth_app).
    assert (Sv7 := OTHER h6 (v_base vm) a ltac:(lia) Sv6). apply WEAK in Sv7.
    destruct kind; cbn [ret]; apply (LAST _ _ _ P7 Sv7).
  Qed.
End Pure.
