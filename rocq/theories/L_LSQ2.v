(** Planes under a source: what background subtraction by least squares does to them. *)
From Coq Require Import String Classical_Prop.
From Verif Require Import Base Num Numpy M_Utils M_Photometry S_Photometry M_PSF M_Fitting S_Fitting M_Segm S_Segm L_Numpy L_Photometry L_PSF
  L_Fitting L_Fitting2 L_Segm L_Segm2 L_Segm3 L_Segm4 S_LSQ L_LSQ.
Local Open Scope list_scope.

(** ** Images that agree inside their shape *)
Definition same_px {A} (a b : img A) : Prop :=
  iny a = iny b /\ inx a = inx b /\ forall j i, (j < iny a)%nat -> (i < inx a)%nat -> px a j i = px b j i.
Definition same_opt {A} (a b : option (img A)) : Prop :=
  match a, b with None, None => True | Some a, Some b => same_px a b | _, _ => False end.

Lemma in_pixels ny nx p : In p (pixels ny nx) -> (fst p < ny)%nat /\ (snd p < nx)%nat.
Proof.
  unfold pixels. intros H. apply in_flat_map in H as (j & Hj & H). apply in_map_iff in H as (i & <- & Hi).
  apply in_seq in Hj. apply in_seq in Hi. cbn. lia.
Qed.

Section Same.
  Variable overlap : aperture xr -> nat -> nat -> option (nat -> nat -> xr).

  Lemma same_shapes {A B} (a b : img A) (c d : img B) : same_px a b -> same_px c d -> same_shape c a = same_shape d b.
  Proof. intros (H1 & H2 & _) (H3 & H4 & _). unfold same_shape. now rewrite H1, H2, H3, H4. Qed.

  Lemma phot_same ap (a b : img xr) ea eb (ma mb : option (img bool)) : same_px a b -> same_opt ea eb -> same_opt ma mb ->
    do_photometry overlap ap a ea ma = do_photometry overlap ap b eb mb.
  Proof.
    intros Hab He Hm. unfold do_photometry.
    assert (S1 : match ea with None => true | Some e => same_shape e a end = match eb with None => true | Some e => same_shape e b end).
    { destruct ea, eb; cbn in He; try contradiction; auto. now apply same_shapes. }
    assert (S2 : match ma with None => true | Some e => same_shape e a end = match mb with None => true | Some e => same_shape e b end).
    { destruct ma, mb; cbn in Hm; try contradiction; auto. now apply same_shapes. }
    destruct (match ea with None => true | Some e => same_shape e a end) eqn:T1; rewrite <- S1; auto.
    destruct (match ma with None => true | Some e => same_shape e a end) eqn:T2; rewrite <- S2; auto.
    destruct Hab as (Hy & Hx & Hp). rewrite <- Hy, <- Hx. destruct (overlap ap (iny a) (inx a)) as [w|]; auto.
    assert (F : filter (used w ma) (pixels (iny a) (inx a)) = filter (used w mb) (pixels (iny a) (inx a))).
    { apply filter_ext_in. intros p Hi. apply in_pixels in Hi as [Hj Hi]. unfold used. f_equal. destruct ma as [m1|], mb as [m2|]; cbn in Hm; try contradiction; auto.
      f_equal. destruct Hm as (M1 & M2 & M3). unfold same_shape in T2. apply andb_prop in T2 as [T2 T3]. apply Nat.eqb_eq in T2. apply Nat.eqb_eq in T3.
      apply M3; lia. }
    assert (L : forall p, In p (filter (used w mb) (pixels (iny a) (inx a))) -> (fst p < iny a)%nat /\ (snd p < inx a)%nat).
    { intros p Hi. apply filter_In in Hi as [Hi _]. now apply in_pixels. }
    rewrite F. f_equal. f_equal.
    - f_equal. apply map_ext_in. intros p Hi. apply L in Hi as [? ?]. now rewrite Hp.
    - destruct ea as [e1|], eb as [e2|]; cbn in He; try contradiction; auto. f_equal. f_equal. f_equal. apply map_ext_in. intros p Hi.
      apply L in Hi as [? ?]. destruct He as (E1 & E2 & E3). unfold same_shape in T1. apply andb_prop in T1 as [T1 T3]. apply Nat.eqb_eq in T1. apply Nat.eqb_eq in T3.
      rewrite E3 by lia. reflexivity.
  Qed.

  Lemma rp_same k pos rs (a b : img xr) ea eb (ma mb : option (img bool)) elong theta : same_px a b -> same_opt ea eb -> same_opt ma mb ->
    radial_photometry overlap k a pos rs ea ma elong theta = radial_photometry overlap k b pos rs eb mb elong theta.
  Proof.
    intros Hab He Hm. unfold radial_photometry. f_equal.
    induction rs as [|r rs IH]; cbn [mapM]; auto. rewrite IH. f_equal. unfold one_radius.
    assert (Hi : same_opt (option_map invert ma) (option_map invert mb)).
    { destruct ma, mb; cbn in Hm |- *; auto. destruct Hm as (H1 & H2 & H3). repeat split; auto. intros j0 i1 Hj Hx. cbn in *. now rewrite H3. }
    destruct (radial_elliptical_aperture _ _ _ _ _) as [ap|]; cbn [bind]; auto.
    rewrite (phot_same ap a b ea eb _ _ Hab He Hi).
    rewrite (phot_same ap (ones_like a) (ones_like b) None None (option_map invert ma) (option_map invert mb)); auto; [|exact I].
    destruct Hab as (H1 & H2 & _). repeat split; cbn; auto.
  Qed.

  Lemma mask_same a b ma mb : same_px a b -> mask_of a ma -> mask_of b mb -> same_px ma mb.
  Proof.
    intros (H1 & H2 & H3) (A1 & A2 & A3) (B1 & B2 & B3). split; [congruence|]. split; [congruence|]. intros j i Hj Hi.
    specialize (A3 j i). specialize (B3 j i). rewrite H3 in A3 by congruence.
    destruct (px ma j i), (px mb j i); auto; [symmetry|]; tauto.
  Qed.
End Same.

Lemma cutout_unique m x y size c c' : is_cutout m x y size c -> is_cutout m x y size c' -> same_px c c'.
Proof.
  intros (A & B & C) (A' & B' & C'). split; [lia|]. split; [lia|]. intros j i Hj Hi.
  destruct (C j i _ _ Hj Hi eq_refl eq_refl) as [P1 P2]. destruct (C' j i (y + (Z.of_nat j - size / 2))%Z (x + (Z.of_nat i - size / 2))%Z ltac:(lia) ltac:(lia) eq_refl eq_refl) as [Q1 Q2].
  destruct (classic (0 <= y + (Z.of_nat j - size / 2) < Z.of_nat (iny m) /\ 0 <= x + (Z.of_nat i - size / 2) < Z.of_nat (inx m))%Z) as [K|K].
  - now rewrite P1, Q1. - now rewrite P2, Q2.
Qed.
Lemma error_same h error x y size e e' : error_cutout h error x y size e -> error_cutout h error x y size e' -> same_opt e e'.
Proof. destruct error, e, e'; cbn; try tauto. apply cutout_unique. Qed.

(** ** Planes through masks and cutouts *)
Lemma keeps_plane want segm a b c m m' k k' : plus_plane a b c m m' -> keeps want segm m k -> keeps want segm m' k' -> plus_plane a b c k k'.
Proof.
  intros (H1 & H2 & H3) (K1 & K2 & K3) (L1 & L2 & L3). split; [congruence|]. split; [congruence|]. intros j i Hj Hi.
  destruct (K3 j i ltac:(congruence) ltac:(congruence)) as [P1 P2]. destruct (L3 j i ltac:(congruence) ltac:(congruence)) as [Q1 Q2].
  destruct (classic (want (px segm j i))) as [W|W].
  - rewrite P1, Q1 by auto. apply H3; congruence.
  - now rewrite P2, Q2.
Qed.

Definition moved (a b c : R) (x y size : Z) : R := (c + a * IZR (x - size / 2) + b * IZR (y - size / 2))%R.

Lemma cutout_plane a b c m m' x y size k k' : plus_plane a b c m m' -> is_cutout m x y size k -> is_cutout m' x y size k' ->
  plus_plane a b (moved a b c x y size) k k'.
Proof.
  intros (H1 & H2 & H3) (K1 & K2 & K3) (L1 & L2 & L3). split; [lia|]. split; [lia|]. intros j i Hj Hi.
  destruct (K3 j i _ _ Hj Hi eq_refl eq_refl) as [P1 P2].
  destruct (L3 j i (y + (Z.of_nat j - size / 2))%Z (x + (Z.of_nat i - size / 2))%Z ltac:(lia) ltac:(lia) eq_refl eq_refl) as [Q1 Q2].
  rewrite H1, H2 in Q1, Q2.
  destruct (classic (0 <= y + (Z.of_nat j - size / 2) < Z.of_nat (iny m) /\ 0 <= x + (Z.of_nat i - size / 2) < Z.of_nat (inx m))%Z) as [K|K].
  - rewrite P1, Q1 by auto. rewrite H3 by lia. destruct (px m _ _); auto. f_equal. f_equal. unfold plane, moved.
    rewrite !INR_IZR_INZ, !Z2Nat.id by lia. rewrite !plus_IZR, !minus_IZR. ring.
  - now rewrite P2, Q2.
Qed.

Lemma plane_nan a b c m m' j i : plus_plane a b c m m' -> (j < iny m)%nat -> (i < inx m)%nat -> (px m' j i = NaN <-> px m j i = NaN).
Proof. intros (_ & _ & H) Hj Hi. rewrite H by auto. destruct (px m j i); split; congruence. Qed.

(** ** The points of a background image *)
Definition fin (x : xr) : R := match x with Fin v => v | _ => 0%R end.
Definition pt (s : img xr) (p : nat * nat) : point := ((snd p, fst p), fin (px s (fst p) (snd p))).
Definition zs (s : img xr) (l : list (nat * nat)) : list R := map (fun p => fin (px s (fst p) (snd p))) l.

Lemma combine_map3 {A B C D} (f : A -> B) (g : A -> C) (k : A -> D) l :
  combine (combine (map f l) (map g l)) (map k l) = map (fun a => (f a, g a, k a)) l.
Proof. induction l as [|a l IH]; cbn; auto. now rewrite IH. Qed.
Lemma combine_filter {A B} (f : A -> B) (k : A -> bool) l :
  map fst (filter (fun q => negb (snd q)) (combine (map f l) (map k l))) = map f (filter (fun a => negb (k a)) l).
Proof. induction l as [|a l IH]; cbn; auto. destruct (k a); cbn; [exact IH|now rewrite IH]. Qed.

Definition left_in (obeys : bool) (mask : option (img bool)) (p : nat * nat) : bool :=
  match mask with Some k => negb obeys || negb (px k (fst p) (snd p)) | None => true end.
Lemma points_are obeys s l (mask : option (img bool)) :
  fitted_points obeys (map snd l) (map fst l) (zs s l) (option_map (fun k => map (fun p => px k (fst p) (snd p)) l) mask) =
  map (pt s) (filter (left_in obeys mask) l).
Proof.
  assert (A : combine (combine (map snd l) (map fst l)) (zs s l) = map (pt s) l) by (unfold zs; now rewrite combine_map3).
  assert (T : forall P : nat * nat -> bool, (forall p, P p = true) -> filter P l = l).
  { intros P H. induction l as [|p l' IH]; cbn; auto. rewrite H. f_equal. apply IH. unfold zs. now rewrite combine_map3. }
  unfold fitted_points. rewrite A. destruct mask as [k|]; cbn [option_map].
  - destruct obeys.
    + rewrite combine_filter. f_equal. 
    + rewrite T; auto.
  - rewrite T; auto.
Qed.

Lemma fin_list s l : (forall p, In p l -> exists v, px s (fst p) (snd p) = Fin v) -> map (fun p => px s (fst p) (snd p)) l = map Fin (zs s l).
Proof.
  intros H. unfold zs. rewrite map_map. apply map_ext_in. intros p Hp. destruct (H p Hp) as (v & ->). reflexivity.
Qed.

Lemma spread_points obeys s mask l (P : nat -> nat -> Prop) : spread_on P -> (forall j i, P j i -> In (j, i) l /\ left_in obeys mask (j, i) = true) ->
  spread (map fst (map (pt s) (filter (left_in obeys mask) l))).
Proof.
  intros HS HI u v w H. apply (HS u v w). intros j i K. destruct (HI j i K) as [I1 I2].
  apply (H (i, j)). rewrite map_map. apply in_map_iff. exists (j, i). split; auto. now apply filter_In.
Qed.

Lemma points_lifted a b c s s' l : plus_plane a b c s s' -> (forall p, In p l -> (fst p < iny s)%nat /\ (snd p < inx s)%nat /\ exists v, px s (fst p) (snd p) = Fin v) ->
  map (pt s') l = map (lifted a b c) (map (pt s) l).
Proof.
  intros (_ & _ & H) HL. rewrite map_map. apply map_ext_in. intros p Hp. destruct (HL p Hp) as (Hj & Hi & v & E).
  unfold pt, lifted, col, line. cbn [fst snd]. rewrite H, E by auto. reflexivity.
Qed.

(** ** Fits of two images that differ by a plane *)
Section Fits.
  Variables M O : Type.
  Variable planar : M.
  Variable linear : fitter (T:=xr) M O.
  Variable opts : O.
  Variable evalM : M -> smodel (T:=xr).
  Variable obeys : bool.
  Hypothesis LS : fits_planes linear planar evalM obeys.

  Definition run (s : img xr) (mask : option (img bool)) (l : list (nat * nat)) : result M :=
    call_fit M O planar linear opts (mkfd (map snd l) (map fst l) (map (fun p => px s (fst p) (snd p)) l)
      (option_map (fun k => map (fun p => px k (fst p) (snd p)) l) mask) None).

  Lemma run_best s mask l (P : nat -> nat -> Prop) : (forall p, In p l -> exists v, px s (fst p) (snd p) = Fin v) -> spread_on P ->
    (forall j i, P j i -> In (j, i) l /\ left_in obeys mask (j, i) = true) ->
    exists m f a b c, run s mask l = Ok m /\ evalM m = pointwise f /\ real_function f (plane a b c) /\
      best_plane (map (pt s) (filter (left_in obeys mask) l)) a b c.
  Proof.
    intros HF HS HI. unfold run, call_fit. rewrite (fin_list s l HF). rewrite <- points_are. apply LS.
    - now rewrite !map_length. - unfold zs. now rewrite !map_length.
    - intros k. destruct mask; cbn; [|discriminate]. intros [= <-]. now rewrite !map_length.
    - rewrite points_are. now apply (spread_points obeys s mask l P).
  Qed.

  Lemma run_shift s s' mask mask' l (P : nat -> nat -> Prop) a b c : plus_plane a b c s s' ->
    (forall p, In p l -> (fst p < iny s)%nat /\ (snd p < inx s)%nat /\ exists v, px s (fst p) (snd p) = Fin v) -> spread_on P ->
    (forall j i, P j i -> In (j, i) l /\ left_in obeys mask (j, i) = true) ->
    (forall p, In p l -> left_in obeys mask' p = left_in obeys mask p) ->
    exists m f m' f' p q r, run s mask l = Ok m /\ evalM m = pointwise f /\ real_function f (plane p q r) /\
      run s' mask' l = Ok m' /\ evalM m' = pointwise f' /\ real_function f' (plane (p + a) (q + b) (r + c)).
  Proof.
    intros HP HL HS HI HM.
    destruct (run_best s mask l P) as (m & f & p & q & r & R1 & R2 & R3 & R4); auto. { intros x Hx. now apply HL. }
    assert (HL' : forall p, In p l -> exists v, px s' (fst p) (snd p) = Fin v).
    { intros x Hx. destruct (HL x Hx) as (Hj & Hi & v & E). destruct HP as (_ & _ & HP). rewrite HP, E by auto. eauto. }
    destruct (run_best s' mask' l P) as (m' & f' & p' & q' & r' & R1' & R2' & R3' & R4'); auto.
    { intros j i K. destruct (HI j i K) as [I1 I2]. split; auto. now rewrite HM. }
    exists m, f, m', f', p, q, r. repeat (split; [assumption|]).
    replace (filter (left_in obeys mask') l) with (filter (left_in obeys mask) l) in R4'
      by (apply filter_ext_in; intros; symmetry; now apply HM).
    rewrite (points_lifted a b c s s') in R4'; auto.
    2:{ intros x Hx. apply filter_In in Hx as [Hx _]. now apply HL. }
    pose proof (best_lifted _ _ _ _ a b c R4) as R5.
    assert (SP : spread (map fst (map (lifted a b c) (map (pt s) (filter (left_in obeys mask) l))))).
    { apply lifted_spread. now apply (spread_points obeys s mask l P). }
    destruct (best_unique _ _ _ _ _ _ _ SP R4' R5) as (-> & -> & ->). exact R3'.
  Qed.

  Lemma run_exact s mask l (P : nat -> nat -> Prop) a b c : 
    (forall p, In p l -> px s (fst p) (snd p) = Fin (plane a b c (INR (snd p)) (INR (fst p)))) -> spread_on P ->
    (forall j i, P j i -> In (j, i) l /\ left_in obeys mask (j, i) = true) ->
    exists m f, run s mask l = Ok m /\ evalM m = pointwise f /\ real_function f (plane a b c).
  Proof.
    intros HL HS HI. destruct (run_best s mask l P) as (m & f & p & q & r & R1 & R2 & R3 & R4); auto. { intros x Hx. rewrite HL; eauto. }
    exists m, f. split; auto. split; auto.
    assert (B : best_plane (map (pt s) (filter (left_in obeys mask) l)) a b c).
    { apply best_exact. intros x Hx. apply in_map_iff in Hx as (y & <- & Hy). apply filter_In in Hy as [Hy _]. unfold pt, col, line. cbn [fst snd]. now rewrite HL. }
    destruct (best_unique _ _ _ _ _ _ _ (spread_points obeys s mask l P HS HI) R4 B) as (-> & -> & ->). exact R3.
  Qed.
End Fits.
