(** Turned, mirrored and cropped images. *)
From Coq Require Import Permutation.
From Verif Require Import Base Num Numpy M_Utils M_Photometry S_Photometry S_Center S_Symm L_Numpy L_Photometry L_Center.
Local Open Scope R_scope.

Lemma xadd_comm (x y : xr) : nadd x y = nadd y x.
Proof. destruct x, y; cbn; auto. f_equal. ring. Qed.
Lemma xadd_assoc (x y z : xr) : nadd (nadd x y) z = nadd x (nadd y z).
Proof. destruct x, y, z; cbn; auto. f_equal. ring. Qed.
Lemma fold_shift (l : list xr) (a b : xr) : fold_left nadd l (nadd a b) = nadd a (fold_left nadd l b).
Proof. revert b. induction l as [|x l IH]; intros b; cbn [fold_left]; auto. rewrite xadd_assoc. apply IH. Qed.
Lemma nsum_perm (l l' : list xr) : Permutation l l' -> nsum l = nsum l'.
Proof.
  unfold nsum. generalize (nofZ 0 : xr). intros z P. revert z. induction P; intros z; cbn [fold_left]; auto.
  - rewrite xadd_assoc, (xadd_comm y x), <- xadd_assoc. reflexivity.
  - rewrite IHP1. apply IHP2.
Qed.
Lemma filter_map {A B} (f : A -> B) (p : B -> bool) (l : list A) : filter p (map f l) = map f (filter (fun x => p (f x)) l).
Proof. induction l as [|a l IH]; cbn; auto. destruct (p (f a)); cbn; now rewrite IH. Qed.
Lemma Permutation_filter {A} (p : A -> bool) (l l' : list A) : Permutation l l' -> Permutation (filter p l) (filter p l').
Proof.
  induction 1; cbn; auto.
  - destruct (p x); auto.
  - destruct (p x), (p y); auto. apply perm_swap.
  - etransitivity; eauto.
Qed.
Lemma NoDup_pixels ny nx : NoDup (pixels ny nx).
Proof.
  unfold pixels. assert (G : forall l : list nat, NoDup l -> NoDup (flat_map (fun j => map (fun i => (j, i)) (seq 0 nx)) l)).
  { induction l as [|j l IH]; intros N; cbn; [constructor|]. inversion N; subst.
    assert (D : NoDup (map (fun i => (j, i)) (seq 0 nx))).
    { apply FinFun.Injective_map_NoDup; [|apply seq_NoDup]. intros u v E. now injection E. }
    assert (X : forall p, In p (map (fun i => (j, i)) (seq 0 nx)) -> ~ In p (flat_map (fun j => map (fun i => (j, i)) (seq 0 nx)) l)).
    { intros p Hp Hq. apply in_map_iff in Hp. destruct Hp as (i & <- & _). apply in_flat_map in Hq.
      destruct Hq as (j' & Hj & Hi). apply in_map_iff in Hi. destruct Hi as (i' & E & _). injection E as -> _. auto. }
    clear -D X IH H2. induction (map (fun i => (j, i)) (seq 0 nx)) as [|q m IHm]; cbn; auto.
    inversion D; subst. constructor; [|apply IHm; auto; intros; apply X; now right].
    rewrite in_app_iff. intros [?|?]; auto. apply (X q); auto. now left. }
  apply G, seq_NoDup.
Qed.

(** photometry of two images whose counted pixels correspond *)
Section Same.
  Variables (ov ov' : aperture xr -> nat -> nat -> option (nat -> nat -> xr)).
  Variable move : nat * nat -> nat * nat.
  Definition moved {A} (a a' : img A) (n m : nat) : Prop :=
    forall j i, (j < n)%nat -> (i < m)%nat -> px a' j i = px a (fst (move (j, i))) (snd (move (j, i))).
  Definition omoved {A} (a a' : option (img A)) n m : Prop :=
    match a, a' with None, None => True | Some u, Some v => moved u v n m | _, _ => False end.
  Lemma total_moved w w' (mask mask' : option (img bool)) (f f' : nat -> nat -> xr) ny nx ny' nx' :
    (forall j i, (j < ny')%nat -> (i < nx')%nat -> w' j i = w (fst (move (j, i))) (snd (move (j, i)))) ->
    omoved mask mask' ny' nx' ->
    (forall j i, (j < ny')%nat -> (i < nx')%nat -> f' j i = f (fst (move (j, i))) (snd (move (j, i)))) ->
    Permutation (map move (filter (used w' mask') (pixels ny' nx'))) (filter (used w mask) (pixels ny nx)) ->
    nsum (map (fun p => nmul (f' (fst p) (snd p)) (w' (fst p) (snd p))) (filter (used w' mask') (pixels ny' nx'))) =
    nsum (map (fun p => nmul (f (fst p) (snd p)) (w (fst p) (snd p))) (filter (used w mask) (pixels ny nx))).
  Proof.
    intros Hw Hm Hf P. rewrite <- (nsum_perm _ _ (Permutation_map (fun p => nmul (f (fst p) (snd p)) (w (fst p) (snd p))) P)).
    rewrite map_map. f_equal. apply map_ext_in. intros [j i] Hp. apply filter_In in Hp. destruct Hp as [Hp _].
    apply in_pixels in Hp. destruct Hp. cbn [fst snd]. now rewrite Hw, Hf.
  Qed.

  Variables (k : flavour) (image image' : img xr) (error error' : option (img xr)) (mask mask' : option (img bool))
    (pos pos' : xr * xr) (elong theta theta' : xr).
  Hypothesis Hi : moved image image' (iny image') (inx image').
  Definition fit {A} (m : option (img A)) : bool := match m with None => true | Some e => same_shape e image end.
  Hypothesis He : fit error = true -> omoved error error' (iny image') (inx image').
  Hypothesis Hm : fit mask = true -> omoved mask mask' (iny image') (inx image').
  Hypothesis Se : fit error = match error' with None => true | Some e => same_shape e image' end.
  Hypothesis Sm : fit mask = match mask' with None => true | Some e => same_shape e image' end.
  (** counted pixels correspond, for the mask as photutils gets it *)
  Definition counts a b : Prop := fit mask = true ->
    match ov (mkap (fst pos) (snd pos) a b theta) (iny image) (inx image), ov' (mkap (fst pos') (snd pos') a b theta') (iny image') (inx image') with
    | None, None => True
    | Some w, Some w' =>
        (forall j i, (j < iny image')%nat -> (i < inx image')%nat -> w' j i = w (fst (move (j, i))) (snd (move (j, i)))) /\
        Permutation (map move (filter (used w' (option_map invert mask')) (pixels (iny image') (inx image'))))
          (filter (used w (option_map invert mask)) (pixels (iny image) (inx image)))
    | _, _ => False
    end.

  Lemma shape_invert {B} (m : option (img bool)) (im : img B) :
    match option_map invert m with None => true | Some e => same_shape e im end = match m with None => true | Some e => same_shape e im end.
  Proof. now destruct m. Qed.
  Lemma phot_moved a b : counts a b ->
    do_photometry ov' (mkap (fst pos') (snd pos') a b theta') image' error' (option_map invert mask') =
      do_photometry ov (mkap (fst pos) (snd pos) a b theta) image error (option_map invert mask) /\
    do_photometry ov' (mkap (fst pos') (snd pos') a b theta') (ones_like image') None (option_map invert mask') =
      do_photometry ov (mkap (fst pos) (snd pos) a b theta) (ones_like image) None (option_map invert mask).
  Proof.
    intros C. unfold do_photometry.
    assert (O : forall (u : img xr) m, match option_map invert m with None => true | Some e => same_shape e (ones_like u) end =
      match option_map invert m with None => true | Some e => same_shape e u end) by (intros u [m|]; reflexivity).
    rewrite !O, !shape_invert, <- Se, <- Sm. clear O.
    change (iny (ones_like image)) with (iny image). change (inx (ones_like image)) with (inx image).
    change (iny (ones_like image')) with (iny image'). change (inx (ones_like image')) with (inx image').
    unfold counts in C.
    fold (fit error). fold (fit mask). destruct (fit error) eqn:Fe; destruct (fit mask) eqn:Fm; auto; specialize (C eq_refl); specialize (Hm eq_refl); try specialize (He eq_refl);
    destruct (ov _ _ _) as [w|], (ov' _ _ _) as [w'|]; auto; try contradiction; destruct C as [Hw P].
    all: assert (Hm' : omoved (option_map invert mask) (option_map invert mask') (iny image') (inx image'))
      by (unfold omoved, moved in *; destruct mask, mask'; cbn [option_map] in *; auto; intros jj ii Hj Hx; cbn [invert px]; now rewrite Hm).
    - split.
      + f_equal. f_equal.
        * apply (total_moved w w' _ _ (px image) (px image')); auto.
        * unfold omoved, moved in He. destruct error as [e|], error' as [e'|]; auto; try contradiction. do 2 f_equal.
          apply (total_moved w w' _ _ (fun j i => nmul (px e j i) (px e j i)) (fun j i => nmul (px e' j i) (px e' j i))); auto.
          intros j i Hj Hx. now rewrite He.
      + do 2 f_equal. now apply (total_moved w w' _ _ (px (ones_like image)) (px (ones_like image'))).
    - split; auto. do 2 f_equal. now apply (total_moved w w' _ _ (px (ones_like image)) (px (ones_like image'))).
  Qed.

  Lemma mapM_ext {A B} (f g : A -> result B) l : (forall x, In x l -> f x = g x) -> mapM f l = mapM g l.
  Proof. induction l as [|x l IH]; intros H; cbn; auto. rewrite H by now left. destruct (g x); cbn; auto. rewrite IH; auto. intros; apply H; now right. Qed.
  Lemma radial_moved rs : (forall r b, In r rs -> fdiv k r elong = Ok b -> nleb r n0 = false -> nleb b n0 = false -> counts r b) ->
    radial_photometry ov' k image' pos' rs error' mask' elong theta' = radial_photometry ov k image pos rs error mask elong theta.
  Proof.
    intros H. unfold radial_photometry. rewrite (mapM_ext _ (one_radius ov k image pos error (option_map invert mask) elong theta)); auto.
    intros r Hr. unfold one_radius, radial_elliptical_aperture. specialize (H r).
    destruct (fdiv k r elong) as [b|e]; cbn [bind]; auto. specialize (H b Hr eq_refl). unfold EllipticalAperture.
    destruct (nleb r n0) eqn:E1; cbn [orb bind]; auto. destruct (nleb b n0) eqn:E2; cbn [bind]; auto.
    destruct (phot_moved r b (H eq_refl eq_refl)) as [-> ->]. reflexivity.
  Qed.
End Same.

(** moves that permute all pixels *)
Definition bijective (move : nat * nat -> nat * nat) ny nx ny' nx' : Prop :=
  (forall p q, In p (pixels ny' nx') -> In q (pixels ny' nx') -> move p = move q -> p = q) /\
  forall q, In q (pixels ny nx) <-> exists p, In p (pixels ny' nx') /\ move p = q.
Lemma NoDup_map_on {A B} (f : A -> B) l : (forall p q, In p l -> In q l -> f p = f q -> p = q) -> NoDup l -> NoDup (map f l).
Proof.
  induction l as [|a l IH]; intros H N; cbn; [constructor|]. inversion N; subst. constructor.
  - intros Hi. apply in_map_iff in Hi. destruct Hi as (b & E & Hb). assert (b = a) as -> by (apply H; cbn; auto). auto.
  - apply IH; auto. intros; apply H; cbn; auto.
Qed.
Lemma filter_ext_in' {A} (p q : A -> bool) l : (forall x, In x l -> p x = q x) -> filter p l = filter q l.
Proof. induction l as [|a l IH]; intros H; cbn; auto. rewrite H by now left. rewrite IH; auto. intros; apply H; now right. Qed.
Lemma bij_counts move (w w' : nat -> nat -> xr) mask mask' ny nx ny' nx' : bijective move ny nx ny' nx' ->
  (forall j i, (j < ny')%nat -> (i < nx')%nat -> w' j i = w (fst (move (j, i))) (snd (move (j, i)))) ->
  omoved move mask mask' ny' nx' ->
  Permutation (map move (filter (used w' mask') (pixels ny' nx'))) (filter (used w mask) (pixels ny nx)).
Proof.
  intros [Inj Sur] Hw Hm.
  rewrite (filter_ext_in' (used w' mask') (fun p => used w mask (move p))).
  - rewrite <- filter_map. apply Permutation_filter. apply NoDup_Permutation.
    + apply NoDup_map_on; auto. apply NoDup_pixels.
    + apply NoDup_pixels.
    + intros q. rewrite in_map_iff, Sur. split; intros (p & ? & ?); exists p; auto.
  - intros [j i] Hp. apply in_pixels in Hp. destruct Hp as [Hj Hi]. unfold used. cbn [fst snd]. rewrite (Hw j i Hj Hi).
    f_equal. unfold omoved, moved in Hm. destruct mask, mask'; auto; try contradiction. now rewrite Hm.
Qed.
Lemma omoved_invert move mask mask' n m : omoved move mask mask' n m -> omoved move (option_map invert mask) (option_map invert mask') n m.
Proof. unfold omoved, moved. destruct mask, mask'; cbn; auto. intros H j ii Hj Hi. now rewrite H. Qed.

Definition fit_of {A B} (image : img B) (m : option (img A)) : bool := match m with None => true | Some e => same_shape e image end.
Section Move.
  Variable ov : aperture xr -> nat -> nat -> option (nat -> nat -> xr).
  Variables (k : flavour) (image : img xr) (error : option (img xr)) (mask : option (img bool)) (x y elong theta : xr) (rs : list xr).

  Theorem radial_transposed : transposes ov ->
    radial_photometry ov k (transposed image) (y, x) rs (option_map transposed error) (option_map transposed mask) elong (nsub (Fin (PI / 2)) theta)
    = radial_photometry ov k image (x, y) rs error mask elong theta.
  Proof.
    intros H. set (move := fun p : nat * nat => (snd p, fst p)).
    assert (Om : forall A (m : option (img A)) n1 n2, omoved move m (option_map transposed m) n1 n2)
      by (intros A [m|] n1 n2; cbn; auto; intros j i _ _; reflexivity).
    assert (Sh : forall A (m : option (img A)), match m with None => true | Some e => same_shape e image end =
      match option_map transposed m with None => true | Some e => same_shape e (transposed image) end).
    { intros A [m|]; cbn; auto. unfold same_shape. cbn. apply andb_comm. }
    apply (radial_moved ov ov move); try (intros; apply Om); try apply Sh.
    - intros j i _ _. reflexivity.
    - intros r b _ _ Pr Pb _. cbn [fst snd]. specialize (H x y r b theta (iny image) (inx image) Pr Pb).
      change (iny (transposed image)) with (inx image). change (inx (transposed image)) with (iny image).
      unfold follow in H. destruct (ov _ _ _) as [w|], (ov _ _ _) as [w'|]; auto. split; [exact H|].
      apply bij_counts; auto; [|apply omoved_invert, Om].
      split.
      + intros [a1 a2] [b1 b2] _ _ E. unfold move in E. cbn in E. congruence.
      + intros [j i]. rewrite in_pixels. split.
        * intros []. exists (i, j). rewrite in_pixels. auto.
        * intros ([j' i'] & Hp & E). apply in_pixels in Hp. unfold move in E. cbn in E. injection E as <- <-. tauto.
  Qed.

  Theorem radial_mirrored : mirrors ov ->
    radial_photometry ov k (mirrored image) (nsub (Fin (INR (inx image) - 1)) x, y) rs (option_map mirrored error) (option_map mirrored mask) elong (nopp theta)
    = radial_photometry ov k image (x, y) rs error mask elong theta.
  Proof.
    intros H. set (move := fun p : nat * nat => (fst p, (inx image - 1 - snd p)%nat)).
    assert (Om : forall A (m : option (img A)) n1 n2, fit_of image m = true -> omoved move m (option_map mirrored m) n1 n2).
    { intros A [m|] n1 n2 E; cbn; auto. unfold fit_of, same_shape in E. apply andb_prop in E. destruct E as [_ E]. apply Nat.eqb_eq in E.
      intros j i _ _. cbn. now rewrite E. }
    assert (Sh : forall A (m : option (img A)), match m with None => true | Some e => same_shape e image end =
      match option_map mirrored m with None => true | Some e => same_shape e (mirrored image) end) by (intros A [m|]; reflexivity).
    apply (radial_moved ov ov move); try (intros Ft; apply Om; exact Ft); try apply Sh.
    - intros j i _ _. reflexivity.
    - intros r b _ _ Pr Pb Ft. cbn [fst snd]. specialize (H x y r b theta (iny image) (inx image) Pr Pb).
      change (iny (mirrored image)) with (iny image). change (inx (mirrored image)) with (inx image).
      unfold follow in H. destruct (ov _ _ _) as [w|], (ov _ _ _) as [w'|]; auto. split; [exact H|].
      apply bij_counts; auto; [|apply omoved_invert, Om, Ft].
      split.
      + intros [a1 a2] [b1 b2] Ha Hb E. apply in_pixels in Ha, Hb. unfold move in E. cbn in E. injection E as -> E. f_equal. lia.
      + intros [j i]. rewrite in_pixels. split.
        * intros []. exists (j, (inx image - 1 - i)%nat). rewrite in_pixels. split; [lia|]. unfold move. cbn. f_equal. lia.
        * intros ([j' i'] & Hp & E). apply in_pixels in Hp. unfold move in E. cbn in E. injection E as <- <-. lia.
  Qed.

  Theorem radial_upended : upends ov ->
    radial_photometry ov k (upended image) (x, nsub (Fin (INR (iny image) - 1)) y) rs (option_map upended error) (option_map upended mask) elong (nopp theta)
    = radial_photometry ov k image (x, y) rs error mask elong theta.
  Proof.
    intros H. set (move := fun p : nat * nat => ((iny image - 1 - fst p)%nat, snd p)).
    assert (Om : forall A (m : option (img A)) n1 n2, fit_of image m = true -> omoved move m (option_map upended m) n1 n2).
    { intros A [m|] n1 n2 E; cbn; auto. unfold fit_of, same_shape in E. apply andb_prop in E. destruct E as [E _]. apply Nat.eqb_eq in E.
      intros j i _ _. cbn. now rewrite E. }
    assert (Sh : forall A (m : option (img A)), match m with None => true | Some e => same_shape e image end =
      match option_map upended m with None => true | Some e => same_shape e (upended image) end) by (intros A [m|]; reflexivity).
    apply (radial_moved ov ov move); try (intros Ft; apply Om; exact Ft); try apply Sh.
    - intros j i _ _. reflexivity.
    - intros r b _ _ Pr Pb Ft. cbn [fst snd]. specialize (H x y r b theta (iny image) (inx image) Pr Pb).
      change (iny (upended image)) with (iny image). change (inx (upended image)) with (inx image).
      unfold follow in H. destruct (ov _ _ _) as [w|], (ov _ _ _) as [w'|]; auto. split; [exact H|].
      apply bij_counts; auto; [|apply omoved_invert, Om, Ft].
      split.
      + intros [a1 a2] [b1 b2] Ha Hb E. apply in_pixels in Ha, Hb. unfold move in E. cbn in E. injection E as E ->. f_equal. lia.
      + intros [j i]. rewrite in_pixels. split.
        * intros []. exists ((iny image - 1 - j)%nat, i). rewrite in_pixels. split; [lia|]. unfold move. cbn. f_equal. lia.
        * intros ([j' i'] & Hp & E). apply in_pixels in Hp. unfold move in E. cbn in E. injection E as <- <-. lia.
  Qed.
End Move.

(** ** the 'center' method has these symmetries *)
Lemma in_ellipse_swap a b t dx dy : in_ellipse a b (PI / 2 - t) dy dx = in_ellipse a b t dx dy.
Proof.
  unfold in_ellipse. replace (cos (PI / 2 - t)) with (sin t) by (symmetry; apply cos_shift).
  replace (sin (PI / 2 - t)) with (cos t) by (symmetry; apply sin_shift). f_equal. unfold Rdiv. ring.
Qed.
Lemma in_ellipse_flip a b t dx dy : in_ellipse a b (- t) (- dx) dy = in_ellipse a b t dx dy.
Proof. unfold in_ellipse. rewrite cos_neg, sin_neg. f_equal. unfold Rdiv. ring. Qed.
Lemma in_ellipse_neg a b t dx dy : in_ellipse a b t (- dx) (- dy) = in_ellipse a b t dx dy.
Proof. unfold in_ellipse. f_equal. unfold Rdiv. ring. Qed.
Lemma extent_swap a b t : extent_x a b (PI / 2 - t) = extent_y a b t /\ extent_y a b (PI / 2 - t) = extent_x a b t.
Proof. unfold extent_x, extent_y. now rewrite cos_shift, sin_shift. Qed.
Lemma extent_neg a b t : extent_x a b (- t) = extent_x a b t /\ extent_y a b (- t) = extent_y a b t.
Proof. unfold extent_x, extent_y. rewrite cos_neg, sin_neg. split; f_equal; ring. Qed.

Lemma int_part_shift x n : Int_part (IZR n + x) = (n + Int_part x)%Z.
Proof.
  destruct (base_Int_part x) as [H1 H2]. destruct (base_Int_part (IZR n + x)) as [H3 H4].
  assert (IZR (Int_part (IZR n + x)) < IZR (n + Int_part x + 1)) as E1 by (rewrite !plus_IZR; lra).
  assert (IZR (n + Int_part x) < IZR (Int_part (IZR n + x) + 1)) as E2 by (rewrite !plus_IZR; lra).
  apply lt_IZR in E1, E2. lia.
Qed.
Lemma box_flip (n : nat) x e :
  Z.leb (Rceil (INR n - 1 - x + e + 1/2)) 0 = Z.leb (Z.of_nat n) (Rfloor (x - e + 1/2)) /\
  Z.leb (Z.of_nat n) (Rfloor (INR n - 1 - x - e + 1/2)) = Z.leb (Rceil (x + e + 1/2)) 0.
Proof.
  unfold Rceil, Rfloor. rewrite INR_IZR_INZ.
  replace (- (IZR (Z.of_nat n) - 1 - x + e + 1 / 2)) with (IZR (- Z.of_nat n) + (x - e + 1 / 2)) by (rewrite opp_IZR; field).
  replace (IZR (Z.of_nat n) - 1 - x - e + 1 / 2) with (IZR (Z.of_nat n) + - (x + e + 1 / 2)) by field.
  rewrite !int_part_shift. split; apply Bool.eq_iff_eq_true; rewrite !Z.leb_le; lia.
Qed.

Theorem center_transposes : transposes center_overlap.
Proof.
  intros x y a b t ny nx _ _. unfold follow, center_overlap.
  destruct x as [| | |x], y as [| | |y], a as [| | |a], b as [| | |b], t as [| | |t]; cbn [nsub XRnum xsub xadd xopp]; auto.
  change (PI / 2 + - t) with (PI / 2 - t). destruct (extent_swap a b t) as [-> ->].
  match goal with |- match (if ?u then _ else _) with _ => _ end => destruct u eqn:E end;
  match goal with |- match (if ?u then _ else _) with _ => _ end => destruct u eqn:E' end; auto.
  - exfalso. revert E E'. repeat (destruct (_ <=? _)%Z; cbn; try discriminate).
  - exfalso. revert E E'. repeat (destruct (_ <=? _)%Z; cbn; try discriminate).
  - intros j i _ _. cbn [fst snd]. now rewrite in_ellipse_swap.
Qed.
Theorem center_mirrors : mirrors center_overlap.
Proof.
  intros x y a b t ny nx _ _. unfold follow, center_overlap.
  destruct x as [| | |x], y as [| | |y], a as [| | |a], b as [| | |b], t as [| | |t]; cbn [nopp nsub XRnum xsub xadd xopp n0 nofZ]; auto.
  replace (0 + - t) with (- t) by ring. destruct (extent_neg a b t) as [-> ->].
  change (INR nx - 1 + - x) with (INR nx - 1 - x). destruct (box_flip nx x (extent_x a b t)) as [-> ->].
  match goal with |- match (if ?u then _ else _) with _ => _ end => destruct u eqn:E end;
  match goal with |- match (if ?u then _ else _) with _ => _ end => destruct u eqn:E' end; auto.
  - exfalso. revert E E'. repeat (destruct (_ <=? _)%Z; cbn; try discriminate).
  - exfalso. revert E E'. repeat (destruct (_ <=? _)%Z; cbn; try discriminate).
  - intros j i _ Hi. cbn [fst snd]. rewrite <- (in_ellipse_flip a b t). rewrite !minus_INR by lia.
    replace (- (INR nx - INR 1 - INR i - x)) with (INR i - (INR nx - 1 - x)) by (cbn; ring). reflexivity.
Qed.
Theorem center_upends : upends center_overlap.
Proof.
  intros x y a b t ny nx _ _. unfold follow, center_overlap.
  destruct x as [| | |x], y as [| | |y], a as [| | |a], b as [| | |b], t as [| | |t]; cbn [nopp nsub XRnum xsub xadd xopp n0 nofZ]; auto.
  replace (0 + - t) with (- t) by ring. destruct (extent_neg a b t) as [-> ->].
  change (INR ny - 1 + - y) with (INR ny - 1 - y). destruct (box_flip ny y (extent_y a b t)) as [-> ->].
  match goal with |- match (if ?u then _ else _) with _ => _ end => destruct u eqn:E end;
  match goal with |- match (if ?u then _ else _) with _ => _ end => destruct u eqn:E' end; auto.
  - exfalso. revert E E'. repeat (destruct (_ <=? _)%Z; cbn; try discriminate).
  - exfalso. revert E E'. repeat (destruct (_ <=? _)%Z; cbn; try discriminate).
  - intros j i Hj _. cbn [fst snd].
    rewrite <- (in_ellipse_flip a b t (INR i - x)), <- (in_ellipse_neg a b (- t) (- (INR i - x))). rewrite !minus_INR by lia.
    replace (- - (INR i - x)) with (INR i - x) by ring.
    replace (- (INR ny - INR 1 - INR j - y)) with (INR j - (INR ny - 1 - y)) by (cbn; ring). reflexivity.
Qed.

(** ** orientation *)
Lemma radial_same (ov : aperture xr -> nat -> nat -> option (nat -> nat -> xr)) k image pos rs error mask elong th th' :
  (forall x y r b ny nx, In r rs -> fdiv k r elong = Ok b -> nleb r n0 = false -> nleb b n0 = false ->
     ov (mkap x y r b th) ny nx = ov (mkap x y r b th') ny nx) ->
  radial_photometry ov k image pos rs error mask elong th = radial_photometry ov k image pos rs error mask elong th'.
Proof.
  intros H. unfold radial_photometry. erewrite mapM_ext; [reflexivity|]. intros r Ir. cbn beta. unfold one_radius, radial_elliptical_aperture, EllipticalAperture.
  destruct (fdiv k r elong) as [b|] eqn:Eb; cbn [bind]; auto. destruct (nleb r n0) eqn:E1; cbn [orb bind]; auto. destruct (nleb b n0) eqn:E2; cbn [bind]; auto.
  unfold do_photometry. now rewrite !(H _ _ r b) by auto.
Qed.
Lemma fdiv_one k (r : xr) : fdiv k r (Fin 1) = Ok r.
Proof.
  unfold fdiv. assert (D : ndiv r (Fin 1) = r).
  { destruct r; cbn; try (rewrite ?Rltb_false by lra; reflexivity). unfold Reqb. destruct (Req_EM_T 1 0); [lra|]. f_equal. field. }
  rewrite D. destruct k; auto. cbn. unfold Reqb. destruct (Req_EM_T 1 0); [lra|reflexivity].
Qed.
Theorem radial_half_turn k image pos rs error mask elong t :
  radial_photometry center_overlap k image pos rs error mask elong (Fin (t + PI)) =
  radial_photometry center_overlap k image pos rs error mask elong (Fin t).
Proof.
  assert (H : forall x y a b ny nx, center_overlap (mkap x y a b (Fin (t + PI))) ny nx = center_overlap (mkap x y a b (Fin t)) ny nx).
  { intros. unfold center_overlap. destruct x, y, a, b; auto.
    assert (E1 : extent_x r1 r2 (t + PI) = extent_x r1 r2 t) by (unfold extent_x; rewrite neg_cos, neg_sin; f_equal; ring).
    assert (E2 : extent_y r1 r2 (t + PI) = extent_y r1 r2 t) by (unfold extent_y; rewrite neg_cos, neg_sin; f_equal; ring).
    assert (E3 : forall dx dy, in_ellipse r1 r2 (t + PI) dx dy = in_ellipse r1 r2 t dx dy)
      by (intros; unfold in_ellipse; rewrite neg_cos, neg_sin; f_equal; unfold Rdiv; ring).
    rewrite E1, E2. match goal with |- (if ?u then _ else _) = _ => destruct u end; auto. f_equal.
    do 2 (apply FunctionalExtensionality.functional_extensionality; intro). now rewrite E3. }
  unfold radial_photometry. erewrite mapM_ext; [reflexivity|]. intros r _. cbn beta. unfold one_radius, radial_elliptical_aperture, EllipticalAperture.
  destruct (fdiv k r elong) as [b|]; cbn [bind]; auto. destruct (nleb r n0 || nleb b n0)%bool; cbn [bind]; auto.
  unfold do_photometry. now rewrite !H.
Qed.

Theorem radial_circle k image pos rs error mask t t' :
  radial_photometry center_overlap k image pos rs error mask (Fin 1) (Fin t) =
  radial_photometry center_overlap k image pos rs error mask (Fin 1) (Fin t').
Proof.
  unfold radial_photometry. erewrite mapM_ext; [reflexivity|]. intros r _. cbn beta. unfold one_radius, radial_elliptical_aperture, EllipticalAperture.
  assert (E : fdiv k r (Fin 1) = Ok r).
  { unfold fdiv. assert (D : ndiv r (Fin 1) = r).
    { destruct r; cbn; try (rewrite ?Rltb_false by lra; reflexivity). unfold Reqb. destruct (Req_EM_T 1 0); [lra|]. f_equal. field. }
    rewrite D. destruct k; auto. cbn. unfold Reqb. destruct (Req_EM_T 1 0); [lra|reflexivity]. }
  rewrite E. cbn [bind]. destruct (nleb r n0 || nleb r n0)%bool; cbn [bind]; auto.
  assert (H : forall x y ny nx, center_overlap (mkap x y r r (Fin t)) ny nx = center_overlap (mkap x y r r (Fin t')) ny nx).
  { intros. unfold center_overlap. destruct x, y, r; auto. pose proof (sc1 t) as S. pose proof (sc1 t') as S'.
    assert (X : forall s, sin s * sin s + cos s * cos s = 1 -> extent_x r r s = sqrt (r * r) /\ extent_y r r s = sqrt (r * r)).
    { intros s Hs. unfold extent_x, extent_y. split; f_equal.
      - replace (r * cos s * (r * cos s) + r * sin s * (r * sin s)) with (r * r * (sin s * sin s + cos s * cos s)) by ring. rewrite Hs. ring.
      - replace (r * sin s * (r * sin s) + r * cos s * (r * cos s)) with (r * r * (sin s * sin s + cos s * cos s)) by ring. rewrite Hs. ring. }
    destruct (X t S) as [-> ->], (X t' S') as [-> ->].
    assert (E3 : forall s dx dy, sin s * sin s + cos s * cos s = 1 -> in_ellipse r r s dx dy = Rltb ((dx * dx + dy * dy) * (/ r * / r)) 1).
    { intros s dx dy Hs. unfold in_ellipse. f_equal. unfold Rdiv.
      replace ((dx * cos s + dy * sin s) * / r * ((dx * cos s + dy * sin s) * / r) + (- dx * sin s + dy * cos s) * / r * ((- dx * sin s + dy * cos s) * / r))
        with ((dx * dx + dy * dy) * (sin s * sin s + cos s * cos s) * (/ r * / r)) by ring. rewrite Hs. ring. }
    match goal with |- (if ?u then _ else _) = _ => destruct u end; auto. f_equal.
    do 2 (apply FunctionalExtensionality.functional_extensionality; intro). now rewrite !E3 by auto. }
  unfold do_photometry. now rewrite !H.
Qed.

(** ** cropping *)
Lemma window_general (ov : aperture xr -> nat -> nat -> option (nat -> nat -> xr)) y0 x0 ny nx k image x y rs error mask elong t :
  (y0 + ny <= iny image)%nat -> (x0 + nx <= inx image)%nat -> fits error image -> fits mask image ->
  0 < elong -> (forall r, In r rs -> 0 < r) ->
  (forall r, In r rs -> exists w w', ov (mkap (Fin x) (Fin y) (Fin r) (Fin (r / elong)) (Fin t)) (iny image) (inx image) = Some w /\
     ov (mkap (Fin (x - INR x0)) (Fin (y - INR y0)) (Fin r) (Fin (r / elong)) (Fin t)) ny nx = Some w' /\
     (forall j i, w' j i = w (y0 + j)%nat (x0 + i)%nat) /\
     forall j i, (j < iny image)%nat -> (i < inx image)%nat -> nltb n0 (w j i) = true -> selects mask j i = true ->
       (y0 <= j < y0 + ny)%nat /\ (x0 <= i < x0 + nx)%nat) ->
  radial_photometry ov k (window y0 x0 ny nx image) (Fin (x - INR x0), Fin (y - INR y0)) (map Fin rs)
    (option_map (window y0 x0 ny nx) error) (option_map (window y0 x0 ny nx) mask) (Fin elong) (Fin t) =
  radial_photometry ov k image (Fin x, Fin y) (map Fin rs) error mask (Fin elong) (Fin t).
Proof.
  intros Ly Lx Fe Fm He Hr Hin. set (move := fun p : nat * nat => ((y0 + fst p)%nat, (x0 + snd p)%nat)).
  assert (Om : forall A (m : option (img A)) n1 n2, omoved move m (option_map (window y0 x0 ny nx) m) n1 n2)
    by (intros A [m|] n1 n2; cbn; auto; intros j i _ _; reflexivity).
  assert (Sh : forall A (m : option (img A)), fits m image -> match m with None => true | Some e => same_shape e image end =
    match option_map (window y0 x0 ny nx) m with None => true | Some e => same_shape e (window y0 x0 ny nx image) end).
  { intros A [m|] F; cbn; auto. destruct F as [F1 F2]. unfold same_shape. cbn. now rewrite F1, F2, !Nat.eqb_refl. }
  apply (radial_moved ov ov move); try (intros; apply Om); try (apply Sh; assumption).
  - intros j i _ _. reflexivity.
  - intros r b Ir Ed Er Eb _. apply in_map_iff in Ir. destruct Ir as (q & <- & Iq). specialize (Hr q Iq).
    assert (b = Fin (q / elong)) as ->.
    { unfold fdiv in Ed. cbn [ndiv neqb XRnum] in Ed. rewrite xdiv_fin in Ed by lra. destruct k; try congruence.
      destruct (xeqb (Fin elong) n0); congruence. }
    cbn [fst snd]. change (iny (window y0 x0 ny nx image)) with ny. change (inx (window y0 x0 ny nx image)) with nx.
    destruct (Hin q Iq) as (w & w' & E & E' & W & In1). rewrite E, E'. split.
    { intros j i _ _. cbn [move fst snd]. now rewrite W. }
    rewrite (filter_ext_in' _ (fun p => used w (option_map invert mask) (move p))).
    2:{ intros [j i] _. unfold used, move. cbn [fst snd]. rewrite W. f_equal. destruct mask; reflexivity. }
    rewrite <- filter_map. apply NoDup_Permutation.
    + apply NoDup_filter, NoDup_map_on; [|apply NoDup_pixels]. intros [a1 a2] [b1 b2] _ _ E0. unfold move in E0. cbn in E0. injection E0 as E1 E2. f_equal; lia.
    + apply NoDup_filter, NoDup_pixels.
    + intros [j i]. rewrite !filter_In, in_map_iff, in_pixels. split.
      * intros (([j' i'] & E0 & Hp) & U). apply in_pixels in Hp. unfold move in E0. cbn in E0. injection E0 as <- <-. split; auto. lia.
      * intros ([Hj Hi] & U). split; auto.
        assert (V : (y0 <= j < y0 + ny)%nat /\ (x0 <= i < x0 + nx)%nat).
        { unfold used in U. cbn [fst snd] in U. apply andb_prop in U. destruct U as [U1 U2]. apply In1; auto.
          unfold selects. destruct mask; auto. cbn [option_map invert px] in U2. now rewrite Bool.negb_involutive in U2. }
        exists ((j - y0)%nat, (i - x0)%nat). rewrite in_pixels. split; [unfold move; cbn; f_equal; lia|lia].
Qed.

Lemma box_hit u e n : 0 < e -> - (1 / 2) <= u <= INR n - 1 / 2 ->
  Z.leb (Z.of_nat n) (Rfloor (u - e + 1/2)) = false /\ Z.leb (Rceil (u + e + 1/2)) 0 = false.
Proof.
  intros He0 Hu. unfold Rfloor, Rceil. split; apply Z.leb_gt; apply lt_IZR.
  - destruct (base_Int_part (u - e + 1/2)). rewrite <- INR_IZR_INZ. lra.
  - destruct (base_Int_part (- (u + e + 1/2))). rewrite opp_IZR. lra.
Qed.

Theorem radial_window y0 x0 ny nx k image x y rs error mask elong t :
  (y0 + ny <= iny image)%nat -> (x0 + nx <= inx image)%nat -> fits error image -> fits mask image ->
  0 < elong -> (forall r, In r rs -> 0 < r) ->
  INR x0 <= x <= INR x0 + INR nx - 1 -> INR y0 <= y <= INR y0 + INR ny - 1 ->
  (forall r j i, In r rs -> (j < iny image)%nat -> (i < inx image)%nat -> inside_ellipse x y r (r / elong) t (INR i) (INR j) ->
     selects mask j i = true -> (y0 <= j < y0 + ny)%nat /\ (x0 <= i < x0 + nx)%nat) ->
  radial_photometry center_overlap k (window y0 x0 ny nx image) (Fin (x - INR x0), Fin (y - INR y0)) (map Fin rs)
    (option_map (window y0 x0 ny nx) error) (option_map (window y0 x0 ny nx) mask) (Fin elong) (Fin t) =
  radial_photometry center_overlap k image (Fin x, Fin y) (map Fin rs) error mask (Fin elong) (Fin t).
Proof.
  intros Ly Lx Fe Fm He Hr Cx Cy Hin. apply window_general; auto. intros q Iq. specialize (Hr q Iq).
  assert (Hb : 0 < q / elong) by now apply Rdiv_lt_0_compat.
  assert (Hex : 0 < extent_x q (q / elong) t) by (apply sqrt_lt_R0, extent_pos; auto).
  assert (Hey : 0 < extent_y q (q / elong) t) by (apply sqrt_lt_R0, extent_pos'; auto).
  apply le_INR in Lx, Ly. rewrite plus_INR in Lx, Ly. pose proof (pos_INR x0). pose proof (pos_INR y0).
  unfold center_overlap. cbn zeta.
  destruct (box_hit x _ (inx image) Hex ltac:(lra)) as [-> ->]. destruct (box_hit y _ (iny image) Hey ltac:(lra)) as [-> ->].
  destruct (box_hit (x - INR x0) _ nx Hex ltac:(lra)) as [-> ->]. destruct (box_hit (y - INR y0) _ ny Hey ltac:(lra)) as [-> ->].
  cbn [orb]. do 2 eexists. split; [reflexivity|]. split; [reflexivity|]. split.
  - intros j i. rewrite !plus_INR.
    replace (INR i - (x - INR x0)) with (INR x0 + INR i - x) by ring. replace (INR j - (y - INR y0)) with (INR y0 + INR j - y) by ring. reflexivity.
  - intros j i Hj Hi U Sm. apply (Hin q); auto. destruct (in_ellipse q (q / elong) t (INR i - x) (INR j - y)) eqn:E.
    + now apply (in_ellipse_iff x y).
    + cbn in U. rewrite Rltb_false in U by lra. discriminate.
Qed.
