(** Symmetries of the overlap method 'exact'; the method 'subpixel'; choice of the method. *)
From Coq Require Import String Permutation.
From Coquelicot Require Import Coquelicot.
From Verif Require Import Base Num Numpy M_Utils M_Photometry S_Photometry S_Center S_Symm M_Ellipse M_Exact S_Exact
  L_Numpy L_Photometry L_Center L_Symm L_Ellipse L_Fubini L_Exact.
Local Open Scope R_scope.
Local Open Scope list_scope.

(** ** bounding boxes *)
Lemma box_swap x y a b t ny nx : box_misses y x a b (PI / 2 - t) nx ny = box_misses x y a b t ny nx.
Proof.
  unfold box_misses. destruct (extent_swap a b t) as [-> ->].
  repeat match goal with |- context [Z.leb ?u ?v] => destruct (Z.leb u v); cbn; auto end.
Qed.
Lemma box_mirror x y a b t ny nx : box_misses (INR nx - 1 - x) y a b (- t) ny nx = box_misses x y a b t ny nx.
Proof.
  unfold box_misses. destruct (extent_neg a b t) as [-> ->]. destruct (box_flip nx x (extent_x a b t)) as [-> ->].
  repeat match goal with |- context [Z.leb ?u ?v] => destruct (Z.leb u v); cbn; auto end.
Qed.
Lemma box_upend x y a b t ny nx : box_misses x (INR ny - 1 - y) a b (- t) ny nx = box_misses x y a b t ny nx.
Proof.
  unfold box_misses. destruct (extent_neg a b t) as [-> ->]. destruct (box_flip ny y (extent_y a b t)) as [-> ->].
  repeat match goal with |- context [Z.leb ?u ?v] => destruct (Z.leb u v); cbn; auto end.
Qed.
Lemma pos_of a : nleb (T:=xr) (Fin a) n0 = false -> 0 < a.
Proof. cbn. intros H. destruct (Rleb_spec a 0); [discriminate|lra]. Qed.

(** ** areas *)
Lemma shifted (f : R -> R) c p q : ex_RInt f (p - c) (q - c) -> RInt (fun u => f (u - c)) p q = RInt f (p - c) (q - c).
Proof.
  intros H. rewrite <- (RInt_ext (fun u => scal 1 (f (1 * u + - c)))).
  - replace (p - c) with (1 * p + - c) by ring. replace (q - c) with (1 * q + - c) by ring. apply (RInt_comp_lin (V:=R_CompleteNormedModule) f 1 (- c) p q).
    replace (1 * p + - c) with (p - c) by ring. replace (1 * q + - c) with (q - c) by ring. auto.
  - intros u _. unfold scal; cbn; unfold mult; cbn. rewrite Rmult_1_l. f_equal. ring.
Qed.
Lemma area_swap x y a b t j i : 0 < a -> 0 < b -> pixel_area y x a b (PI / 2 - t) j i = pixel_area x y a b t i j.
Proof.
  intros Ha Hb. unfold pixel_area.
  rewrite (shifted (fun v => chord_part a b (PI / 2 - t) v (INR j - 1 / 2 - x) (INR j + 1 / 2 - x))) by (apply int_part0; auto).
  rewrite (shifted (fun u => chord_part a b t u (INR i - 1 / 2 - y) (INR i + 1 / 2 - y))) by (apply int_part0; auto).
  symmetry. apply swap_area; auto; lra.
Qed.
Lemma part_flip a b t dx lo hi : chord_part a b (- t) (- dx) lo hi = chord_part a b t dx lo hi.
Proof.
  assert (W : width2 a b (- t) = width2 a b t) by (unfold width2; rewrite cos_neg, sin_neg; ring).
  assert (M : chord_mid a b (- t) (- dx) = chord_mid a b t dx) by (unfold chord_mid; rewrite W, cos_neg, sin_neg; unfold Rdiv; ring).
  assert (H : chord_half a b (- t) (- dx) = chord_half a b t dx) by (unfold chord_half; rewrite W; do 3 f_equal; ring).
  unfold chord_part. now rewrite M, H.
Qed.
Lemma area_mirror (nx : nat) x y a b t j i : 0 < a -> 0 < b -> (i < nx)%nat ->
  pixel_area (INR nx - 1 - x) y a b (- t) j i = pixel_area x y a b t j (nx - 1 - i).
Proof.
  intros Ha Hb Hi. unfold pixel_area. rewrite !minus_INR by lia. change (INR 1) with 1.
  set (f := fun u => chord_part a b t (u - x) (INR j - 1 / 2 - y) (INR j + 1 / 2 - y)).
  assert (EX : forall p q, ex_RInt f p q) by (intros; apply int_part; auto).
  rewrite (RInt_ext _ (fun u => opp (scal (-1) (f (-1 * u + (INR nx - 1)))))).
  - rewrite (RInt_opp (V:=R_CompleteNormedModule)).
    + rewrite (RInt_comp_lin (V:=R_CompleteNormedModule) f (-1) (INR nx - 1)) by apply EX.
      replace (-1 * (INR i - 1 / 2) + (INR nx - 1)) with (INR nx - 1 - INR i + 1 / 2) by ring.
      replace (-1 * (INR i + 1 / 2) + (INR nx - 1)) with (INR nx - 1 - INR i - 1 / 2) by ring.
      rewrite (opp_RInt_swap (V:=R_CompleteNormedModule)) by apply EX. reflexivity.
    + apply (ex_RInt_comp_lin (V:=R_NormedModule) f (-1) (INR nx - 1)). apply EX.
  - intros u _. unfold opp, scal; cbn; unfold mult; cbn. unfold f. rewrite <- (part_flip a b t).
    match goal with |- ?l = - (-1 * ?r) => replace (- (-1 * r)) with r by ring end. do 2 f_equal; ring.
Qed.
Lemma part_upend a b t dx lo hi : chord_part a b (- t) dx (- hi) (- lo) = chord_part a b t dx lo hi.
Proof.
  assert (W : width2 a b (- t) = width2 a b t) by (unfold width2; rewrite cos_neg, sin_neg; ring).
  assert (M : chord_mid a b (- t) dx = - chord_mid a b t dx) by (unfold chord_mid; rewrite W, cos_neg, sin_neg; unfold Rdiv; ring).
  assert (H : chord_half a b (- t) dx = chord_half a b t dx) by (unfold chord_half; now rewrite W).
  unfold chord_part. rewrite M, H. set (m := chord_mid a b t dx). set (h := chord_half a b t dx).
  replace (- m + h) with (- (m - h)) by ring. replace (- m - h) with (- (m + h)) by ring.
  rewrite <- Ropp_Rmax, <- Ropp_Rmin. f_equal. ring.
Qed.
Lemma area_upend (ny : nat) x y a b t j i : (j < ny)%nat ->
  pixel_area x (INR ny - 1 - y) a b (- t) j i = pixel_area x y a b t (ny - 1 - j) i.
Proof.
  intros Hj. unfold pixel_area. apply RInt_ext. intros u _. rewrite !minus_INR by lia. change (INR 1) with 1.
  rewrite <- (part_upend a b t). f_equal; ring.
Qed.

Theorem exact_transposes : transposes exact_overlap.
Proof.
  intros x y a b t ny nx Pa Pb. unfold follow.
  destruct x as [| | |x], y as [| | |y], a as [| | |a], b as [| | |b], t as [| | |t]; cbn [exact_overlap nsub XRnum xsub xadd xopp]; auto.
  apply pos_of in Pa, Pb. change (PI / 2 + - t) with (PI / 2 - t). rewrite box_swap. destruct (box_misses x y a b t ny nx); auto.
  intros j i _ _. cbn [fst snd]. now rewrite area_swap.
Qed.
Theorem exact_mirrors : mirrors exact_overlap.
Proof.
  intros x y a b t ny nx Pa Pb. unfold follow.
  destruct x as [| | |x], y as [| | |y], a as [| | |a], b as [| | |b], t as [| | |t]; cbn [exact_overlap nopp nsub XRnum xsub xadd xopp n0 nofZ]; auto.
  apply pos_of in Pa, Pb. replace (0 + - t) with (- t) by ring. change (INR nx - 1 + - x) with (INR nx - 1 - x).
  rewrite box_mirror. destruct (box_misses x y a b t ny nx); auto. intros j i _ Hi. cbn [fst snd]. now rewrite area_mirror.
Qed.
Theorem exact_upends : upends exact_overlap.
Proof.
  intros x y a b t ny nx Pa Pb. unfold follow.
  destruct x as [| | |x], y as [| | |y], a as [| | |a], b as [| | |b], t as [| | |t]; cbn [exact_overlap nopp nsub XRnum xsub xadd xopp n0 nofZ]; auto.
  apply pos_of in Pa, Pb. replace (0 + - t) with (- t) by ring. change (INR ny - 1 + - y) with (INR ny - 1 - y).
  rewrite box_upend. destruct (box_misses x y a b t ny nx); auto. intros j i Hj _. cbn [fst snd]. now rewrite area_upend.
Qed.

Theorem exact_half_turn k image pos rs error mask elong t :
  radial_photometry exact_overlap k image pos rs error mask elong (Fin (t + PI)) =
  radial_photometry exact_overlap k image pos rs error mask elong (Fin t).
Proof.
  apply radial_same. intros x y r b ny nx _ _ _ _. destruct x as [| | |x], y as [| | |y], r as [| | |r], b as [| | |b]; cbn [exact_overlap]; auto.
  assert (E1 : extent_x r b (t + PI) = extent_x r b t) by (unfold extent_x; rewrite neg_cos, neg_sin; f_equal; ring).
  assert (E2 : extent_y r b (t + PI) = extent_y r b t) by (unfold extent_y; rewrite neg_cos, neg_sin; f_equal; ring).
  unfold box_misses. rewrite E1, E2. match goal with |- (if ?u then _ else _) = _ => destruct u end; auto. f_equal.
  apply FunctionalExtensionality.functional_extensionality; intro j. apply FunctionalExtensionality.functional_extensionality; intro i. f_equal.
  unfold pixel_area. apply RInt_ext. intros u _.
  assert (W : width2 r b (t + PI) = width2 r b t) by (unfold width2; rewrite neg_cos, neg_sin; ring).
  unfold chord_part, chord_mid, chord_half. rewrite W, neg_cos, neg_sin.
  replace (- sin t * - cos t) with (sin t * cos t) by ring. reflexivity.
Qed.
Theorem exact_circle k image pos rs error mask t t' :
  radial_photometry exact_overlap k image pos rs error mask (Fin 1) (Fin t) =
  radial_photometry exact_overlap k image pos rs error mask (Fin 1) (Fin t').
Proof.
  apply radial_same. intros x y r b ny nx _ Eb _ _. rewrite fdiv_one in Eb. injection Eb as <-.
  destruct x as [| | |x], y as [| | |y], r as [| | |r]; cbn [exact_overlap]; auto.
  assert (W : forall s, width2 r r s = r * r).
  { intros s. pose proof (sc2 s) as S. unfold width2. transitivity (r * r * (sin s * sin s + cos s * cos s)); [ring|]. rewrite S. ring. }
  assert (E1 : forall s, extent_x r r s = sqrt (r * r)) by (intros s; change (extent_x r r s) with (sqrt (width2 r r s)); now rewrite W).
  assert (E2 : forall s, extent_y r r s = sqrt (r * r)).
  { intros s. unfold extent_y. f_equal. rewrite <- (W s). pose proof (sc2 s) as S. unfold width2. transitivity (r * r * (sin s * sin s + cos s * cos s)); [ring|]. ring. }
  unfold box_misses. rewrite !E1, !E2. match goal with |- (if ?u then _ else _) = _ => destruct u end; auto. f_equal.
  apply FunctionalExtensionality.functional_extensionality; intro j. apply FunctionalExtensionality.functional_extensionality; intro i. f_equal.
  unfold pixel_area. apply RInt_ext. intros u _. unfold chord_part, chord_mid, chord_half. rewrite !W.
  replace ((r * r - r * r) * (sin t * cos t)) with ((r * r - r * r) * (sin t' * cos t')) by ring. reflexivity.
Qed.

(** ** cropping *)
Lemma area_shift x y a b t x0 y0 j i : 0 < a -> 0 < b -> pixel_area (x - INR x0) (y - INR y0) a b t j i = pixel_area x y a b t (y0 + j) (x0 + i).
Proof.
  intros Ha Hb. unfold pixel_area. rewrite !plus_INR.
  rewrite (shifted (fun v => chord_part a b t v (INR j - 1 / 2 - (y - INR y0)) (INR j + 1 / 2 - (y - INR y0)))) by (apply int_part0; auto).
  rewrite (shifted (fun v => chord_part a b t v (INR y0 + INR j - 1 / 2 - y) (INR y0 + INR j + 1 / 2 - y))) by (apply int_part0; auto).
  replace (INR j - 1 / 2 - (y - INR y0)) with (INR y0 + INR j - 1 / 2 - y) by ring.
  replace (INR j + 1 / 2 - (y - INR y0)) with (INR y0 + INR j + 1 / 2 - y) by ring.
  f_equal; ring.
Qed.
Lemma area_none x y a b t j i : 0 < a -> 0 < b ->
  (forall u v, INR i - 1 / 2 < u < INR i + 1 / 2 -> INR j - 1 / 2 < v < INR j + 1 / 2 -> ~ inside_ellipse x y a b t u v) -> pixel_area x y a b t j i = 0.
Proof.
  intros Ha Hb N. unfold pixel_area. rewrite (RInt_ext _ (fun _ => 0)).
  - rewrite RInt_const. unfold scal; cbn; unfold mult; cbn. ring.
  - rewrite Rmin_left, Rmax_right by lra. intros u Hu.
    destruct (part_spec a b t Ha Hb (u - x) (INR j - 1 / 2 - y) (INR j + 1 / 2 - y) ltac:(lra)) as (p & q & L & -> & S).
    destruct (Rle_lt_dec q p); [lra|]. exfalso. destruct (proj1 (S ((p + q) / 2)) ltac:(lra)) as [S1 S2].
    apply (N u (y + (p + q) / 2)); auto; [lra|]. apply inside_chord; auto. replace (y + (p + q) / 2 - y) with ((p + q) / 2) by ring. exact S1.
Qed.
Theorem exact_window y0 x0 ny nx k image x y rs error mask elong t :
  (y0 + ny <= iny image)%nat -> (x0 + nx <= inx image)%nat -> fits error image -> fits mask image ->
  0 < elong -> (forall r, In r rs -> 0 < r) ->
  INR x0 - 1 / 2 <= x <= INR x0 + INR nx - 1 / 2 -> INR y0 - 1 / 2 <= y <= INR y0 + INR ny - 1 / 2 ->
  (forall r j i u v, In r rs -> (j < iny image)%nat -> (i < inx image)%nat ->
     INR i - 1 / 2 < u < INR i + 1 / 2 -> INR j - 1 / 2 < v < INR j + 1 / 2 -> inside_ellipse x y r (r / elong) t u v ->
     selects mask j i = true -> (y0 <= j < y0 + ny)%nat /\ (x0 <= i < x0 + nx)%nat) ->
  radial_photometry exact_overlap k (window y0 x0 ny nx image) (Fin (x - INR x0), Fin (y - INR y0)) (map Fin rs)
    (option_map (window y0 x0 ny nx) error) (option_map (window y0 x0 ny nx) mask) (Fin elong) (Fin t) =
  radial_photometry exact_overlap k image (Fin x, Fin y) (map Fin rs) error mask (Fin elong) (Fin t).
Proof.
  intros Ly Lx Fe Fm He Hr Cx Cy Hin. apply window_general; auto. intros q Iq. specialize (Hr q Iq).
  assert (Hb : 0 < q / elong) by now apply Rdiv_lt_0_compat.
  assert (Hex : 0 < extent_x q (q / elong) t) by (apply sqrt_lt_R0, extent_pos; auto).
  assert (Hey : 0 < extent_y q (q / elong) t) by (apply sqrt_lt_R0, extent_pos'; auto).
  apply le_INR in Lx, Ly. rewrite plus_INR in Lx, Ly. pose proof (pos_INR x0). pose proof (pos_INR y0).
  cbn [exact_overlap]. unfold box_misses. cbn zeta.
  destruct (box_hit x _ (inx image) Hex ltac:(lra)) as [-> ->]. destruct (box_hit y _ (iny image) Hey ltac:(lra)) as [-> ->].
  destruct (box_hit (x - INR x0) _ nx Hex ltac:(lra)) as [-> ->]. destruct (box_hit (y - INR y0) _ ny Hey ltac:(lra)) as [-> ->].
  cbn [orb]. do 2 eexists. split; [reflexivity|]. split; [reflexivity|]. split.
  - intros j i. now rewrite area_shift.
  - intros j i Hj Hi U Sm. destruct (Classical_Prop.classic (exists u v, INR i - 1 / 2 < u < INR i + 1 / 2 /\ INR j - 1 / 2 < v < INR j + 1 / 2 /\
      inside_ellipse x y q (q / elong) t u v)) as [(u & v & Hu & Hv & I)|N].
    + now apply (Hin q j i u v).
    + rewrite area_none in U; auto. { cbn in U. rewrite Rltb_false in U by lra. discriminate. }
      intros u v Hu Hv I. apply N. eauto.
Qed.
