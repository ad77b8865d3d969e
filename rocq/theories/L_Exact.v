(** Proofs about the overlap method 'exact'. *)
From Coquelicot Require Import Coquelicot.
From Verif Require Import Base Num Numpy M_Utils M_Photometry S_Photometry S_Center M_Ellipse M_Exact S_Exact
  L_Numpy L_Photometry L_Center L_Ellipse.
Local Open Scope R_scope.

Lemma inside_chord x y a b t u v : 0 < a -> 0 < b -> (inside_ellipse x y a b t u v <->
  chord_mid a b t (u - x) - chord_half a b t (u - x) < v - y < chord_mid a b t (u - x) + chord_half a b t (u - x)).
Proof.
  intros Ha Hb. rewrite <- (in_ellipse_iff x y a b t u v Ha Hb). unfold in_ellipse. rewrite Rltb_iff. apply chord_iff; auto.
Qed.

Theorem exact_weights x y a b t ny nx w : 0 < a -> 0 < b ->
  exact_overlap (mkap (Fin x) (Fin y) (Fin a) (Fin b) (Fin t)) ny nx = Some w ->
  forall j i, exists A, w j i = Fin A /\ 0 <= A <= 1 /\ area_on_pixel x y a b t j i A.
Proof.
  intros Ha Hb E j i. cbn [exact_overlap] in E. destruct (box_misses x y a b t ny nx); [discriminate|]. injection E as <-.
  exists (pixel_area x y a b t j i). split; auto. split; [now apply area_bounds|].
  exists (fun u => chord_part a b t (u - x) (INR j - 1 / 2 - y) (INR j + 1 / 2 - y)). split.
  - intros u. destruct (part_spec a b t Ha Hb (u - x) (INR j - 1 / 2 - y) (INR j + 1 / 2 - y) ltac:(lra)) as (p & q & L & E & H).
    exists (p + y), (q + y). split; [lra|]. split; [lra|]. intros v. rewrite inside_chord by auto. specialize (H (v - y)). split.
    + intros X. assert (Y : p < v - y < q) by (apply H; lra). lra.
    + intros X. assert (Y : p < v - y < q) by lra. apply H in Y. lra.
  - apply (RInt_correct (V:=R_CompleteNormedModule)). apply int_part; auto.
Qed.

(** the area is determined by the specification *)
Lemma length_unique P l l' : interval_length P l -> interval_length P l' -> l = l'.
Proof.
  intros (p & q & L & -> & H) (p' & q' & L' & -> & H').
  assert (E : forall v, p < v < q <-> p' < v < q') by (intros; rewrite <- H; apply H').
  assert (G : forall p q p' q', p <= q -> p' <= q' -> (forall v, p < v < q -> p' < v < q') -> q - p <= q' - p').
  { clear. intros p q p' q' L L' E. destruct (Rle_lt_dec q p); [lra|].
    destruct (Rle_lt_dec p' p) as [A|A].
    - destruct (Rle_lt_dec q q'); [lra|]. exfalso. pose proof (Rmax_l p q'). pose proof (Rmax_r p q').
      assert (Rmax p q' < q) by (apply Rmax_lub_lt; lra). specialize (E ((Rmax p q' + q) / 2)). lra.
    - exfalso. pose proof (Rmin_l p' q). pose proof (Rmin_r p' q). assert (p < Rmin p' q) by (apply Rmin_glb_lt; lra).
      specialize (E ((Rmin p' q + p) / 2)). lra. }
  apply Rle_antisym; apply G; auto; intros v Hv; now apply E.
Qed.
Lemma area_unique x y a b t j i A A' : area_on_pixel x y a b t j i A -> area_on_pixel x y a b t j i A' -> A = A'.
Proof.
  intros (f & F & I) (g & G & J). apply (is_RInt_unique (V:=R_CompleteNormedModule)) in I. apply (is_RInt_unique (V:=R_CompleteNormedModule)) in J. rewrite <- I, <- J. apply RInt_ext. intros u _.
  eapply length_unique; eauto.
Qed.

(** ** sums *)
Lemma sum_parts a b t dx y n : 0 < a -> 0 < b ->
  sum_to n (fun j => chord_part a b t dx (INR j - 1 / 2 - y) (INR j + 1 / 2 - y)) = chord_part a b t dx (- (1 / 2) - y) (INR n - 1 / 2 - y).
Proof.
  intros Ha Hb. induction n as [|n IH].
  - cbn [sum_to INR]. pose proof (part_nonneg a b t dx (- (1 / 2) - y) (0 - 1 / 2 - y)). pose proof (part_le a b t dx (- (1 / 2) - y) (0 - 1 / 2 - y) ltac:(lra)). lra.
  - cbn [sum_to]. rewrite IH, S_INR. pose proof (pos_INR n).
    rewrite (part_split a b t dx (- (1 / 2) - y) (INR n - 1 / 2 - y) (INR n + 1 - 1 / 2 - y)) by (auto; lra).
    f_equal. f_equal. lra.
Qed.
Lemma sum_columns (f : R -> R) n : (forall p q, ex_RInt f p q) -> sum_to n (fun i => RInt f (INR i - 1 / 2) (INR i + 1 / 2)) = RInt f (- (1 / 2)) (INR n - 1 / 2).
Proof.
  intros H. induction n as [|n IH].
  - cbn [sum_to INR]. replace (0 - 1 / 2) with (- (1 / 2)) by lra. now rewrite RInt_point.
  - cbn [sum_to]. rewrite IH, S_INR. replace (INR n + 1 - 1 / 2) with (INR n + 1 / 2) by lra.
    rewrite <- (RInt_Chasles f (- (1 / 2)) (INR n - 1 / 2) (INR n + 1 / 2)); auto.
Qed.
Lemma RInt_sum n (f : nat -> R -> R) p q : (forall j, ex_RInt (f j) p q) ->
  sum_to n (fun j => RInt (f j) p q) = RInt (fun u => sum_to n (fun j => f j u)) p q /\ ex_RInt (fun u => sum_to n (fun j => f j u)) p q.
Proof.
  intros H. induction n as [|n [IH E]].
  - cbn [sum_to]. split; [|apply ex_RInt_const]. rewrite RInt_const. unfold scal; cbn; unfold mult; cbn. ring.
  - cbn [sum_to]. split.
    + rewrite IH. symmetry. apply (RInt_plus (V:=R_CompleteNormedModule)); auto.
    + apply (ex_RInt_plus (V:=R_NormedModule)); auto.
Qed.

Lemma on_image_box x y a b t ny nx : 0 < a -> 0 < b -> on_image x y a b t ny nx ->
  - (1 / 2) <= x - extent_x a b t /\ x + extent_x a b t <= INR nx - 1 / 2.
Proof.
  intros Ha Hb H. assert (He : 0 < extent_x a b t) by (apply sqrt_lt_R0, extent_pos; auto).
  set (e := extent_x a b t) in *.
  assert (In : forall dx, Rabs dx < e -> - (1 / 2) <= x + dx <= INR nx - 1 / 2).
  { intros dx Hd. pose proof (chord_inside a b t dx Ha Hb Hd) as Hh.
    destruct (H (x + dx) (y + chord_mid a b t dx)) as [X _]; auto.
    apply inside_chord; auto. replace (x + dx - x) with dx by ring. lra. }
  split.
  - destruct (Rle_lt_dec (- (1 / 2)) (x - e)); auto. exfalso.
    set (d := Rmin (- (1 / 2) - (x - e)) e). assert (0 < d) by (apply Rmin_glb_lt; lra).
    pose proof (Rmin_l (- (1 / 2) - (x - e)) e). pose proof (Rmin_r (- (1 / 2) - (x - e)) e). fold d in H1, H2.
    specialize (In (- e + d / 2)). rewrite Rabs_left1 in In by lra. lra.
  - destruct (Rle_lt_dec (x + e) (INR nx - 1 / 2)); auto. exfalso.
    set (d := Rmin (x + e - (INR nx - 1 / 2)) e). assert (0 < d) by (apply Rmin_glb_lt; lra).
    pose proof (Rmin_l (x + e - (INR nx - 1 / 2)) e). pose proof (Rmin_r (x + e - (INR nx - 1 / 2)) e). fold d in H1, H2.
    specialize (In (e - d / 2)). rewrite Rabs_pos_eq in In by lra. lra.
Qed.

(** the parts on the pixels make up the ellipse *)
Theorem exact_total x y a b t ny nx : 0 < a -> 0 < b -> on_image x y a b t ny nx ->
  sum2 ny nx (fun j i => pixel_area x y a b t j i) = PI * a * b.
Proof.
  intros Ha Hb H. unfold sum2.
  rewrite (sum_to_ext ny _ (fun j => RInt (fun u => chord_part a b t (u - x) (INR j - 1 / 2 - y) (INR j + 1 / 2 - y)) (- (1 / 2)) (INR nx - 1 / 2))).
  2:{ intros j _. apply (sum_columns (fun u => chord_part a b t (u - x) (INR j - 1 / 2 - y) (INR j + 1 / 2 - y))). intros; apply int_part; auto. }
  destruct (RInt_sum ny (fun j u => chord_part a b t (u - x) (INR j - 1 / 2 - y) (INR j + 1 / 2 - y)) (- (1 / 2)) (INR nx - 1 / 2)) as [-> _].
  { intros; apply int_part; auto. }
  destruct (on_image_box x y a b t ny nx Ha Hb H) as [B1 B2].
  assert (B3 : - (1 / 2) - y <= INR ny - 1 / 2 - y) by (pose proof (pos_INR ny); lra).
  apply is_RInt_unique. apply (is_RInt_ext (fun u => 2 * chord_half a b t (u - x))).
  - intros u _. rewrite sum_parts by auto. symmetry. apply part_full; auto. intros dy Hd.
    destruct (H u (y + dy)) as [_ V]; [|lra]. apply inside_chord; auto. replace (y + dy - y) with dy by ring. exact Hd.
  - apply whole_area; auto.
Qed.

Lemma exact_some x y a b t ny nx : 0 < a -> 0 < b -> on_image x y a b t ny nx ->
  exact_overlap (mkap (Fin x) (Fin y) (Fin a) (Fin b) (Fin t)) ny nx = Some (fun j i => Fin (pixel_area x y a b t j i)).
Proof.
  intros Ha Hb H. cbn [exact_overlap].
  assert (C : inside_ellipse x y a b t x y) by (exists 0, 0; split; [lra|split; ring]).
  destruct (H x y C) as [Hx Hy].
  assert (Hex : 0 < extent_x a b t) by (apply sqrt_lt_R0, extent_pos; auto).
  assert (Hey : 0 < extent_y a b t) by (apply sqrt_lt_R0, extent_pos'; auto).
  assert (Box : forall u e n, 0 < e -> - (1 / 2) <= u <= INR n - 1 / 2 ->
    Z.leb (Z.of_nat n) (Rfloor (u - e + 1/2)) = false /\ Z.leb (Rceil (u + e + 1/2)) 0 = false).
  { intros u e n He0 Hu. unfold Rfloor, Rceil. split; apply Z.leb_gt; apply lt_IZR.
    - destruct (base_Int_part (u - e + 1/2)). rewrite <- INR_IZR_INZ. lra.
    - destruct (base_Int_part (- (u + e + 1/2))). rewrite opp_IZR. lra. }
  unfold box_misses. destruct (Box x (extent_x a b t) nx Hex Hx) as [-> ->]. destruct (Box y (extent_y a b t) ny Hey Hy) as [-> ->]. reflexivity.
Qed.

(** pixels of weight 0 add nothing *)
Lemma weighted_all ny nx w v : (forall j i, 0 <= w j i) ->
  weighted ny nx w (selects None) v = sum2 ny nx (fun j i => v j i * w j i).
Proof.
  intros H. unfold weighted. apply sum2_ext. intros j i _ _. cbn [selects]. specialize (H j i). destruct (Rltb 0 (w j i)) eqn:E; auto.
  assert (w j i = 0) as ->; [|ring]. destruct (Rle_lt_dec (w j i) 0); [lra|]. rewrite Rltb_true in E by auto. discriminate.
Qed.

(** C107/C108 *)
Theorem exact_photometry k image v x y r elong t lo hi : 0 < r -> 0 < elong ->
  on_image x y r (r / elong) t (iny image) (inx image) -> finite_img image v ->
  (forall j i, (j < iny image)%nat -> (i < inx image)%nat -> lo <= v j i <= hi) ->
  exists f f0 A, radial_photometry exact_overlap k image (Fin x, Fin y) [Fin r] None None (Fin elong) (Fin t) = Ok ([Fin f], [Fin A], [NaN]) /\
    rounded6 (PI * r * (r / elong)) A /\ rounded6 f0 f /\ lo * (PI * r * (r / elong)) <= f0 <= hi * (PI * r * (r / elong)).
Proof.
  intros Hr He On Fi Bd. assert (Hb : 0 < r / elong) by now apply Rdiv_lt_0_compat.
  destruct (rp_value exact_overlap k image v (Fin x) (Fin y) r None None elong (Fin t) (pixel_area x y r (r / elong) t) _ Hr He I I
     (exact_some x y r (r / elong) t _ _ Hr Hb On)) as (f & A & e & E & Ff & Fa & Fe & _); auto; try discriminate.
  rewrite (Fe eq_refl) in E.
  assert (NN : forall j i, 0 <= pixel_area x y r (r / elong) t j i) by (intros; now apply area_bounds).
  rewrite weighted_all in Ff, Fa by auto.
  assert (EA : sum2 (iny image) (inx image) (fun j i => 1 * pixel_area x y r (r / elong) t j i) = PI * r * (r / elong)).
  { rewrite <- (exact_total x y r (r / elong) t (iny image) (inx image)) by auto. apply sum2_ext. intros; ring. }
  rewrite EA in Fa. eexists. eexists. exists A. split; [exact E|]. split; auto. split; [exact Ff|].
  rewrite <- (exact_total x y r (r / elong) t (iny image) (inx image)) by auto. rewrite <- !sum2_mult.
  split; apply sum2_le; intros j i Hj Hi; apply Rmult_le_compat_r; auto; now apply Bd.
Qed.

(** ** overlaps grow with the radius *)
Theorem exact_grows x y t elong ny nx : 0 < elong -> grows exact_overlap (Fin x) (Fin y) (Fin t) elong ny nx.
Proof.
  intros He r1 r2 w1 Hr E. unfold ap_of in *. cbn [exact_overlap] in *.
  assert (Hb : 0 < r1 / elong <= r2 / elong).
  { split; [apply Rdiv_lt_0_compat; lra|]. apply Rmult_le_compat_r; [left; now apply Rinv_0_lt_compat|lra]. }
  destruct (box_misses x y r1 (r1 / elong) t ny nx) eqn:B; [discriminate|]. injection E as <-.
  assert (Cn : exists w, center_overlap (mkap (Fin x) (Fin y) (Fin r1) (Fin (r1 / elong)) (Fin t)) ny nx = Some w).
  { unfold center_overlap. fold (box_misses x y r1 (r1 / elong) t ny nx). rewrite B. eauto. }
  destruct Cn as (w & Cn). destruct (center_nested x y r1 r2 (r1 / elong) (r2 / elong) t ny nx w ltac:(lra) ltac:(lra) Cn) as (w2 & _ & _ & C2 & _).
  assert (B2 : box_misses x y r2 (r2 / elong) t ny nx = false).
  { unfold center_overlap in C2. fold (box_misses x y r2 (r2 / elong) t ny nx) in C2. destruct (box_misses x y r2 (r2 / elong) t ny nx); [discriminate|reflexivity]. }
  rewrite B2. eexists. split; [reflexivity|]. intros j i _ _. do 2 eexists. split; [reflexivity|]. split; [reflexivity|].
  split; [apply area_bounds; lra|apply area_mono; lra].
Qed.
