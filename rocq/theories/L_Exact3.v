(** The overlap method 'subpixel', upper bounds for 'exact', and the choice of the method. *)
From Coq Require Import String Permutation.
From Coquelicot Require Import Coquelicot.
From Verif Require Import Base Num Numpy M_Utils M_Photometry S_Petrosian S_Photometry S_Center S_Symm M_Ellipse M_Exact S_Exact
  L_Numpy L_Photometry L_Center L_Symm L_Ellipse L_Fubini L_Exact L_Exact2.
From Verif Require E_Photometry.
Local Open Scope R_scope.
Local Open Scope list_scope.

(** ** subpixels *)
Definition sub_in (x y a b t : R) (s j i : nat) (p : nat * nat) : bool :=
  in_ellipse a b t (INR i - 1/2 + (INR (snd p) + 1/2) / INR s - x) (INR j - 1/2 + (INR (fst p) + 1/2) / INR s - y).
Definition sub_count (x y a b t : R) (s j i : nat) : nat := List.length (filter (sub_in x y a b t s j i) (pixels s s)).
Lemma sub_weight x y a b t s ny nx w : subpixel_overlap s (mkap (Fin x) (Fin y) (Fin a) (Fin b) (Fin t)) ny nx = Some w ->
  box_misses x y a b t ny nx = false /\ forall j i, w j i = Fin (INR (sub_count x y a b t s j i) / (INR s * INR s)).
Proof.
  cbn [subpixel_overlap]. destruct (box_misses x y a b t ny nx); [discriminate|]. intros E. injection E as <-. split; auto. intros j i.
  unfold subpoints, sub_count. do 3 f_equal. rewrite filter_map, map_length. reflexivity.
Qed.
Lemma length_pixels s : List.length (pixels s s) = (s * s)%nat.
Proof.
  unfold pixels. assert (H : forall l : list nat, List.length (flat_map (fun j => map (fun i => (j, i)) (seq 0 s)) l) = (List.length l * s)%nat).
  { induction l as [|q l IH]; cbn; auto. rewrite app_length, map_length, seq_length, IH. reflexivity. }
  rewrite H, seq_length. reflexivity.
Qed.
Lemma filter_le {A} (p q : A -> bool) l : (forall x, In x l -> p x = true -> q x = true) -> (List.length (filter p l) <= List.length (filter q l))%nat.
Proof.
  induction l as [|c l IH]; intros H; cbn; auto. assert (IH' := IH ltac:(intros; apply H; auto; now right)).
  destruct (p c) eqn:E; [rewrite (H c) by (auto; now left); cbn; lia|]. destruct (q c); cbn; lia.
Qed.
Theorem subpixel_weights x y a b t s ny nx w : 0 < a -> 0 < b -> (0 < s)%nat ->
  subpixel_overlap s (mkap (Fin x) (Fin y) (Fin a) (Fin b) (Fin t)) ny nx = Some w ->
  forall j i, exists n, w j i = Fin (INR n / INR (s * s)) /\ (n <= s * s)%nat /\ points_inside x y a b t s j i n.
Proof.
  intros Ha Hb Hs E j i. apply sub_weight in E. destruct E as [_ E]. exists (sub_count x y a b t s j i). rewrite E, mult_INR. split; auto.
  split. { rewrite <- length_pixels. unfold sub_count. induction (pixels s s) as [|c l IH]; cbn; auto. destruct (sub_in x y a b t s j i c); cbn; lia. }
  exists (filter (sub_in x y a b t s j i) (pixels s s)). split; [apply NoDup_filter, NoDup_pixels|]. split; auto.
  intros p q. rewrite filter_In, in_pixels. unfold sub_in. cbn [fst snd]. rewrite (in_ellipse_iff x y a b t) by auto. tauto.
Qed.

Theorem subpixel_one ap ny nx : subpixel_overlap 1 ap ny nx = center_overlap ap ny nx.
Proof.
  destruct ap as [x y a b t]. destruct x as [| | |x], y as [| | |y], a as [| | |a], b as [| | |b], t as [| | |t]; cbn [subpixel_overlap center_overlap]; auto.
  fold (box_misses x y a b t ny nx). destruct (box_misses x y a b t ny nx); auto. f_equal.
  apply FunctionalExtensionality.functional_extensionality; intro j. apply FunctionalExtensionality.functional_extensionality; intro i.
  unfold subpoints. change (pixels 1 1) with [(0, 0)%nat]. cbn [map fst snd filter].
  replace (INR i - 1 / 2 + (INR 0 + 1 / 2) / INR 1) with (INR i) by (cbn; field).
  replace (INR j - 1 / 2 + (INR 0 + 1 / 2) / INR 1) with (INR j) by (cbn; field).
  destruct (in_ellipse a b t (INR i - x) (INR j - y)); cbn [List.length INR]; f_equal; field.
Qed.

Theorem subpixel_grows s x y t elong ny nx : (0 < s)%nat -> 0 < elong -> grows (subpixel_overlap s) (Fin x) (Fin y) (Fin t) elong ny nx.
Proof.
  intros Hs He r1 r2 w1 Hr E. unfold ap_of in *. apply sub_weight in E. destruct E as [B E].
  assert (Hb : 0 < r1 / elong <= r2 / elong).
  { split; [apply Rdiv_lt_0_compat; lra|]. apply Rmult_le_compat_r; [left; now apply Rinv_0_lt_compat|lra]. }
  destruct (exact_grows x y t elong ny nx He r1 r2 (fun j i => Fin (pixel_area x y r1 (r1 / elong) t j i)) Hr) as (w & Ew & _).
  { unfold ap_of. cbn [exact_overlap]. now rewrite B. }
  unfold ap_of in Ew. cbn [exact_overlap subpixel_overlap] in *. destruct (box_misses x y r2 (r2 / elong) t ny nx) eqn:B2; [discriminate|].
  eexists. split; [reflexivity|]. intros j i _ _. rewrite E. do 2 eexists. split; [reflexivity|]. split; [reflexivity|].
  assert (Hss : 0 < / (INR s * INR s)) by (apply Rinv_0_lt_compat; apply Rmult_lt_0_compat; now apply lt_0_INR).
  split; [apply Rmult_le_pos; [apply pos_INR|lra]|]. apply Rmult_le_compat_r; [lra|]. apply le_INR.
  unfold sub_count, subpoints. rewrite filter_map, map_length. apply filter_le. intros p _. unfold sub_in. cbn [fst snd].
  apply in_ellipse_mono; lra.
Qed.

(** ** symmetries of the subpixels *)
Lemma count_move s (P P' : nat * nat -> bool) move :
  (forall p, In p (pixels s s) -> In (move p) (pixels s s) /\ move (move p) = p /\ P' p = P (move p)) ->
  List.length (filter P' (pixels s s)) = List.length (filter P (pixels s s)).
Proof.
  intros H. rewrite (filter_ext_in' P' (fun p => P (move p))) by (intros p Hp; now apply H).
  rewrite <- (map_length move), <- filter_map. apply Permutation_length, Permutation_filter, NoDup_Permutation.
  - apply NoDup_map_on; [|apply NoDup_pixels]. intros p q Hp Hq E. destruct (H p Hp) as (_ & <- & _). destruct (H q Hq) as (_ & <- & _). now rewrite E.
  - apply NoDup_pixels.
  - intros q. rewrite in_map_iff. split.
    + intros (p & <- & Hp). now apply H.
    + intros Hq. exists (move q). split; now apply H.
Qed.
Theorem subpixel_transposes s : transposes (subpixel_overlap s).
Proof.
  intros x y a b t ny nx Pa Pb. unfold follow.
  destruct x as [| | |x], y as [| | |y], a as [| | |a], b as [| | |b], t as [| | |t]; cbn [subpixel_overlap nsub XRnum xsub xadd xopp]; auto.
  change (PI / 2 + - t) with (PI / 2 - t). rewrite box_swap. destruct (box_misses x y a b t ny nx); auto.
  intros j i _ _. cbn [fst snd]. do 3 f_equal. unfold subpoints. rewrite !filter_map, !map_length.
  apply (count_move s _ _ (fun p => (snd p, fst p))). intros [p q]. rewrite !in_pixels. cbn [fst snd]. intros []. split; auto. split; auto.
  apply in_ellipse_swap.
Qed.
Lemma sub_flip s n i q c : (0 < s)%nat -> (i < n)%nat -> (q < s)%nat ->
  INR i - 1 / 2 + (INR q + 1 / 2) / INR s - (INR n - 1 - c) = - (INR (n - 1 - i) - 1 / 2 + (INR (s - 1 - q) + 1 / 2) / INR s - c).
Proof. intros Hs Hi Hq. rewrite !minus_INR by lia. change (INR 1) with 1. field. apply not_0_INR. lia. Qed.
Theorem subpixel_mirrors s : mirrors (subpixel_overlap s).
Proof.
  intros x y a b t ny nx Pa Pb. unfold follow.
  destruct x as [| | |x], y as [| | |y], a as [| | |a], b as [| | |b], t as [| | |t]; cbn [subpixel_overlap nopp nsub XRnum xsub xadd xopp n0 nofZ]; auto.
  replace (0 + - t) with (- t) by ring. change (INR nx - 1 + - x) with (INR nx - 1 - x).
  rewrite box_mirror. destruct (box_misses x y a b t ny nx); auto. intros j i _ Hi. cbn [fst snd]. do 3 f_equal. unfold subpoints. rewrite !filter_map, !map_length.
  apply (count_move s _ _ (fun p => (fst p, (s - 1 - snd p)%nat))). intros [p q]. rewrite !in_pixels. cbn [fst snd]. intros [Hp Hq].
  split; [lia|]. split; [f_equal; lia|]. rewrite sub_flip by (auto; lia). apply in_ellipse_flip.
Qed.
Theorem subpixel_upends s : upends (subpixel_overlap s).
Proof.
  intros x y a b t ny nx Pa Pb. unfold follow.
  destruct x as [| | |x], y as [| | |y], a as [| | |a], b as [| | |b], t as [| | |t]; cbn [subpixel_overlap nopp nsub XRnum xsub xadd xopp n0 nofZ]; auto.
  replace (0 + - t) with (- t) by ring. change (INR ny - 1 + - y) with (INR ny - 1 - y).
  rewrite box_upend. destruct (box_misses x y a b t ny nx); auto. intros j i Hj _. cbn [fst snd]. do 3 f_equal. unfold subpoints. rewrite !filter_map, !map_length.
  apply (count_move s _ _ (fun p => ((s - 1 - fst p)%nat, snd p))). intros [p q]. rewrite !in_pixels. cbn [fst snd]. intros [Hp Hq].
  split; [lia|]. split; [f_equal; lia|]. rewrite sub_flip by (auto; lia).
  match goal with |- in_ellipse _ _ _ ?u (- ?v) = _ => rewrite <- (in_ellipse_flip a b t u v), <- (in_ellipse_neg a b (- t) (- u) v) end.
  now rewrite Ropp_involutive.
Qed.

(** ** an aperture never measures more than the area of its ellipse *)
Lemma part_le_chord a b t dx lo hi : 0 < a -> 0 < b -> lo <= hi -> chord_part a b t dx lo hi <= 2 * chord_half a b t dx.
Proof.
  intros Ha Hb H. pose proof (hl_nonneg a b t Ha Hb dx). unfold chord_part. apply Rmax_lub; [lra|].
  pose proof (Rmin_l (chord_mid a b t dx + chord_half a b t dx) hi). pose proof (Rmax_l (chord_mid a b t dx - chord_half a b t dx) lo). lra.
Qed.
Theorem exact_total_le x y a b t ny nx : 0 < a -> 0 < b -> sum2 ny nx (fun j i => pixel_area x y a b t j i) <= PI * a * b.
Proof.
  intros Ha Hb. unfold sum2.
  rewrite (sum_to_ext ny _ (fun j => RInt (fun u => chord_part a b t (u - x) (INR j - 1 / 2 - y) (INR j + 1 / 2 - y)) (- (1 / 2)) (INR nx - 1 / 2))).
  2:{ intros j _. apply (sum_columns (fun u => chord_part a b t (u - x) (INR j - 1 / 2 - y) (INR j + 1 / 2 - y))). intros; apply int_part; auto. }
  destruct (RInt_sum ny (fun j u => chord_part a b t (u - x) (INR j - 1 / 2 - y) (INR j + 1 / 2 - y)) (- (1 / 2)) (INR nx - 1 / 2)) as [-> EX].
  { intros; apply int_part; auto. }
  set (e := sqrt (width2 a b t)). set (p := Rmin (- (1 / 2)) (x - e)). set (q := Rmax (INR nx - 1 / 2) (x + e)).
  assert (P : p <= - (1 / 2) /\ p <= x - e) by (split; [apply Rmin_l|apply Rmin_r]).
  assert (Q : INR nx - 1 / 2 <= q /\ x + e <= q) by (split; [apply Rmax_l|apply Rmax_r]).
  pose proof (pos_INR nx) as Hn. pose proof (whole_area x a b t p q Ha Hb (proj2 P) (proj2 Q)) as WA.
  set (g := fun u => 2 * chord_half a b t (u - x)) in *. apply (is_RInt_unique (V:=R_CompleteNormedModule)) in WA. rewrite <- WA.
  assert (GC : forall u, continuous g u).
  { intros u. apply (continuous_mult (K:=R_AbsRing) (fun _ => 2) (fun u => chord_half a b t (u - x))); [apply continuous_const|].
    apply (cont_shift (chord_half a b t)). intros; now apply cont_hl. }
  assert (GE : forall u v, ex_RInt g u v) by (intros; apply @ex_RInt_continuous; intros; apply GC).
  assert (GN : forall u, 0 <= g u) by (intros u; pose proof (hl_nonneg a b t Ha Hb (u - x)); unfold g; lra).
  rewrite <- (RInt_Chasles g p (- (1 / 2)) q), <- (RInt_Chasles g (- (1 / 2)) (INR nx - 1 / 2) q) by auto. change (@plus R_CompleteNormedModule) with Rplus.
  assert (I1 : 0 <= RInt g p (- (1 / 2))) by (apply RInt_ge_0; auto; lra).
  assert (I2 : 0 <= RInt g (INR nx - 1 / 2) q) by (apply RInt_ge_0; auto; lra).
  enough (RInt (fun u => sum_to ny (fun j => chord_part a b t (u - x) (INR j - 1 / 2 - y) (INR j + 1 / 2 - y))) (- (1 / 2)) (INR nx - 1 / 2) <= RInt g (- (1 / 2)) (INR nx - 1 / 2)) by lra.
  apply RInt_le; auto; [lra|]. intros u _. rewrite sum_parts by auto. apply part_le_chord; auto. pose proof (pos_INR ny). lra.
Qed.
Theorem exact_area_bound k image v x y r mask elong t w : 0 < r -> 0 < elong -> fits mask image -> finite_img image v ->
  exact_overlap (mkap (Fin x) (Fin y) (Fin r) (Fin (r / elong)) (Fin t)) (iny image) (inx image) = Some w ->
  exists f A A0, radial_photometry exact_overlap k image (Fin x, Fin y) [Fin r] None mask (Fin elong) (Fin t) = Ok ([Fin f], [Fin A], [NaN]) /\
    rounded6 A0 A /\ 0 <= A0 <= PI * r * (r / elong).
Proof.
  intros Hr He Fm Fi E. assert (Hb : 0 < r / elong) by now apply Rdiv_lt_0_compat.
  assert (Ew : forall j i, w j i = Fin (pixel_area x y r (r / elong) t j i)).
  { cbn [exact_overlap] in E. destruct (box_misses x y r (r / elong) t (iny image) (inx image)); [discriminate|]. injection E as <-. auto. }
  destruct (rp_value exact_overlap k image v (Fin x) (Fin y) r None mask elong (Fin t) (pixel_area x y r (r / elong) t) _ Hr He I Fm E)
    as (f & A & e & EQ & _ & Fa & Fe & _); auto; try discriminate.
  rewrite (Fe eq_refl) in EQ. do 3 eexists. split; [exact EQ|]. split; [exact Fa|].
  assert (NN : forall j i, 0 <= pixel_area x y r (r / elong) t j i) by (intros; now apply area_bounds).
  unfold weighted. split.
  - apply Rle_trans with (sum2 (iny image) (inx image) (fun _ _ => 0 * 0)); [rewrite (sum2_mult _ _ 0 (fun _ _ => 0)); lra|]. apply sum2_le. intros j i _ _.
    specialize (NN j i). match goal with |- context [Rltb 0 ?u] => destruct (Rltb 0 u) end; [destruct (selects mask j i)|]; lra.
  - apply Rle_trans with (sum2 (iny image) (inx image) (pixel_area x y r (r / elong) t)); [|now apply exact_total_le]. apply sum2_le. intros j i _ _. cbn beta. specialize (NN j i). match goal with |- context [Rltb 0 ?u] => destruct (Rltb 0 u) end; [destruct (selects mask j i)|]; lra.
Qed.

(** ** monotone curves of growth *)
Theorem exact_monotone k image v x y t rs mask elong : 0 < elong -> fits mask image -> finite_img image v ->
  (forall j i, (j < iny image)%nat -> (i < inx image)%nat -> 0 <= v j i) ->
  nondecreasing rs -> (forall i, (i < List.length rs)%nat -> 0 < at_ rs i) ->
  ((0 < List.length rs)%nat -> exact_overlap (ap_of (Fin x) (Fin y) (Fin t) elong (at_ rs 0)) (iny image) (inx image) <> None) ->
  exists F A, radial_photometry exact_overlap k image (Fin x, Fin y) (map Fin rs) None mask (Fin elong) (Fin t)
      = Ok (map Fin F, map Fin A, map (fun _ => NaN) rs) /\
    List.length F = List.length rs /\ List.length A = List.length rs /\ nondecreasing F /\ nondecreasing A /\
    forall i, (i < List.length rs)%nat -> 0 <= at_ F i /\ 0 <= at_ A i.
Proof. intros. eapply E_Photometry.rp_monotone; eauto. now apply exact_grows. Qed.
Theorem subpixel_monotone s k image v x y t rs mask elong : (0 < s)%nat -> 0 < elong -> fits mask image -> finite_img image v ->
  (forall j i, (j < iny image)%nat -> (i < inx image)%nat -> 0 <= v j i) ->
  nondecreasing rs -> (forall i, (i < List.length rs)%nat -> 0 < at_ rs i) ->
  ((0 < List.length rs)%nat -> subpixel_overlap s (ap_of (Fin x) (Fin y) (Fin t) elong (at_ rs 0)) (iny image) (inx image) <> None) ->
  exists F A, radial_photometry (subpixel_overlap s) k image (Fin x, Fin y) (map Fin rs) None mask (Fin elong) (Fin t)
      = Ok (map Fin F, map Fin A, map (fun _ => NaN) rs) /\
    List.length F = List.length rs /\ List.length A = List.length rs /\ nondecreasing F /\ nondecreasing A /\
    forall i, (i < List.length rs)%nat -> 0 <= at_ F i /\ 0 <= at_ A i.
Proof. intros. eapply E_Photometry.rp_monotone; eauto. now apply subpixel_grows. Qed.

(** ** the argument [method] *)
Theorem method_known k image pos rs error mask elong theta :
  radial_photometry_method "exact" k image pos rs error mask elong theta = radial_photometry exact_overlap k image pos rs error mask elong theta /\
  radial_photometry_method "center" k image pos rs error mask elong theta = radial_photometry center_overlap k image pos rs error mask elong theta /\
  radial_photometry_method "subpixel" k image pos rs error mask elong theta = radial_photometry (subpixel_overlap 5) k image pos rs error mask elong theta.
Proof. split; [|split]; reflexivity. Qed.
Theorem method_unknown method k image pos r rs error mask elong theta :
  method <> "exact"%string -> method <> "center"%string -> method <> "subpixel"%string ->
  radial_photometry_method method k image pos [] error mask elong theta = Ok ([], [], []) /\
  exists e, radial_photometry_method method k image pos (r :: rs) error mask elong theta = Err e /\
    (e = ValueError \/ e = ZeroDivisionError /\ k = PyFloat /\ neqb elong n0 = true).
Proof.
  intros H1 H2 H3. apply String.eqb_neq in H1, H2, H3. unfold radial_photometry_method, overlap_of. rewrite H1, H2, H3. split; auto.
  cbn [mapM bind]. unfold radial_elliptical_aperture, fdiv, EllipticalAperture.
  destruct k; [destruct (neqb elong n0) eqn:E; cbn [bind]; eauto 6|cbn [bind]];
    match goal with |- context [orb ?u ?v] => destruct (orb u v); cbn [bind]; eauto end.
Qed.

Theorem exact_symmetries : transposes exact_overlap /\ mirrors exact_overlap /\ upends exact_overlap.
Proof. exact (conj exact_transposes (conj exact_mirrors exact_upends)). Qed.
Theorem subpixel_symmetries s : transposes (subpixel_overlap s) /\ mirrors (subpixel_overlap s) /\ upends (subpixel_overlap s).
Proof. exact (conj (subpixel_transposes s) (conj (subpixel_mirrors s) (subpixel_upends s))). Qed.
