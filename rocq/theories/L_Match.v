(** Proofs about match_catalogs. *)
From Coq Require Import Nsatz.
From Verif Require Import Base Num M_Match S_Match.
Local Open Scope R_scope.

(** ** trigonometry *)

Lemma cos_turn (x : R) (k : Z) : cos (x + 2 * IZR k * PI) = cos x.
Proof.
  destruct (Z_le_gt_dec 0 k) as [H|H].
  - rewrite <- (Z2Nat.id k) by lia. rewrite <- INR_IZR_INZ. apply cos_period.
  - replace k with (- Z.of_nat (Z.to_nat (- k)))%Z by lia. set (n := Z.to_nat (- k)).
    rewrite opp_IZR, <- INR_IZR_INZ. rewrite <- (cos_period (x + 2 * - INR n * PI) n). f_equal. ring.
Qed.
Lemma sin_turn (x : R) (k : Z) : sin (x + 2 * IZR k * PI) = sin x.
Proof.
  destruct (Z_le_gt_dec 0 k) as [H|H].
  - rewrite <- (Z2Nat.id k) by lia. rewrite <- INR_IZR_INZ. apply sin_period.
  - replace k with (- Z.of_nat (Z.to_nat (- k)))%Z by lia. set (n := Z.to_nat (- k)).
    rewrite opp_IZR, <- INR_IZR_INZ. rewrite <- (sin_period (x + 2 * - INR n * PI) n). f_equal. ring.
Qed.
Lemma rad_wrap d : rad (wrap360 d) = rad d + 2 * IZR (- Int_part (d / 360)) * PI.
Proof. unfold rad, wrap360. rewrite opp_IZR. field. Qed.

Lemma sc x : sin x * sin x + cos x * cos x = 1.
Proof. generalize (sin2_cos2 x). unfold Rsqr. lra. Qed.

Lemma arctan2_acos y x : 0 <= y -> y * y + x * x = 1 -> arctan2 y x = acos x.
Proof.
  intros Hy H.
  assert (B : -1 <= x <= 1) by nra.
  unfold arctan2.
  destruct (Rltb_spec 0 x) as [P|P].
  - rewrite acos_atan by lra. f_equal. f_equal. unfold Rsqr. rewrite <- (sqrt_square y Hy). f_equal. lra.
  - destruct (Rltb_spec x 0) as [Q|Q].
    + replace x with (- (- x)) at 2 by ring. rewrite acos_opp. rewrite acos_atan by lra.
      replace (y / x) with (- (y / - x)) by (field; lra). rewrite atan_opp.
      replace (y / - x) with (sqrt (1 - Rsqr (- x)) / - x); [ring|].
      f_equal. unfold Rsqr. rewrite <- (sqrt_square y Hy) at 1. f_equal. lra.
    + assert (x = 0) as -> by lra. rewrite Rltb_true by nra. rewrite acos_0. reflexivity.
Qed.

Definition dot (p q : point) : R :=
  let '(a, b, c) := p in let '(d, e, f) := q in a * d + b * e + c * f.

Lemma dot_xyz p q : dot (xyz p) (xyz q) = sin (snd p) * sin (snd q) + cos (snd p) * cos (snd q) * cos (fst q - fst p).
Proof. unfold dot, xyz. rewrite cos_minus. ring. Qed.

Lemma vincenty p q :
  let num1 := cos (snd q) * sin (fst q - fst p) in
  let num2 := cos (snd p) * sin (snd q) - sin (snd p) * cos (snd q) * cos (fst q - fst p) in
  num1 * num1 + num2 * num2 + dot (xyz p) (xyz q) * dot (xyz p) (xyz q) = 1.
Proof.
  cbv zeta. rewrite dot_xyz.
  generalize (sc (snd p)) (sc (snd q)) (sc (fst q - fst p)).
  generalize (sin (snd p)) (cos (snd p)) (sin (snd q)) (cos (snd q)) (sin (fst q - fst p)) (cos (fst q - fst p)).
  intros a b c d e f H1 H2 H3.
  nsatz.
Qed.

Lemma separation_acos p q : angular_separation p q = acos (dot (xyz p) (xyz q)).
Proof.
  generalize (vincenty p q). cbv zeta. intros V. unfold angular_separation.
  rewrite <- dot_xyz. apply arctan2_acos; [apply sqrt_pos|]. rewrite sqrt_sqrt; [exact V|].
  generalize (Rle_0_sqr (cos (snd q) * sin (fst q - fst p)))
    (Rle_0_sqr (cos (snd p) * sin (snd q) - sin (snd p) * cos (snd q) * cos (fst q - fst p))). unfold Rsqr. lra.
Qed.

Lemma dot_range p q : -1 <= dot (xyz p) (xyz q) <= 1.
Proof.
  generalize (vincenty p q). cbv zeta.
  generalize (Rle_0_sqr (cos (snd q) * sin (fst q - fst p)))
    (Rle_0_sqr (cos (snd p) * sin (snd q) - sin (snd p) * cos (snd q) * cos (fst q - fst p))). unfold Rsqr. intros. nra.
Qed.

Lemma dot_sym p q : dot p q = dot q p.
Proof. destruct p as [[? ?] ?], q as [[? ?] ?]. unfold dot. ring. Qed.

Lemma unit_xyz p : dot (xyz p) (xyz p) = 1.
Proof. unfold dot, xyz. generalize (sc (fst p)) (sc (snd p)). intros. nsatz. Qed.

Definition dist2 (p q : point) : R := let '(a, b, c) := p in let '(d, e, f) := q in (a - d) ^ 2 + (b - e) ^ 2 + (c - f) ^ 2.
Lemma dist2_dot p q : dist2 (xyz p) (xyz q) = 2 - 2 * dot (xyz p) (xyz q).
Proof.
  generalize (unit_xyz p) (unit_xyz q). destruct (xyz p) as [[a b] c], (xyz q) as [[d e] f]. unfold dist2, dot. intros. nra.
Qed.
Lemma dist3_dot p q : dist3 (xyz p) (xyz q) = sqrt (2 - 2 * dot (xyz p) (xyz q)).
Proof.
  rewrite <- dist2_dot. destruct (xyz p) as [[a b] c], (xyz q) as [[d e] f]. unfold dist3, dist2. f_equal. ring.
Qed.

Lemma chord d : -1 <= d <= 1 -> sqrt (2 - 2 * d) = 2 * sin (acos d / 2).
Proof.
  intros H. generalize (acos_bound d). intros B.
  assert (S : 0 <= sin (acos d / 2)) by (apply sin_ge_0; lra).
  rewrite <- (sqrt_square (2 * sin (acos d / 2))) by lra. f_equal.
  rewrite <- (cos_acos d H) at 1. replace (acos d) with (2 * (acos d / 2)) at 1 by field.
  rewrite cos_2a_sin. ring.
Qed.

(** ** positions *)

Lemma pair_combine {A B} (a : list A) (b : list B) k x y : nth_error a k = Some x -> nth_error b k = Some y ->
  nth_error (combine a b) k = Some (x, y).
Proof.
  revert b k. induction a as [|u a IH]; intros b k; destruct k; cbn; try discriminate; destruct b as [|v b]; cbn; try discriminate.
  - congruence.
  - apply IH.
Qed.

Definition place (u ra dec : R) : R * R := (rad (wrap360 (in_degrees u ra)), rad (in_degrees u dec)).

Lemma toward_place u ra dec : toward (ra * u) (dec * u) (xyz (place u ra dec)).
Proof.
  unfold toward, xyz, place. cbn [fst snd]. rewrite rad_wrap. rewrite cos_turn, sin_turn. unfold rad, in_degrees.
  replace (dec * u * (PI / 180)) with (dec * u * PI / 180) by (unfold Rdiv; ring).
  replace (ra * u * (PI / 180)) with (ra * u * PI / 180) by (unfold Rdiv; ring). reflexivity.
Qed.

Lemma apart_place u r1 d1 r2 d2 s :
  apart (r1 * u) (d1 * u) (r2 * u) (d2 * u) s <-> s = acos (dot (xyz (place u r1 d1)) (xyz (place u r2 d2))).
Proof.
  unfold apart. split.
  - intros [B H]. generalize (toward_place u r1 d1) (toward_place u r2 d2).
    destruct (xyz (place u r1 d1)) as [[a b] c], (xyz (place u r2 d2)) as [[d e] f]. intros T1 T2.
    generalize (H _ _ _ _ _ _ T1 T2). cbn [dot]. intros <-. symmetry. apply acos_cos. exact B.
  - intros ->. split; [apply acos_bound|]. intros a b c d e f T1 T2.
    rewrite cos_acos by apply dot_range. unfold toward in T1, T2. rewrite <- (toward_place u r1 d1) in T1.
    rewrite <- (toward_place u r2 d2) in T2. rewrite <- T1, <- T2. reflexivity.
Qed.

Lemma acos_decr x y : -1 <= x <= 1 -> -1 <= y <= 1 -> x <= y -> acos y <= acos x.
Proof.
  intros Hx Hy H. destruct (Rle_or_lt (acos y) (acos x)) as [L|L]; auto.
  apply cos_decreasing_1 in L; try apply acos_bound. rewrite !cos_acos in L by auto. lra.
Qed.

Lemma SkyCoord_ok ra dec u : length ra = length dec -> polar dec u ->
  SkyCoord ra dec u = Ok (map (fun p => place u (fst p) (snd p)) (combine ra dec)).
Proof.
  intros L P. unfold SkyCoord. replace (forallb _ dec) with true.
  - unfold broadcast2. rewrite L, Nat.eqb_refl. reflexivity.
  - symmetry. apply forallb_forall. intros d Hd. destruct (P d Hd) as [A B]. unfold in_degrees.
    destruct (Rleb_spec (-90) (d * u)); [|lra]. destruct (Rleb_spec (d * u) 90); [|lra]. reflexivity.
Qed.

Lemma in_xyz c2 v : In v (map xyz c2) -> exists m q, nth_error c2 m = Some q /\ v = xyz q.
Proof.
  intros H. apply in_map_iff in H as (q & <- & Hq). apply In_nth_error in Hq as (m & Hm). exists m, q. auto.
Qed.

Lemma nearest_at query c2 p : finds_nearest query -> c2 <> [] ->
  exists q, nth_error c2 (query (map xyz c2) (xyz p)) = Some q /\
    forall q', In q' c2 -> dot (xyz p) (xyz q') <= dot (xyz p) (xyz q).
Proof.
  intros F N. destruct (xyz p) as [[a b] c] eqn:E.
  destruct (F (map xyz c2) a b c) as (d & e & f & H1 & H2).
  - destruct c2; [congruence|discriminate].
  - rewrite nth_error_map in H1. destruct (nth_error c2 _) as [q|] eqn:Q; [|discriminate]. cbn [option_map] in H1. assert (H1' : xyz q = (d, e, f)) by congruence. clear H1. rename H1' into H1.
    exists q. split; auto. intros q' Hq'. rewrite <- E.
    assert (D : dist2 (xyz q) (xyz p) <= dist2 (xyz q') (xyz p)).
    { rewrite H1, E. destruct (xyz q') as [[d' e'] f'] eqn:E'. unfold dist2. apply H2. rewrite <- E'. apply in_map. exact Hq'. }
    rewrite !dist2_dot in D. rewrite (dot_sym (xyz p)), (dot_sym (xyz p)). lra.
Qed.

Lemma match_nearest query ra1 dec1 ra2 dec2 u : finds_nearest query ->
  length ra1 = length dec1 -> length ra2 = length dec2 -> ra2 <> [] -> polar dec1 u -> polar dec2 u ->
  exists idx d2 d3, match_catalogs query ra1 dec1 ra2 dec2 u = Ok (idx, d2, d3) /\
    length idx = length ra1 /\ length d2 = length ra1 /\ length d3 = length ra1 /\
    forall k r d, nth_error ra1 k = Some r -> nth_error dec1 k = Some d ->
      exists m s, nth_error idx k = Some m /\ nth_error d2 k = Some s /\ nth_error d3 k = Some (2 * sin (s / 2)) /\
        exists r' d', nth_error ra2 m = Some r' /\ nth_error dec2 m = Some d' /\ apart (r * u) (d * u) (r' * u) (d' * u) s /\
        forall m' r'' d'' s'', nth_error ra2 m' = Some r'' -> nth_error dec2 m' = Some d'' ->
          apart (r * u) (d * u) (r'' * u) (d'' * u) s'' -> s <= s''.
Proof.
  intros F L1 L2 N P1 P2. unfold match_catalogs. rewrite (SkyCoord_ok _ _ _ L1 P1), (SkyCoord_ok _ _ _ L2 P2). cbn [bind].
  set (pl := fun p : R * R => place u (fst p) (snd p)).
  set (c1 := map pl (combine ra1 dec1)). set (c2 := map pl (combine ra2 dec2)).
  assert (N2 : c2 <> []).
  { unfold c2. destruct ra2; [congruence|]. destruct dec2; discriminate. }
  unfold match_to_catalog_sky. destruct c2 as [|q0 c2'] eqn:E2; [congruence|]. rewrite <- E2 in *. clear c2' E2.
  do 3 eexists. split; [reflexivity|]. rewrite !map_length.
  assert (LC : length c1 = length ra1) by (unfold c1; rewrite map_length, combine_length; lia).
  repeat (split; [exact LC|]).
  intros k r d Hr Hd.
  assert (Hp : nth_error c1 k = Some (place u r d)).
  { unfold c1. rewrite nth_error_map, (pair_combine _ _ _ _ _ Hr Hd). reflexivity. }
  rewrite !nth_error_map, Hp. cbn [option_map].
  destruct (nearest_at query c2 (place u r d) F N2) as (q & Hq & Hmax).
  exists (query (map xyz c2) (xyz (place u r d))). eexists. split; [reflexivity|]. split; [reflexivity|].
  rewrite (nth_error_nth _ _ q0 Hq). rewrite separation_acos, dist3_dot, chord by apply dot_range. split; [reflexivity|].
  generalize Hq. unfold c2. rewrite nth_error_map. destruct (nth_error (combine ra2 dec2) _) as [[r' d']|] eqn:C; [|discriminate].
  cbn [option_map]. unfold pl at 1. cbn [fst snd]. intros Q. injection Q as Q.
  exists r', d'. apply nth_error_split in C as (l1 & l2 & C1 & C2).
  assert (G : nth_error ra2 (query (map xyz c2) (xyz (place u r d))) = Some r' /\ nth_error dec2 (query (map xyz c2) (xyz (place u r d))) = Some d').
  { fold c2 in C2. rewrite <- C2. clear - C1 L2. revert ra2 dec2 L2 C1. induction l1 as [|x l1 IH]; intros [|a ra] [|b dec]; cbn; try discriminate; intros L C1.
    - injection C1 as -> -> _. auto.
    - injection C1 as _ C1. apply IH; auto. }
  fold c2. destruct G as [G1 G2]. split; [exact G1|]. split; [exact G2|]. split.
  - apply apart_place. rewrite <- Q. rewrite dot_sym. reflexivity.
  - intros m' r'' d'' s'' H1 H2 A. apply apart_place in A. subst s''. rewrite (dot_sym (xyz q)).
    apply acos_decr; try apply dot_range. apply Hmax. unfold c2. apply in_map_iff. exists (r'', d''). split; [reflexivity|].
    eapply nth_error_In. apply (pair_combine _ _ _ _ _ H1 H2).
Qed.

(** ** errors *)

Lemma SkyCoord_polar ra dec u d : In d dec -> ~ (-90 <= d * u <= 90) -> SkyCoord ra dec u = Err ValueError.
Proof.
  intros H P. unfold SkyCoord. replace (forallb _ dec) with false; auto. symmetry.
  destruct (forallb _ dec) eqn:E; auto. rewrite forallb_forall in E. specialize (E d H). unfold in_degrees in E.
  destruct (Rleb_spec (-90) (d * u)); [|discriminate]. destruct (Rleb_spec (d * u) 90); [|discriminate]. lra.
Qed.

Lemma SkyCoord_lengths ra dec u : length ra <> length dec -> length ra <> 1%nat -> length dec <> 1%nat -> SkyCoord ra dec u = Err ValueError.
Proof.
  intros A B C. unfold SkyCoord. destruct (forallb _ dec); auto. unfold broadcast2.
  destruct (Nat.eqb_spec (length ra) (length dec)); [contradiction|].
  destruct ra as [|x [|y ra]]; cbn in *; try lia; destruct dec as [|z [|w dec]]; cbn in *; try lia; reflexivity.
Qed.

Lemma SkyCoord_err ra dec u e : SkyCoord ra dec u = Err e -> e = ValueError.
Proof.
  unfold SkyCoord. destruct (forallb _ dec); [|congruence]. unfold broadcast2. destruct (Nat.eqb _ _); [discriminate|].
  destruct ra as [|x [|y ra]], dec as [|z [|w dec]]; cbn; congruence.
Qed.

Lemma match_errors query ra1 dec1 ra2 dec2 u :
  let bad ra dec := (exists d, In d dec /\ ~ (-90 <= d * u <= 90)) \/
                    (length ra <> length dec /\ length ra <> 1%nat /\ length dec <> 1%nat) in
  bad ra1 dec1 \/ bad ra2 dec2 \/ (ra2 = [] /\ dec2 = []) ->
  match_catalogs query ra1 dec1 ra2 dec2 u = Err ValueError.
Proof.
  intros bad H.
  assert (B : forall ra dec, bad ra dec -> SkyCoord ra dec u = Err ValueError).
  { intros ra dec [(d & Hd & P)|(A & P & C)]; [eapply SkyCoord_polar|apply SkyCoord_lengths]; eauto. }
  unfold match_catalogs. destruct (SkyCoord ra1 dec1 u) as [c1|e] eqn:E1.
  - destruct H as [H|[H|[-> ->]]].
    + rewrite B in E1 by auto. discriminate.
    + cbn [bind]. rewrite (B _ _ H). reflexivity.
    + reflexivity.
  - apply SkyCoord_err in E1. subst. reflexivity.
Qed.

(** ** a catalog and itself *)

Lemma dot_one p q : dot (xyz p) (xyz q) = 1 -> xyz p = xyz q.
Proof.
  intros H. generalize (dist2_dot p q). rewrite H. destruct (xyz p) as [[a b] c], (xyz q) as [[d e] f]. unfold dist2. intros D.
  assert (a - d = 0 /\ b - e = 0 /\ c - f = 0) as (A & B & C).
  { generalize (pow2_ge_0 (a - d)) (pow2_ge_0 (b - e)) (pow2_ge_0 (c - f)). intros.
    repeat split; apply Rsqr_0_uniq; unfold Rsqr; nra. }
  repeat f_equal; lra.
Qed.

Lemma nth_error_eq {A} (a b : list A) : length a = length b -> (forall k x y, nth_error a k = Some x -> nth_error b k = Some y -> x = y) -> a = b.
Proof.
  revert b. induction a as [|u a IH]; intros [|v b]; cbn; try discriminate; auto. intros L H. f_equal.
  - apply (H 0%nat); reflexivity.
  - apply IH; [lia|]. intros k. apply (H (S k)).
Qed.

Lemma match_itself query ra dec u : finds_nearest query -> length ra = length dec -> ra <> [] -> polar dec u ->
  (forall k m r d r' d', k <> m -> nth_error ra k = Some r -> nth_error dec k = Some d -> nth_error ra m = Some r' -> nth_error dec m = Some d' ->
     ~ apart (r * u) (d * u) (r' * u) (d' * u) 0) ->
  match_catalogs query ra dec ra dec u = Ok (seq 0 (length ra), repeat 0 (length ra), repeat 0 (length ra)).
Proof.
  intros F L N P D. destruct (match_nearest query ra dec ra dec u F L L N P P) as (idx & d2 & d3 & -> & L1 & L2 & L3 & H).
  assert (K : forall k, (k < length ra)%nat -> nth_error idx k = Some k /\ nth_error d2 k = Some 0 /\ nth_error d3 k = Some 0).
  { intros k Hk. destruct (nth_error ra k) as [r|] eqn:Er; [|apply nth_error_None in Er; lia].
    destruct (nth_error dec k) as [d|] eqn:Ed; [|apply nth_error_None in Ed; lia].
    destruct (H k r d Er Ed) as (m & s & Hm & Hs & H3 & r' & d' & Hr' & Hd' & A & M).
    assert (A0 : apart (r * u) (d * u) (r * u) (d * u) 0).
    { apply apart_place. rewrite unit_xyz, acos_1. reflexivity. }
    specialize (M k r d 0 Er Ed A0). assert (s = 0) by (destruct A; lra). subst s.
    destruct (Nat.eq_dec k m) as [E|E]; [subst m|exfalso; exact (D k m r d r' d' E Er Ed Hr' Hd' A)].
    repeat split; auto. rewrite H3. f_equal. unfold Rdiv. rewrite Rmult_0_l, sin_0. ring. }
  f_equal. f_equal; [f_equal|]; apply nth_error_eq; rewrite ?seq_length, ?repeat_length; auto; intros k x y Hx Hy.
  - assert (Hk : (k < length ra)%nat) by (rewrite <- L1; apply nth_error_Some; congruence).
    destruct (K k Hk) as (E & _). rewrite (nth_error_nth' _ 0%nat) in Hy by (rewrite seq_length; auto).
    rewrite seq_nth in Hy by auto. cbn in Hy. congruence.
  - assert (Hk : (k < length ra)%nat) by (rewrite <- L2; apply nth_error_Some; congruence).
    destruct (K k Hk) as (_ & E & _). apply nth_error_In, repeat_spec in Hy. congruence.
  - assert (Hk : (k < length ra)%nat) by (rewrite <- L3; apply nth_error_Some; congruence).
    destruct (K k Hk) as (_ & _ & E). apply nth_error_In, repeat_spec in Hy. congruence.
Qed.

(** ** units, whole turns *)

Lemma wrap_turn d (k : Z) : wrap360 (d + 360 * IZR k) = wrap360 d.
Proof.
  unfold wrap360. replace ((d + 360 * IZR k) / 360) with (d / 360 + IZR k) by field.
  replace (Int_part (d / 360 + IZR k)) with (Int_part (d / 360) + k)%Z; [rewrite plus_IZR; ring|].
  symmetry. apply Int_part_spec. rewrite plus_IZR. generalize (base_Int_part (d / 360)). lra.
Qed.

Lemma forallb_map {A B} (f : B -> bool) (g : A -> B) l : forallb f (map g l) = forallb (fun x => f (g x)) l.
Proof. induction l; cbn; congruence. Qed.
Lemma forallb_ext' {A} (f g : A -> bool) l : (forall x, f x = g x) -> forallb f l = forallb g l.
Proof. intros H. induction l; cbn; congruence. Qed.

Lemma broadcast_map (f g : R -> R) a b : broadcast2 (map f a) (map g b) =
  match broadcast2 a b with Ok l => Ok (map (fun p => (f (fst p), g (snd p))) l) | Err e => Err e end.
Proof.
  unfold broadcast2. rewrite !map_length. destruct (Nat.eqb _ _) eqn:E.
  - f_equal. clear E. revert b. induction a as [|x a IH]; intros [|y b]; cbn; auto. f_equal. apply IH.
  - destruct a as [|x [|x' a]], b as [|y [|y' b]]; cbn; auto; repeat f_equal; rewrite !map_map; reflexivity.
Qed.

Lemma SkyCoord_unit ra dec u v : v <> 0 ->
  SkyCoord (map (fun a => a * u / v) ra) (map (fun a => a * u / v) dec) v = SkyCoord ra dec u.
Proof.
  intros Hv. unfold SkyCoord. rewrite forallb_map.
  assert (E : forall a, in_degrees v (a * u / v) = in_degrees u a) by (intros; unfold in_degrees; field; auto).
  rewrite (forallb_ext' _ (fun d => (Rleb (-90) (in_degrees u d) && Rleb (in_degrees u d) 90)%bool)) by (intros; rewrite E; reflexivity).
  destruct (forallb _ dec); auto. rewrite broadcast_map. destruct (broadcast2 ra dec); cbn [bind]; auto. f_equal. rewrite map_map.
  apply map_ext. intros p. cbn [fst snd]. rewrite !E. reflexivity.
Qed.

Lemma match_unit query ra1 dec1 ra2 dec2 u v : v <> 0 ->
  let c := map (fun a => a * u / v) in
  match_catalogs query (c ra1) (c dec1) (c ra2) (c dec2) v = match_catalogs query ra1 dec1 ra2 dec2 u.
Proof. intros Hv c. unfold match_catalogs, c. rewrite !SkyCoord_unit by auto. reflexivity. Qed.

Lemma broadcast_turn u la lb dec : same_turn u la lb -> 
  match broadcast2 la dec, broadcast2 lb dec with
  | Ok l, Ok l' => map (fun p => place u (fst p) (snd p)) l = map (fun p => place u (fst p) (snd p)) l'
  | Err e, Err e' => e = e'
  | _, _ => False end.
Proof.
  intros H.
  assert (W : forall a b k d, b * u = a * u + 360 * IZR k -> place u a d = place u b d).
  { intros a b k d E. unfold place, in_degrees. rewrite E, wrap_turn. reflexivity. }
  assert (L : length la = length lb) by (induction H; cbn; congruence).
  assert (C : forall dec, map (fun p => place u (fst p) (snd p)) (combine la dec) = map (fun p => place u (fst p) (snd p)) (combine lb dec)).
  { clear L. induction H as [|a b k la lb E H IH]; intros dc; cbn; auto. destruct dc as [|d dc]; cbn; auto. rewrite (W a b k d E). f_equal. apply IH. }
  unfold broadcast2. rewrite L. destruct (Nat.eqb (length lb) (length dec)) eqn:Q; [apply C|].
  inversion H as [|a b k la' lb' E H1]; subst.
  - destruct dec as [|? [|? ?]]; auto.
  - inversion H1 as [|a2 b2 k2 la2 lb2 E2 H2]; subst.
    + destruct dec as [|y [|y' dec]]; [reflexivity|discriminate|].
      cbn [map]. cbn [fst snd]. rewrite !(W a b k _ E). do 2 f_equal. rewrite !map_map. apply map_ext. intros z. cbn [fst snd]. apply (W a b k z E).
    + destruct dec as [|y [|y' dec]]; auto. cbn [map fst snd]. rewrite (W a b k y E), (W a2 b2 k2 y E2). do 2 f_equal.
      clear - H2 W. induction H2 as [|a b k la lb E H IH]; cbn [map]; auto. cbn [fst snd]. rewrite (W a b k y E), IH. reflexivity.
Qed.

Lemma match_turn query ra1 ra1' dec1 ra2 ra2' dec2 u : same_turn u ra1 ra1' -> same_turn u ra2 ra2' ->
  match_catalogs query ra1 dec1 ra2 dec2 u = match_catalogs query ra1' dec1 ra2' dec2 u.
Proof.
  intros H1 H2.
  assert (S : forall la lb dec, same_turn u la lb -> SkyCoord la dec u = SkyCoord lb dec u).
  { intros la lb dec H. unfold SkyCoord. destruct (forallb _ dec); auto. generalize (broadcast_turn u la lb dec H).
    destruct (broadcast2 la dec), (broadcast2 lb dec); cbn [bind]; intros E; try contradiction.
    - f_equal. exact E.
    - f_equal. exact E. }
  unfold match_catalogs. rewrite (S ra1 ra1'), (S ra2 ra2') by auto. reflexivity.
Qed.
