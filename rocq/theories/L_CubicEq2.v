(** Cubic splines are linear in the samples, and small errors of the samples stay small. *)
From Verif Require Import Base Num Numpy M_Petrosian M_Interp M_Cubic S_Petrosian S_PetroR S_Conv S_Noise S_Robust S_Cubic
  L_Petrosian L_Conv L_Conv2 L_Noise2 L_Cubic L_Cubic2.
Local Open Scope R_scope.

Lemma at_map2 f l : forall m i, (i < length l)%nat -> (i < length m)%nat -> at_ (map2 f l m) i = f (at_ l i) (at_ m i).
Proof.
  induction l as [|x l IH]; intros [|y m] i Hl Hm; cbn [length] in *; try lia. destruct i as [|i]; [reflexivity|].
  cbn [map2]. rewrite !at_cons. apply IH; lia.
Qed.
Lemma map2_len {A B C} (f : A -> B -> C) l : forall m, length l = length m -> length (map2 f l m) = length l.
Proof. induction l; intros [|y m] H; cbn in *; auto; try discriminate. Qed.

Theorem spline_linear f g xs ys zs a b : not_a_knot f xs ys -> not_a_knot g xs zs ->
  not_a_knot (fun x => a * f x + b * g x) xs (map2 (fun y z => a * y + b * z) ys zs).
Proof.
  intros (L4 & Ly & b1 & c1 & d1 & P1 & F1 & G1) (_ & Lz & b2 & c2 & d2 & P2 & F2 & G2).
  assert (V : forall i, (i < length xs)%nat -> at_ (map2 (fun y z => a * y + b * z) ys zs) i = a * at_ ys i + b * at_ zs i).
  { intros i Hi. apply (at_map2 (fun y z => a * y + b * z)); lia. }
  split; auto. split; [rewrite map2_len; congruence|].
  exists (fun i => a * b1 i + b * b2 i), (fun i => a * c1 i + b * c2 i), (fun i => a * d1 i + b * d2 i).
  split; [|split; [rewrite F1, F2; reflexivity|rewrite G1, G2; reflexivity]].
  intros i Hi. cbv zeta in *. destruct (P1 i Hi) as (A1 & A2 & A3 & A4). destruct (P2 i Hi) as (B1 & B2 & B3 & B4).
  rewrite !V by lia. split; [|split; [|split]].
  - intros x Hx. rewrite A1, B1 by auto. ring.
  - rewrite A2, B2. ring.
  - rewrite A3, B3. ring.
  - rewrite A4, B4. ring.
Qed.

Theorem spline_moved f xs ys t : not_a_knot f xs ys -> not_a_knot (fun x => f (x - t)) (map (fun x => x + t) xs) ys.
Proof.
  intros (L4 & Ly & b & c & d & P & F & G).
  assert (V : forall i, (i < length xs)%nat -> at_ (map (fun x => x + t) xs) i = at_ xs i + t).
  { intros i Hi. now rewrite at_map by lia. }
  split; [now rewrite map_length|]. split; [now rewrite map_length|]. exists b, c, d. rewrite map_length. split; [|auto].
  intros i Hi. cbv zeta in *. destruct (P i Hi) as (A1 & A2 & A3 & A4). rewrite !V by lia.
  replace (at_ xs (S i) + t - (at_ xs i + t)) with (at_ xs (S i) - at_ xs i) by ring.
  split; [|split; [|split]]; auto.
  - intros x Hx. rewrite A1 by lra. replace (x - t - at_ xs i) with (x - (at_ xs i + t)) by ring. reflexivity.
  - replace (at_ xs (S i) + t - t) with (at_ xs (S i)) by ring. exact A2.
Qed.

Theorem cubic_linear interp xs ys zs a b : cubic_spline interp -> increasing xs -> (4 <= length xs)%nat ->
  length ys = length xs -> length zs = length xs ->
  exists F G H, interp (map Fin xs) (map Fin ys) = Ok F /\ interp (map Fin xs) (map Fin zs) = Ok G /\
    interp (map Fin xs) (map Fin (map2 (fun y z => a * y + b * z) ys zs)) = Ok H /\
    forall x, at_ xs 0 <= x <= last_of xs -> exists u v, F (Fin x) = Fin u /\ G (Fin x) = Fin v /\ H (Fin x) = Fin (a * u + b * v).
Proof.
  intros Cs I L4 Ly Lz. destruct (Cs xs ys I (eq_sym Ly) L4) as (F & f & EF & VF & NF).
  destruct (Cs xs zs I (eq_sym Lz) L4) as (G & g & EG & VG & NG).
  destruct (Cs xs (map2 (fun y z => a * y + b * z) ys zs) I ltac:(rewrite map2_len; congruence) L4) as (H & h & EH & VH & NH).
  exists F, G, H. repeat (split; [assumption|]). intros x Hx. exists (f x), (g x). repeat (split; [auto|]). rewrite VH by auto. f_equal.
  apply (spline_unique _ _ xs _ I NH (spline_linear f g xs ys zs a b NF NG) x Hx).
Qed.

Theorem cubic_moved interp xs ys t : cubic_spline interp -> increasing xs -> (4 <= length xs)%nat -> length ys = length xs ->
  exists F G, interp (map Fin xs) (map Fin ys) = Ok F /\ interp (map Fin (map (fun x => x + t) xs)) (map Fin ys) = Ok G /\
    forall x, at_ xs 0 <= x <= last_of xs -> exists v, F (Fin x) = Fin v /\ G (Fin (x + t)) = Fin v.
Proof.
  intros Cs I L4 Ly. destruct (Cs xs ys I (eq_sym Ly) L4) as (F & f & EF & VF & NF).
  assert (V : forall i, (i < length xs)%nat -> at_ (map (fun x => x + t) xs) i = at_ xs i + t).
  { intros i Hi. now rewrite at_map by lia. }
  assert (I' : increasing (map (fun x => x + t) xs)).
  { intros i Hi. rewrite map_length in Hi. rewrite !V by lia. pose proof (I i Hi). lra. }
  destruct (Cs (map (fun x => x + t) xs) ys I' ltac:(now rewrite map_length) ltac:(now rewrite map_length)) as (G & g & EG & VG & NG).
  exists F, G. repeat (split; [assumption|]). intros x Hx. exists (f x). split; [auto|].
  assert (Hx' : at_ (map (fun x => x + t) xs) 0 <= x + t <= last_of (map (fun x => x + t) xs)).
  { unfold last_of in *. rewrite map_length, !V by lia. lra. }
  rewrite VG by auto. f_equal. rewrite (spline_unique _ _ _ _ I' NG (spline_moved f xs ys t NF) (x + t) Hx'). f_equal. ring.
Qed.

Theorem cubic_steady interp xs q : cubic_spline interp -> increasing xs -> (4 <= length xs)%nat -> steps_within q xs ->
  forall ys ys' d, length ys = length xs -> near d ys ys' ->
  exists F F', interp (map Fin xs) (map Fin ys) = Ok F /\ interp (map Fin xs) (map Fin ys') = Ok F' /\
    forall x, at_ xs 0 <= x <= last_of xs ->
    exists v v', F (Fin x) = Fin v /\ F' (Fin x) = Fin v' /\ Rabs (v' - v) <= (1 + 2 * ((1 + 2 * q) * q ^ 2)) * d.
Proof.
  intros Cs I L4 St ys ys' d Ly [Ly' Hn].
  destruct (Cs xs ys I (eq_sym Ly) L4) as (F & f & EF & VF & NF).
  destruct (Cs xs ys' I ltac:(congruence) L4) as (G & g & EG & VG & NG).
  exists F, G. repeat (split; [assumption|]). intros x Hx. exists (f x), (g x). repeat (split; [auto|]).
  pose proof (spline_linear g f xs ys' ys 1 (-1) NG NF) as N. set (e := map2 _ ys' ys) in N.
  assert (Ve : forall i, (i < length xs)%nat -> Rabs (at_ e i) <= d).
  { intros i Hi. unfold e. rewrite (at_map2 (fun y z => 1 * y + -1 * z)) by lia.
    replace (1 * at_ ys' i + -1 * at_ ys i) with (at_ ys' i - at_ ys i) by ring. apply Hn. lia. }
  assert (Le : length e = length xs) by (unfold e; rewrite map2_len; congruence).
  assert (J : jumps_within (2 * d) e).
  { intros i Hi. rewrite Le in Hi. pose proof (Ve i ltac:(lia)) as A. pose proof (Ve (S i) ltac:(lia)) as B.
    apply Rabs_le_iff in A. apply Rabs_le_iff in B. apply Rabs_le_iff. lra. }
  destruct (find_step xs x ltac:(lia) Hx) as (i & Hi & Hxi).
  destruct (spline_overshoot _ xs e q (2 * d) I St J N i x Hi Hxi) as (z & Bz & Cz).
  pose proof (Ve i ltac:(lia)) as A. pose proof (Ve (S i) ltac:(lia)) as B. apply Rabs_le_iff in A. apply Rabs_le_iff in B.
  apply Rabs_le_iff in Cz. apply Rabs_le_iff.
  replace (1 * g x + -1 * f x) with (g x - f x) in Cz by ring. destruct Bz; lra.
Qed.

Lemma steady_cubic interp xs : cubic_spline interp -> increasing xs -> (4 <= length xs)%nat -> steady interp xs.
Proof.
  intros Cs I L4. destruct (steps_bounded xs I ltac:(lia)) as (q & St).
  assert (Q : 0 <= q).
  { pose proof (St 0%nat 0%nat ltac:(lia) ltac:(lia)) as S0. pose proof (I 0%nat ltac:(lia)) as I0. nra. }
  exists (1 + 2 * ((1 + 2 * q) * q ^ 2)). split; [assert (0 <= q ^ 2) by apply pow2_ge_0; nra|].
  exact (cubic_steady interp xs q Cs I L4 St).
Qed.

Lemma zero_tail_increasing rs : increasing rs -> 0 < at_ rs 0 -> (2 <= length rs)%nat -> increasing (0 :: tl rs).
Proof.
  intros I P L i Hi. destruct rs as [|r0 [|r1 rs]]; cbn [length tl] in *; try lia. destruct i as [|i].
  - pose proof (I 0%nat ltac:(cbn; lia)) as I0. unfold at_ in *. cbn [nth] in *. lra.
  - rewrite !at_cons. specialize (I (S i)). rewrite !at_cons in I. apply I. cbn [length]. lia.
Qed.

Theorem cubic_noise_radius mk k rs A L eta s : (4 <= length rs)%nat -> length A = length rs -> length L = length rs ->
  increasing rs -> 0 < at_ rs 0 -> increasing A -> 0 < at_ A 0 -> nonzero_tail L -> s_eta s = Fin eta ->
  s_kind s = Some k -> cubic_spline (mk k) ->
  forall g y i, resampled mk (s_kind s) (s_num s) (0 :: tl rs) (map Fin (eta_profile A L)) g (map Fin y) ->
  clear_cut false eta y i ->
  exists d, 0 < d /\ forall L', near d L L' -> exists o,
    Petrosian_new (plain rs A L') s = Ok o /\ read mk o A_r_petrosian = Ok (VNum (Fin (at_ g i))).
Proof.
  intros L4 LA LL I P IA PA NZ Ee Ek Cs. apply noise_radius; auto; try lia.
  intros k' Hk'. rewrite Ek in Hk'. injection Hk' as <-. apply steady_cubic; auto; [apply zero_tail_increasing; auto; lia|].
  destruct rs; cbn [tl length] in *; lia.
Qed.
Theorem cubic_noise_fraction mk k rs A L eta s : (4 <= length rs)%nat -> length A = length rs -> length L = length rs ->
  increasing rs -> 0 < at_ rs 0 -> increasing A -> 0 < at_ A 0 -> nonzero_tail L -> s_eta s = Fin eta ->
  s_kind s = Some k -> cubic_spline (mk k) ->
  forall ep ef fr g y i g2 z j f F,
  s_epsilon s = Fin ep -> s_epsilon_fraction s = Fin ef -> ef <> 0 ->
  resampled mk (s_kind s) (s_num s) (0 :: tl rs) (map Fin (eta_profile A L)) g (map Fin y) -> clear_cut false eta y i ->
  at_ rs 0 <= at_ g i * ep <= last_of rs -> mk k (map Fin rs) (map Fin L) = Ok f -> f (Fin (at_ g i * ep)) = Fin F ->
  resampled mk (s_kind s) (s_num s) rs (map Fin L) g2 (map Fin z) -> clear_cut true (F * (fr / ef)) z j ->
  exists d, 0 < d /\ forall L', near d L L' -> exists o,
    Petrosian_new (plain rs A L') s = Ok o /\
    forall x, radius_of s fr x -> read mk o x = Ok (VNum (Fin (at_ g2 j))).
Proof.
  intros L4 LA LL I P IA PA NZ Ee Ek Cs ep ef fr g y i g2 z j f F E1 E2 E3 Rs Cc Hr Ef Fv Rs2 Cc2.
  apply (noise_fraction mk rs A L eta s ltac:(lia) LA LL I P IA PA NZ Ee) with (ep := ep) (ef := ef) (k := k) (g := g) (y := y) (i := i) (z := z) (f := f) (F := F); auto.
  - intros k' Hk'. rewrite Ek in Hk'. injection Hk' as <-. apply steady_cubic; auto; [apply zero_tail_increasing; auto; lia|].
    destruct rs; cbn [tl length] in *; lia.
  - apply steady_cubic; auto.
Qed.
