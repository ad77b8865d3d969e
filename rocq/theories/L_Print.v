(** Proofs about print_model_params (C129). *)
From Coq Require Import Ascii NArith ZArith.
From Verif Require Import Base Num M_Utils S_NatSort S_Photometry M_Print S_Print.
From Verif Require L_NatSort L_Photometry L_PSF2.
Local Open Scope list_scope.

Lemma digit_val n : (n < 10)%N -> (N_of_ascii (digit n) = 48 + n)%N.
Proof. intros H. unfold digit. apply N_ascii_embedding. lia. Qed.

Lemma digit_ok n : (n < 10)%N -> is_digit (digit n) = true.
Proof.
  intros H. unfold is_digit. rewrite digit_val; auto. apply andb_true_intro.
  split; apply N.leb_le; lia.
Qed.

Lemma digit_value n : (n < 10)%N -> value [digit n] = n.
Proof. intros H. cbn [value List.length]. rewrite digit_val; auto. change (10 ^ N.of_nat 0)%N with 1%N. lia. Qed.

Lemma digit_nz n : (0 < n < 10)%N -> digit n <> "0"%char.
Proof.
  intros H E. assert (N_of_ascii (digit n) = N_of_ascii "0"%char) by now rewrite E.
  rewrite digit_val in H0 by lia. change (N_of_ascii "0"%char) with 48%N in H0. lia.
Qed.

Lemma digits_spec fuel : forall n, (n < 2 ^ N.of_nat fuel)%N -> fuel <> 0 -> decimal_of n (digits fuel n).
Proof.
  induction fuel as [|f IH]; intros n Hn Hf; [congruence|].
  cbn [digits]. destruct (N.ltb_spec n 10) as [H|H].
  - unfold decimal_of. split; [discriminate|]. split; [constructor; auto using digit_ok|].
    split; [now apply digit_value|].
    destruct (N.eq_dec n 0) as [->|E]; [left; reflexivity|].
    right. exists (digit n), []. split; auto. apply digit_nz. lia.
  - assert (Hq : (n / 10 < 2 ^ N.of_nat f)%N).
    { apply N.div_lt_upper_bound; [lia|]. rewrite Nnat.Nat2N.inj_succ, N.pow_succ_r' in Hn. lia. }
    assert (Hf' : f <> 0).
    { intros ->. change (2 ^ N.of_nat 1)%N with 2%N in Hn. lia. }
    destruct (IH _ Hq Hf') as (A & B & C & D).
    assert (Hm : (n mod 10 < 10)%N) by (apply N.mod_lt; lia).
    split; [now destruct (digits f (n / 10))|].
    split; [apply Forall_app; split; auto; constructor; auto using digit_ok|].
    split.
    + rewrite L_NatSort.value_app, C, digit_value; auto. change (10 ^ N.of_nat (List.length [digit (n mod 10)]))%N with 10%N.
      pose proof (N.div_mod' n 10). lia.
    + right. destruct D as [D|(c & t & D & E)].
      * exfalso. rewrite D in C. change (value ["0"%char]) with 0%N in C.
        assert (1 <= n / 10)%N by (apply N.div_le_lower_bound; lia). lia.
      * exists c, (t ++ [digit (n mod 10)]). rewrite D. split; auto.
Qed.

Lemma str_N_spec n : decimal_of n (str_N n).
Proof.
  apply digits_spec; [|lia]. rewrite Nnat.Nat2N.inj_succ, Nnat.N2Nat.id, N.pow_succ_r'.
  pose proof (N.size_gt n). lia.
Qed.

Lemma four_spec n : (n < 10000)%N ->
  List.length (four n) = 4 /\ Forall (fun c => is_digit c = true) (four n) /\ value (four n) = n.
Proof.
  intros H. split; auto.
  assert (D : forall k, (k mod 10 < 10)%N) by (intros; apply N.mod_lt; lia).
  split; [repeat constructor; apply digit_ok; auto|].
  unfold four. cbn [value List.length]. rewrite !digit_val by auto.
  change (10 ^ N.of_nat 3)%N with 1000%N. change (10 ^ N.of_nat 2)%N with 100%N.
  change (10 ^ N.of_nat 1)%N with 10%N. change (10 ^ N.of_nat 0)%N with 1%N.
  assert (n / 1000 < 10)%N by (apply N.div_lt_upper_bound; lia).
  rewrite (N.mod_small (n / 1000)) by auto.
  pose proof (N.div_mod' n 10) as A. pose proof (N.div_mod' (n / 10) 10) as B.
  pose proof (N.div_mod' (n / 100) 10) as C.
  rewrite !N.div_div in B, C by lia. change (10 * 10)%N with 100%N in B. change (100 * 10)%N with 1000%N in C.
  rewrite !N.add_comm with (n := 48%N), !N.add_sub.
  set (x1 := (n / 1000)%N) in *. set (x2 := ((n / 100) mod 10)%N) in *.
  set (x3 := ((n / 10) mod 10)%N) in *. set (x4 := (n mod 10)%N) in *.
  set (y2 := (n / 100)%N) in *. set (y3 := (n / 10)%N) in *. clearbody x1 x2 x3 x4 y2 y3. lia.
Qed.

Lemma nearest_abs x z : nearest_even x z -> nearest_even (Rabs x) (Z.abs z).
Proof.
  unfold nearest_even. intros H.
  assert (E : Z.even (Z.abs z) = Z.even z) by (destruct z; reflexivity). rewrite E.
  assert (Q : Rabs (IZR (Z.abs z) - Rabs x) = Rabs (IZR z - x) \/ z = 0%Z /\ False \/
    (IZR z <= 0 < x \/ x < 0 <= IZR z)%R).
  { rewrite abs_IZR. destruct (Rle_dec 0 x) as [Hx|Hx]; destruct (Rle_dec 0 (IZR z)) as [Hz|Hz].
    - left. rewrite (Rabs_right (IZR z)), (Rabs_right x) by lra. reflexivity.
    - destruct (Req_dec x 0) as [->|].
      + left. rewrite Rabs_R0, !Rminus_0_r. now rewrite Rabs_Rabsolu.
      + right; right. lra.
    - right; right. lra.
    - left. rewrite (Rabs_left (IZR z)), (Rabs_left x) by lra.
      replace (- IZR z - - x)%R with (- (IZR z - x))%R by lra. apply Rabs_Ropp. }
  destruct Q as [Q|[[_ []]|Q]]; [now rewrite Q|].
  assert (Hz : z = 0%Z).
  { assert (A : (Rabs (IZR z - x) <= 1/2)%R) by (destruct H as [|[]]; lra).
    unfold Rabs in A. destruct (Rcase_abs (IZR z - x)) in A.
    - assert (B : (-1 < IZR z < 1)%R) by lra. destruct B as [B1 B2]. apply lt_IZR in B1, B2. lia.
    - assert (B : (-1 < IZR z < 1)%R) by lra. destruct B as [B1 B2]. apply lt_IZR in B1, B2. lia. }
  subst z. change (Z.abs 0) with 0%Z. rewrite !Rminus_0_l, !Rabs_Ropp in *. now rewrite Rabs_Rabsolu.
Qed.

Lemma format4_text x : text_of x (format4 x).
Proof.
  destruct x as [| | |r]; try reflexivity. cbn [text_of format4].
  set (z := Rrint (r * 10000)).
  exists (Rltb r 0), (Z.abs_N z).
  split; [|split].
  - exists (str_N (Z.abs_N z / 10000)), (four (Z.abs_N z mod 10000)), (Z.abs_N z / 10000)%N, (Z.abs_N z mod 10000)%N.
    destruct (four_spec (Z.abs_N z mod 10000)) as (A & B & C); [apply N.mod_lt; lia|].
    split; [reflexivity|]. split; [apply str_N_spec|]. repeat (split; auto).
    pose proof (N.div_mod' (Z.abs_N z) 10000). lia.
  - unfold Rltb. destruct (Rlt_dec r 0); split; intros; auto; discriminate.
  - rewrite N2Z.inj_abs_N.
    replace (Rabs r * 10000)%R with (Rabs (r * 10000)).
    + apply nearest_abs, L_Photometry.Rrint_nearest.
    + rewrite Rabs_mult, (Rabs_right 10000) by lra. reflexivity.
Qed.

Lemma lines names parameters :
  List.length (print_model_params names parameters) = Nat.min (List.length names) (List.length parameters) /\
  forall i name x, nth_error names i = Some name -> nth_error parameters i = Some x ->
    exists text, nth_error (print_model_params names parameters) i = Some (text ++ "009"%char :: name) /\
      text_of x text.
Proof.
  split; [apply length_map2|].
  intros i name x Hn Hx. exists (format4 x). unfold print_model_params.
  rewrite nth_error_map2, Hn, Hx. split; auto using format4_text.
Qed.

Lemma nearest_close x z : nearest_even x z -> (Rabs (IZR z - x) <= 1/2)%R.
Proof. intros [|[]]; lra. Qed.

Lemma text_close r text : text_of (Fin r) text ->
  exists v, reads text v /\ (Rabs (v - r) <= 1 / 20000)%R.
Proof.
  intros (neg & m & S & Hn & Hm).
  exists ((if neg then -1 else 1) * (IZR (Z.of_N m) / 10000))%R. split; [now exists neg, m|].
  apply nearest_close in Hm. destruct neg.
  - assert (r < 0)%R by tauto. rewrite (Rabs_left r) in Hm by lra.
    replace (-1 * (IZR (Z.of_N m) / 10000) - r)%R with ((IZR (Z.of_N m) - - r * 10000) * - (1 / 10000))%R by lra.
    rewrite Rabs_mult, Rabs_Ropp, (Rabs_right (1 / 10000)) by lra. lra.
  - assert (Hr : (0 <= r)%R) by (destruct (Rlt_dec r 0) as [Q|Q]; [apply Hn in Q; discriminate|lra]).
    rewrite (Rabs_right r) in Hm by lra.
    replace (1 * (IZR (Z.of_N m) / 10000) - r)%R with ((IZR (Z.of_N m) - r * 10000) * (1 / 10000))%R by lra.
    rewrite Rabs_mult, (Rabs_right (1 / 10000)) by lra. lra.
Qed.

(** a text stands for one number only *)
Lemma digits_no_point d : Forall (fun c => is_digit c = true) d -> forall d' e e',
  Forall (fun c => is_digit c = true) d' ->
  d ++ "."%char :: e = d' ++ "."%char :: e' -> d = d' /\ e = e'.
Proof.
  induction 1 as [|c d Hc Hd IH]; intros d' e e' Hd' E.
  - destruct Hd' as [|c' d' Hc' Hd']; cbn in E; [split; congruence|].
    injection E as E _. subst c'. discriminate.
  - destruct Hd' as [|c' d' Hc' Hd']; cbn in E.
    + injection E as E _. subst c. discriminate.
    + injection E as E1 E2. apply IH in E2 as [-> ->]; auto. subst; auto.
Qed.

Lemma shows_unique text n1 m1 n2 m2 : shows text n1 m1 -> shows text n2 m2 -> n1 = n2 /\ m1 = m2.
Proof.
  intros (d & e & a & b & E & (D1 & D2 & D3 & D4) & L & F & V & M)
    (d' & e' & a' & b' & E' & (D1' & D2' & D3' & D4') & L' & F' & V' & M').
  assert (G : n1 = n2 /\ d ++ "."%char :: e = d' ++ "."%char :: e').
  { rewrite E in E'. destruct n1, n2; cbn in E'.
    - split; congruence.
    - destruct D2' as [|c ? Hc _]; [congruence|]. cbn in E'. injection E' as E' _. subst c. discriminate.
    - destruct D2 as [|c ? Hc _]; [congruence|]. cbn in E'. injection E' as E' _. subst c. discriminate.
    - auto. }
  destruct G as [-> G]. apply digits_no_point in G as [-> ->]; auto. split; auto. congruence.
Qed.

Lemma reads_unique text v w : reads text v -> reads text w -> v = w.
Proof.
  intros (n & m & S & ->) (n' & m' & S' & ->). destruct (shows_unique _ _ _ _ _ S S') as [-> ->]. reflexivity.
Qed.

Lemma text_close_unique r text : text_of (Fin r) text ->
  exists v, reads text v /\ (forall w, reads text w -> w = v) /\ (Rabs (v - r) <= 1 / 20000)%R.
Proof.
  intros H. destruct (text_close _ _ H) as (v & V & A). exists v. repeat split; auto.
  intros w W. now apply (reads_unique text).
Qed.

(** two lines with the same number: the values differ by at most 1/10000 *)
Lemma same_text x y text : text_of x text -> text_of y text ->
  (exists r s, x = Fin r /\ y = Fin s /\ (Rabs (r - s) <= 1 / 10000)%R) \/ x = y.
Proof.
  assert (K : forall r, text_of (Fin r) text ->
     text <> ["n"; "a"; "n"]%char /\ text <> ["i"; "n"; "f"]%char /\ text <> ["-"; "i"; "n"; "f"]%char).
  { intros r (neg & m & (d & e & a & b & E & (D1 & D2 & _) & _) & _).
    destruct D2 as [|c d Hc D2]; [congruence|].
    repeat split; intros ->; destruct neg; cbn in E; injection E as E; subst; try discriminate. }
  intros Hx Hy.
  destruct x as [| | |r], y as [| | |s]; auto; try (cbn in Hx, Hy; congruence).
  1-6: exfalso; try (destruct (K _ Hx) as (?&?&?)); try (destruct (K _ Hy) as (?&?&?)); cbn in Hx, Hy; congruence.
  left. exists r, s. repeat split; auto.
  destruct (text_close _ _ Hx) as (v & V & A). destruct (text_close _ _ Hy) as (w & W & B).
  rewrite (reads_unique _ _ _ V W) in A.
  unfold Rabs in *. destruct (Rcase_abs _) in A; destruct (Rcase_abs _) in B; destruct (Rcase_abs _); lra.
Qed.

Lemma example_line :
  print_model_params [["n"%char]] [Fin (-5 / 2)] =
  [["-"; "2"; "."; "5"; "0"; "0"; "0"; "009"; "n"]%char].
Proof.
  unfold print_model_params, format4. cbn [map2].
  assert (E : Rrint (-5 / 2 * 10000) = (-25000)%Z).
  { apply L_PSF2.nearest_unique. left. replace (-25000 - -5 / 2 * 10000)%R with 0%R by lra. rewrite Rabs_R0. lra. }
  rewrite E. assert (B : Rltb (-5 / 2) 0 = true) by (apply Rltb_true; lra). rewrite B. reflexivity.
Qed.
