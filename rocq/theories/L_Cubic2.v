(** The cubic spline exists and is unique, and [interp_cubic] computes it. *)
From Verif Require Import Base Num Numpy M_Petrosian M_Interp M_Cubic S_Petrosian S_Conv S_Spline S_Cubic L_Conv2 L_Spline L_Cubic.
Local Open Scope R_scope.

(** the same programs on real numbers *)
Local Instance Rnum : Num R := {|
  nadd := Rplus; nsub := Rminus; nmul := Rmult; ndiv := Rdiv; nabs := Rabs; nsqrt := sqrt; nofZ := IZR;
  nnan := 0; ninf := 0; nltb := Rltb; nleb := Rleb; neqb := Reqb; nisnan := fun _ => false; nrint := fun x => x;
  ntrunc := fun _ => None |}.

Definition row_fin (r : R * R * R * R) : xr * xr * xr * xr := match r with (a, b, c, d) => (Fin a, Fin b, Fin c, Fin d) end.
Definition dominant (r : R * R * R * R) : Prop := match r with (a, b, c, d) => Rabs a + Rabs c < b end.

Lemma den_pos a b c cp : Rabs a + Rabs c < b -> Rabs cp <= 1 -> Rabs c < b - a * cp.
Proof.
  intros H Hc. pose proof (Rabs_pos a). pose proof (Rabs_pos cp).
  assert (a * cp <= Rabs a).
  { apply Rle_trans with (Rabs (a * cp)); [apply Rle_abs|]. rewrite Rabs_mult. nra. }
  lra.
Qed.
Lemma quot_le c den : Rabs c < den -> Rabs (c / den) <= 1.
Proof.
  intros H. pose proof (Rabs_pos c). unfold Rdiv. rewrite Rabs_mult, (Rabs_pos_eq (/ den)) by (left; apply Rinv_0_lt_compat; lra).
  apply Rmult_le_reg_r with den; [lra|]. rewrite Rmult_assoc, Rinv_l by lra. lra.
Qed.
Lemma xdiv_fin a b : b <> 0 -> xdiv (Fin a) (Fin b) = Fin (a / b).
Proof. intros H. unfold xdiv, Reqb. destruct (Req_EM_T b 0); [contradiction|reflexivity]. Qed.

Lemma thomas_fin rows : forall cp dp, Forall dominant rows -> Rabs cp <= 1 ->
  thomas (Fin cp) (Fin dp) (map row_fin rows) = map Fin (thomas cp dp rows).
Proof.
  induction rows as [|[[[a b] c] d] rows IH]; intros cp dp Fo Hc; [reflexivity|].
  inversion Fo as [|? ? Hd Fo']; subst. cbn in Hd. pose proof (den_pos a b c cp Hd Hc) as Hden. pose proof (quot_le _ _ Hden) as Hq.
  pose proof (Rabs_pos c). cbn [map row_fin thomas].
  change (nsub (Fin b) (nmul (Fin a) (Fin cp))) with (Fin (b - a * cp)).
  change (nsub (Fin d) (nmul (Fin a) (Fin dp))) with (Fin (d - a * dp)).
  change (ndiv (Fin c) (Fin (b - a * cp))) with (xdiv (Fin c) (Fin (b - a * cp))).
  change (ndiv (Fin (d - a * dp)) (Fin (b - a * cp))) with (xdiv (Fin (d - a * dp)) (Fin (b - a * cp))).
  rewrite !xdiv_fin by lra. rewrite (IH (c / (b - a * cp)) _ Fo' Hq).
  change (nsub b (nmul a cp)) with (b - a * cp). change (nsub d (nmul a dp)) with (d - a * dp).
  change (ndiv c (b - a * cp)) with (c / (b - a * cp)). change (ndiv (d - a * dp) (b - a * cp)) with ((d - a * dp) / (b - a * cp)).
  destruct (thomas (c / (b - a * cp)) ((d - a * dp) / (b - a * cp)) rows); reflexivity.
Qed.

Lemma thomas_length {T} {N : Num T} rows : forall cp dp : T, length (thomas cp dp rows) = length rows.
Proof. induction rows as [|[[[a b] c] d] rows IH]; intros; cbn [thomas length]; [reflexivity|]. cbv zeta. cbn [length]. now rewrite IH. Qed.

Fixpoint rows_hold (prev : R) (rows : list (R * R * R * R)) (ms : list R) : Prop :=
  match rows, ms with
  | [], [] => True
  | (a, b, c, d) :: rows, m :: ms => a * prev + b * m + c * hd 0 ms = d /\ rows_hold m rows ms
  | _, _ => False
  end.
Lemma thomas_holds rows : forall cp dp, Forall dominant rows -> Rabs cp <= 1 ->
  rows_hold (dp - cp * hd 0 (thomas cp dp rows)) rows (thomas cp dp rows).
Proof.
  induction rows as [|[[[a b] c] d] rows IH]; intros cp dp Fo Hc; [exact I|].
  inversion Fo as [|? ? Hd Fo']; subst. cbn in Hd. pose proof (den_pos a b c cp Hd Hc) as Hden. pose proof (quot_le _ _ Hden) as Hq.
  pose proof (Rabs_pos c). cbn [thomas].
  change (nsub b (nmul a cp)) with (b - a * cp). change (nsub d (nmul a dp)) with (d - a * dp).
  change (ndiv c (b - a * cp)) with (c / (b - a * cp)). change (ndiv (d - a * dp) (b - a * cp)) with ((d - a * dp) / (b - a * cp)).
  set (den := b - a * cp) in *. cbv zeta.
  set (ms := thomas (c / den) ((d - a * dp) / den) rows). 
  change (@n0 R Rnum) with 0. cbn [hd rows_hold].
  change (nsub ((d - a * dp) / den) (nmul (c / den) (hd 0 ms))) with ((d - a * dp) / den - c / den * hd 0 ms).
  split; [|now apply IH].
  replace b with (den + a * cp) by (unfold den; ring). field. lra.
Qed.
Lemma rows_hold_at rows : forall prev ms, rows_hold prev rows ms -> forall i, (i < length rows)%nat ->
  match nth i rows (0, 0, 0, 0) with (a, b, c, d) => a * at_ (prev :: ms) i + b * at_ ms i + c * at_ ms (S i) = d end.
Proof.
  induction rows as [|[[[a b] c] d] rows IH]; intros prev ms H i Hi; [cbn in Hi; lia|].
  destruct ms as [|m ms]; [contradiction|]. destruct H as [H1 H2]. destruct i as [|i].
  - cbn [nth]. unfold at_. cbn [nth]. destruct ms; exact H1.
  - cbn [nth]. cbn in Hi. exact (IH m ms H2 i ltac:(lia)).
Qed.

(** ** the pieces *)
Lemma piece_fin x0 x1 y0 y1 c0 c1 t : x0 < x1 ->
  spline_piece (Fin x0) (Fin x1) (Fin y0) (Fin y1) (Fin c0) (Fin c1) (Fin t) = Fin (spline_piece x0 x1 y0 y1 c0 c1 t).
Proof.
  intros H. unfold spline_piece.
  change (nsub (Fin x1) (Fin x0)) with (Fin (x1 - x0)). change (nsub (Fin y1) (Fin y0)) with (Fin (y1 - y0)).
  change (nsub (Fin c1) (Fin c0)) with (Fin (c1 - c0)). change (nmul (nofZ 3) (Fin (x1 - x0))) with (Fin (3 * (x1 - x0))).
  change (ndiv (Fin (c1 - c0)) (Fin (3 * (x1 - x0)))) with (xdiv (Fin (c1 - c0)) (Fin (3 * (x1 - x0)))).
  change (ndiv (Fin (y1 - y0)) (Fin (x1 - x0))) with (xdiv (Fin (y1 - y0)) (Fin (x1 - x0))).
  change (nmul (Fin (x1 - x0)) (nadd (nmul n2 (Fin c0)) (Fin c1))) with (Fin ((x1 - x0) * (2 * c0 + c1))).
  change (ndiv (Fin ((x1 - x0) * (2 * c0 + c1))) (nofZ 3)) with (xdiv (Fin ((x1 - x0) * (2 * c0 + c1))) (Fin 3)).
  rewrite !xdiv_fin by lra. reflexivity.
Qed.
Definition piece (xs ys cs : list R) (i : nat) (t : R) : R :=
  spline_piece (at_ xs i) (at_ xs (S i)) (at_ ys i) (at_ ys (S i)) (at_ cs i) (at_ cs (S i)) t.

Lemma piece_left x0 x1 y0 y1 c0 c1 : x0 < x1 -> spline_piece x0 x1 y0 y1 c0 c1 x0 = y0.
Proof. intros. unfold spline_piece. cbn. field. lra. Qed.
Lemma piece_right x0 x1 y0 y1 c0 c1 : x0 < x1 -> spline_piece x0 x1 y0 y1 c0 c1 x1 = y1.
Proof. intros. unfold spline_piece. cbn. field. lra. Qed.

Lemma cubic_at_fin xs : forall ys cs t, increasing xs -> length ys = length xs -> length cs = length xs -> (2 <= length xs)%nat ->
  cubic_at (map Fin xs) (map Fin ys) (map Fin cs) (Fin t) = Fin (cubic_at xs ys cs t).
Proof.
  induction xs as [|x0 xs IH]; intros ys cs t I Ly Lc L2; [cbn in L2; lia|].
  destruct xs as [|x1 xs]; [cbn in L2; lia|].
  destruct ys as [|y0 [|y1 ys]]; try (cbn in Ly; lia). destruct cs as [|c0 [|c1 cs]]; try (cbn in Lc; lia).
  pose proof (I 0%nat ltac:(cbn; lia)) as H01. unfold at_ in H01. cbn [nth] in H01.
  cbn [map cubic_at]. change (nleb (Fin t) (Fin x1)) with (Rleb t x1). change (nleb t x1) with (Rleb t x1).
  destruct (Rleb t x1); [now apply piece_fin|].
  destruct xs as [|x2 xs]; [now apply piece_fin|]. cbn [map].
  apply (IH (y1 :: ys) (c1 :: cs) t); try (cbn in *; lia). intros i Hi. exact (I (S i) ltac:(cbn in *; lia)).
Qed.
Lemma cubic_at_piece xs : forall ys cs i t, increasing xs -> length ys = length xs -> length cs = length xs ->
  (S i < length xs)%nat -> at_ xs i <= t <= at_ xs (S i) -> cubic_at xs ys cs t = piece xs ys cs i t.
Proof.
  induction xs as [|x0 xs IH]; intros ys cs i t I Ly Lc Hi Ht; [cbn in Hi; lia|].
  destruct xs as [|x1 xs]; [cbn in Hi; lia|].
  destruct ys as [|y0 [|y1 ys]]; try (cbn in Ly; lia). destruct cs as [|c0 [|c1 cs]]; try (cbn in Lc; lia).
  assert (I' : increasing (x1 :: xs)) by (intros j Hj; exact (I (S j) ltac:(cbn in *; lia))).
  pose proof (I 0%nat ltac:(cbn; lia)) as H01. unfold at_ in H01. cbn [nth] in H01.
  cbn [cubic_at]. change (nleb t x1) with (Rleb t x1). unfold Rleb.
  destruct i as [|i].
  - destruct (Rle_dec t x1) as [_|N]; [reflexivity|]. exfalso. unfold at_ in Ht. cbn [nth] in Ht. lra.
  - assert (E : cubic_at (x1 :: xs) (y1 :: ys) (c1 :: cs) t = piece (x1 :: xs) (y1 :: ys) (c1 :: cs) i t).
    { apply IH; try (cbn in *; lia); auto. }
    change (piece (x0 :: x1 :: xs) (y0 :: y1 :: ys) (c0 :: c1 :: cs) (S i) t) with (piece (x1 :: xs) (y1 :: ys) (c1 :: cs) i t).
    destruct (Rle_dec t x1) as [Le|N].
    + change (at_ (x0 :: x1 :: xs) (S i)) with (at_ (x1 :: xs) i) in Ht.
      destruct i as [|i].
      * unfold at_ in Ht. cbn [nth] in Ht. replace t with x1 by lra. rewrite piece_right by auto.
        pose proof (I' 0%nat ltac:(cbn in *; lia)) as H12. unfold at_ in H12. unfold piece, at_. cbn [nth] in *.
        symmetry. apply piece_left. exact H12.
      * exfalso. pose proof (L_Petrosian.inc_lt (x1 :: xs) 0 (S i) I' ltac:(lia) ltac:(cbn in *; lia)) as Q.
        unfold at_ at 1 in Q. cbn [nth] in Q. lra.
    + destruct xs as [|x2 xs]; [cbn in Hi; lia|]. exact E.
Qed.

(** ** the curvatures meet the equations *)
Lemma at_cons x l i : at_ (x :: l) (S i) = at_ l i.
Proof. reflexivity. Qed.
Lemma at_app_l l m i : (i < length l)%nat -> at_ (l ++ m) i = at_ l i.
Proof. intros. unfold at_. now apply app_nth1. Qed.
Lemma at_app_r l m i : (length l <= i)%nat -> at_ (l ++ m) i = at_ m (i - length l).
Proof. intros. unfold at_. now apply app_nth2. Qed.
Lemma nth_seq_map {X} (g : nat -> X) m i dflt : (i < m)%nat -> nth i (map g (seq 0 m)) dflt = g i.
Proof.
  intros H. rewrite nth_indep with (d' := g 0%nat) by (rewrite map_length, seq_length; lia).
  now rewrite (map_nth g), seq_nth by lia.
Qed.

Section Exists.
  Variables xs ys : list R.
  Hypothesis Ix : increasing xs.
  Hypothesis Ly : length ys = length xs.
  Hypothesis L4 : (4 <= length xs)%nat.
  Notation n := (length xs).
  Let h i := at_ xs (S i) - at_ xs i.
  Let D i := at_ ys (S i) - at_ ys i.
  Let rows := map (spline_row xs ys) (seq 0 (n - 2)).
  Let ms := thomas 0 0 rows.
  Let cs := spline_curvatures xs ys.

  Lemma hx_pos i : (S i < n)%nat -> 0 < h i.
  Proof. intros H. unfold h. pose proof (Ix i H). lra. Qed.
  Lemma row_is i : spline_row xs ys i =
    (let d := 3 * (D (S i) / h (S i) - D i / h i) in
     if Nat.eqb i 0 then (0, (h i + h (S i)) * (2 + h i / h (S i)), (h i + h (S i)) * (1 - h i / h (S i)), d)
     else if Nat.eqb i (n - 3) then ((h i + h (S i)) * (1 - h (S i) / h i), (h i + h (S i)) * (2 + h (S i) / h i), 0, d)
     else (h i, 2 * (h i + h (S i)), h (S i), d)).
  Proof. reflexivity. Qed.
  Lemma one_minus p : 0 < p -> Rabs (1 - p) < 2 + p.
  Proof. intros. unfold Rabs. destruct (Rcase_abs _); lra. Qed.
  Lemma row_dominant i : (S (S i) < n)%nat -> dominant (spline_row xs ys i).
  Proof.
    intros H. pose proof (hx_pos i ltac:(lia)) as H0. pose proof (hx_pos (S i) H) as H1. rewrite row_is. cbv zeta.
    destruct (Nat.eqb i 0); [|destruct (Nat.eqb i (n - 3))]; cbn [dominant].
    - rewrite Rabs_R0, Rabs_mult, (Rabs_pos_eq (h i + h (S i))) by lra. pose proof (one_minus (h i / h (S i)) ltac:(apply Rdiv_lt_0_compat; lra)).
      rewrite Rplus_0_l. apply Rmult_lt_compat_l; lra.
    - rewrite Rabs_R0, Rabs_mult, (Rabs_pos_eq (h i + h (S i))) by lra. pose proof (one_minus (h (S i) / h i) ltac:(apply Rdiv_lt_0_compat; lra)).
      rewrite Rplus_0_r. apply Rmult_lt_compat_l; lra.
    - rewrite !Rabs_pos_eq by lra. lra.
  Qed.
  Lemma rows_dominant : Forall dominant rows.
  Proof.
    apply Forall_forall. intros r Hr. apply in_map_iff in Hr as (i & <- & Hi). apply in_seq in Hi. apply row_dominant. lia.
  Qed.
  Lemma ms_length : length ms = (n - 2)%nat.
  Proof. unfold ms, rows. now rewrite thomas_length, map_length, seq_length. Qed.
  Lemma cs_is : cs = (at_ ms 0 + h 0%nat / h 1%nat * (at_ ms 0 - at_ ms 1))
      :: ms ++ [at_ ms (n - 3) + (at_ xs (S (n - 2)) - at_ xs (n - 2)) / (at_ xs (S (n - 3)) - at_ xs (n - 3)) * (at_ ms (n - 3) - at_ ms (n - 4))].
  Proof. reflexivity. Qed.
  Lemma cs_length : length cs = n.
  Proof. rewrite cs_is. cbn [length]. rewrite app_length, ms_length. cbn [length]. lia. Qed.
  Lemma cs_inner i : (i < n - 2)%nat -> at_ cs (S i) = at_ ms i.
  Proof. intros H. rewrite cs_is, at_cons. apply at_app_l. rewrite ms_length. lia. Qed.
  Lemma cs_first : at_ cs 0 = at_ cs 1 + h 0%nat / h 1%nat * (at_ cs 1 - at_ cs 2).
  Proof. rewrite (cs_inner 0), (cs_inner 1) by lia. reflexivity. Qed.
  Lemma cs_last : at_ cs (n - 1) = at_ cs (n - 2) + h (n - 2)%nat / h (n - 3)%nat * (at_ cs (n - 2) - at_ cs (n - 3)).
  Proof.
    pose proof (cs_inner (n - 3) ltac:(lia)) as C2. replace (S (n - 3)) with (n - 2)%nat in C2 by lia.
    pose proof (cs_inner (n - 4) ltac:(lia)) as C3. replace (S (n - 4)) with (n - 3)%nat in C3 by lia. rewrite C2, C3.
    rewrite cs_is. replace (n - 1)%nat with (S (n - 2)) by lia. rewrite at_cons, at_app_r by (rewrite ms_length; lia).
    rewrite ms_length, Nat.sub_diag. reflexivity.
  Qed.
  Lemma cs_moment i : (S (S i) < n)%nat ->
    h i * at_ cs i + 2 * (h i + h (S i)) * at_ cs (S i) + h (S i) * at_ cs (S (S i)) = 3 * (D (S i) / h (S i) - D i / h i).
  Proof.
    intros H. pose proof (hx_pos i ltac:(lia)) as H0. pose proof (hx_pos (S i) H) as H1.
    pose proof (thomas_holds rows 0 0 rows_dominant ltac:(rewrite Rabs_R0; lra)) as Ho. fold ms in Ho.
    pose proof (rows_hold_at _ _ _ Ho i) as E. unfold rows at 1 in E. rewrite map_length, seq_length in E. specialize (E ltac:(lia)).
    unfold rows in E. rewrite nth_seq_map in E by lia. rewrite row_is in E. cbv zeta in E.
    destruct (Nat.eqb_spec i 0) as [->|N0].
    - rewrite <- E. rewrite cs_first. rewrite (cs_inner 0), (cs_inner 1) by lia. field. lra.
    - destruct (Nat.eqb_spec i (n - 3)) as [Ei|N1].
      + rewrite <- E. destruct i as [|i]; [lia|]. rewrite at_cons.
        pose proof cs_last as La. replace (S (S (S i))) with (n - 1)%nat by lia. rewrite La.
        replace (n - 2)%nat with (S (S i)) by lia. replace (n - 3)%nat with (S i) by lia.
        rewrite (cs_inner (S i)), (cs_inner i) by lia. field. lra.
      + rewrite <- E. destruct i as [|i]; [lia|]. rewrite at_cons.
        rewrite (cs_inner (S i)), (cs_inner i), (cs_inner (S (S i))) by lia. ring.
  Qed.

  Definition sl i := D i / h i - h i * (2 * at_ cs i + at_ cs (S i)) / 3.
  Definition cu i := (at_ cs (S i) - at_ cs i) / (3 * h i).
  Definition bb i := if Nat.eqb i (n - 1) then sl (n - 2)%nat + 2 * at_ cs (n - 2) * h (n - 2)%nat + 3 * cu (n - 2)%nat * h (n - 2)%nat ^ 2 else sl i.

  Lemma is_spline : not_a_knot (cubic_at xs ys cs) xs ys.
  Proof.
    split; auto. split; auto. exists bb, (at_ cs), cu. split; [|split].
    - intros i Hi. cbv zeta. pose proof (hx_pos i Hi) as Hh. pose proof (Ix i Hi). repeat split.
      + intros x Hx. rewrite (cubic_at_piece xs ys cs i x Ix Ly cs_length Hi Hx).
        unfold piece, spline_piece, bb, sl, cu, h, D. replace (Nat.eqb i (n - 1)) with false by (symmetry; apply Nat.eqb_neq; lia).
        cbn [nadd nsub nmul ndiv nofZ Rnum n2]. change (@n2 R Rnum) with 2. unfold h in Hh. field. lra.
      + rewrite (cubic_at_piece xs ys cs i _ Ix Ly cs_length Hi) by lra. apply piece_right. auto.
      + fold (h i). unfold bb at 2. replace (Nat.eqb i (n - 1)) with false by (symmetry; apply Nat.eqb_neq; lia).
        unfold bb. destruct (Nat.eqb_spec (S i) (n - 1)) as [E|N].
        * replace (n - 2)%nat with i by lia. reflexivity.
        * pose proof (cs_moment i ltac:(lia)) as M. pose proof (hx_pos (S i) ltac:(lia)) as H1. unfold sl, cu.
          replace (D (S i) / h (S i)) with (D i / h i + (h i * at_ cs i + 2 * (h i + h (S i)) * at_ cs (S i) + h (S i) * at_ cs (S (S i))) / 3)
            by (rewrite M; lra).
          field. lra.
      + fold (h i). unfold cu. field. lra.
    - unfold cu. pose proof (hx_pos 0 ltac:(lia)). pose proof (hx_pos 1 ltac:(lia)). rewrite cs_first. field. lra.
    - unfold cu. pose proof (hx_pos (n - 2) ltac:(lia)). pose proof (hx_pos (n - 3) ltac:(lia)).
      replace (S (n - 2)) with (n - 1)%nat by lia. rewrite cs_last. replace (S (n - 3)) with (n - 2)%nat by lia. field. lra.
  Qed.

  Lemma step_fin l i : (S i < length l)%nat -> step_at (map Fin l) i = Fin (step_at l i).
  Proof.
    intros H. unfold step_at.
    assert (E : forall j, (j < length l)%nat -> nth j (map Fin l) nnan = Fin (nth j l 0)).
    { intros j Hj. rewrite nth_indep with (d' := Fin 0) by (rewrite map_length; lia). apply map_nth. }
    rewrite !E by lia. reflexivity.
  Qed.
  Lemma row_xr i : (S (S i) < n)%nat -> spline_row (map Fin xs) (map Fin ys) i = row_fin (spline_row xs ys i).
  Proof.
    intros H. pose proof (hx_pos i ltac:(lia)) as H0. pose proof (hx_pos (S i) H) as H1.
    unfold spline_row. rewrite !step_fin by lia. rewrite map_length. cbn [nadd nsub nmul ndiv nofZ Rnum XRnum].
    change (step_at xs i) with (h i). change (step_at xs (S i)) with (h (S i)).
    rewrite !xdiv_fin by lra. destruct (Nat.eqb i 0); [reflexivity|]. destruct (Nat.eqb i (n - 3)); reflexivity.
  Qed.
  Lemma curvatures_fin : spline_curvatures (map Fin xs) (map Fin ys) = map Fin cs.
  Proof.
    unfold spline_curvatures. rewrite map_length.
    replace (map (spline_row (map Fin xs) (map Fin ys)) (seq 0 (n - 2))) with (map row_fin rows).
    2:{ unfold rows. rewrite map_map. apply map_ext_in. intros i Hi. apply in_seq in Hi. symmetry. apply row_xr. lia. }
    change (@n0 xr _) with (Fin 0). rewrite (thomas_fin rows 0 0 rows_dominant) by (rewrite Rabs_R0; lra). fold ms.
    assert (Nm : forall i, (i < n - 2)%nat -> nth i (map Fin ms) nnan = Fin (at_ ms i)).
    { intros i Hi. rewrite nth_indep with (d' := Fin 0) by (rewrite map_length, ms_length; lia). apply map_nth. }
    cbv zeta. rewrite !Nm by lia. rewrite !step_fin by lia. cbn [nadd nsub nmul ndiv XRnum].
    pose proof (hx_pos 1 ltac:(lia)). pose proof (hx_pos (n - 3) ltac:(lia)).
    change (step_at xs 1) with (h 1%nat). change (step_at xs (n - 3)) with (h (n - 3)%nat). rewrite !xdiv_fin by lra.
    rewrite cs_is. cbn [map]. rewrite map_app. reflexivity.
  Qed.
End Exists.

Theorem interp_cubic_spline : cubic_spline interp_cubic.
Proof.
  intros xs ys I L L4. assert (Ly : length ys = length xs) by auto.
  exists (cubic_at (map Fin xs) (map Fin ys) (map Fin (spline_curvatures xs ys))), (cubic_at xs ys (spline_curvatures xs ys)).
  split; [|split].
  - unfold interp_cubic. rewrite !map_length, L, Nat.eqb_refl, <- L.
    replace (Nat.ltb (length xs) 4) with false by (symmetry; apply Nat.ltb_ge; lia). cbv zeta. now rewrite curvatures_fin.
  - intros x _. apply cubic_at_fin; auto; [|lia]. now apply cs_length.
  - now apply is_spline.
Qed.
Lemma mk_cubic_spline k : k = KCubic \/ k = KOrder 3 -> cubic_spline (mk_cubic k).
Proof. intros [->| ->]; exact interp_cubic_spline. Qed.

(** ** uniqueness *)
Lemma steps_bounded xs : increasing xs -> (2 <= length xs)%nat -> exists q, steps_within q xs.
Proof.
  intros I L.
  destruct (attained (fun i => at_ xs (S i) - at_ xs i) 0 (length xs - 2)) as (a & Ha & Ma).
  destruct (attained (fun i => - (at_ xs (S i) - at_ xs i)) 0 (length xs - 2)) as (b & Hb & Mb).
  pose proof (I a ltac:(lia)) as Pa. pose proof (I b ltac:(lia)) as Pb.
  set (u := at_ xs (S a) - at_ xs a) in *. set (v := at_ xs (S b) - at_ xs b) in *.
  exists (u / v). intros i j Hi Hj. pose proof (Ma i ltac:(lia)). pose proof (Mb j ltac:(lia)).
  assert (0 < u / v) by (apply Rdiv_lt_0_compat; unfold u, v; lra).
  apply Rle_trans with u; [lra|]. replace u with (u / v * v) at 1 by (field; unfold v; lra). apply Rmult_le_compat_l; lra.
Qed.

Theorem spline_unique f g xs ys : increasing xs -> not_a_knot f xs ys -> not_a_knot g xs ys ->
  forall x, at_ xs 0 <= x <= last_of xs -> f x = g x.
Proof.
  intros I Nf Ng x Hx. assert (L4 : (4 <= length xs)%nat) by apply Nf.
  destruct (steps_bounded xs I ltac:(lia)) as (q & St).
  set (zs := map (fun _ => 0) xs). assert (Z : forall i, at_ zs i = 0).
  { intros i. unfold at_. destruct (nth_in_or_default i zs 0) as [H|H]; auto. apply in_map_iff in H as (? & H & _). now symmetry. }
  assert (N : not_a_knot (fun x => f x - g x) xs zs).
  { destruct Nf as (_ & _ & b & c & d & Pf & F0 & F1). destruct Ng as (_ & _ & b' & c' & d' & Pg & G0 & G1).
    split; auto. split; [apply map_length|]. exists (fun i => b i - b' i), (fun i => c i - c' i), (fun i => d i - d' i).
    split; [|split; [rewrite F0, G0; reflexivity|rewrite F1, G1; reflexivity]].
    intros i Hi. cbv zeta in *. destruct (Pf i Hi) as (A1 & A2 & A3 & A4). destruct (Pg i Hi) as (B1 & B2 & B3 & B4).
    split; [|split; [|split]].
    - intros t Ht. rewrite A1, B1, Z by auto. ring.
    - rewrite A2, B2, Z. ring.
    - rewrite A3, B3. ring.
    - rewrite A4, B4. ring. }
  destruct (find_step xs x ltac:(lia) Hx) as (i & Hi & Hxi).
  assert (J : jumps_within 0 zs) by (intros j _; rewrite !Z, Rminus_0_r, Rabs_R0; lra).
  destruct (spline_overshoot (fun x => f x - g x) xs zs q 0 I St J N i x Hi Hxi) as (z & Bz & Cz).
  rewrite !Z in Bz. rewrite Rmult_0_r in Cz. assert (z = 0) by (destruct Bz; lra). subst z.
  apply Rabs_le_iff in Cz. lra.
Qed.

(** cubic polynomials are reproduced *)
Theorem spline_exact f xs ys a0 a1 a2 a3 : increasing xs -> not_a_knot f xs ys ->
  (forall i, (i < length xs)%nat -> at_ ys i = a0 + a1 * at_ xs i + a2 * at_ xs i ^ 2 + a3 * at_ xs i ^ 3) ->
  forall x, at_ xs 0 <= x <= last_of xs -> f x = a0 + a1 * x + a2 * x ^ 2 + a3 * x ^ 3.
Proof.
  intros I Nf E. apply (spline_unique f (fun x => a0 + a1 * x + a2 * x ^ 2 + a3 * x ^ 3) xs ys); auto.
  destruct Nf as (L4 & Ly & _). split; auto. split; auto.
  exists (fun i => a1 + 2 * a2 * at_ xs i + 3 * a3 * at_ xs i ^ 2), (fun i => a2 + 3 * a3 * at_ xs i), (fun _ => a3).
  split; [|auto]. intros i Hi. cbv zeta. split; [|split; [|split]].
  - intros x _. rewrite E by lia. ring.
  - symmetry. apply E. lia.
  - ring.
  - ring.
Qed.

Theorem interp_cubic_errors (xs ys : list xr) : (length xs < 4)%nat \/ length xs <> length ys -> interp_cubic xs ys = Err ValueError.
Proof.
  intros H. unfold interp_cubic. destruct (Nat.eqb_spec (length xs) (length ys)); [|reflexivity].
  destruct H as [H|H]; [|contradiction]. apply Nat.ltb_lt in H. now rewrite H.
Qed.
