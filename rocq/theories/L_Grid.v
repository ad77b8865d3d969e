(** Resampled radii and broken lines in double precision. *)
From Coq Require Import SpecFloat ZArith Reals Lra Lia.
From Flocq Require Import Core BinarySingleNaN.
From Verif Require Import Base Num Numpy M_Utils M_Petrosian M_Interp S_Petrosian S_Double S_Sums L_Double L_Double2 L_Double3 L_Double4.
Local Open Scope R_scope.

(** ** numbers that may be 0 *)
Definition fairk (k : Z) (x : R) : Prop := x = 0 \/ sized k x.
Lemma fair_k x : fair x -> fairk 200 x.
Proof. intros [H|H]; [now left|right; now apply moderate_sized]. Qed.
Lemma fairk_le j k x : (j <= k)%Z -> fairk j x -> fairk k x.
Proof. intros K [H|H]; [now left|right; now apply sized_le with j]. Qed.
Lemma fairk_abs k x : fairk k x -> Rabs x <= bpow radix2 k.
Proof. intros [->|H]; [rewrite Rabs_R0; apply bpow_ge_0|apply H]. Qed.
Lemma fd_sub k x y : (0 <= k <= 900)%Z -> double x -> double y -> fairk k (dval x) -> fairk k (dval y) ->
  double (nsub x y) /\ fairk (k + 53) (dval (nsub x y)) /\ exists d, Rabs d <= u64 /\ dval (nsub x y) = (dval x - dval y) * (1 + d).
Proof.
  intros K Dx Dy Fx Fy. destruct (dd_sub k x y) as [H1 (d & H2 & H3)]; auto; try lia; try now apply fairk_abs. split; auto. split; [|eauto].
  destruct (Req_dec (dval x) (dval y)) as [E|N]; [left; rewrite H3, E; ring|]. right.
  assert (G : sized (k + 53) (dval x - dval y)).
  { destruct Fx as [Zx|Sx]; destruct Fy as [Zy|Sy]; try lra.
    - rewrite Zx. replace (0 - dval y) with (- dval y) by ring. unfold sized. rewrite Rabs_Ropp. apply sized_le with k; [lia|exact Sy].
    - rewrite Zy, Rminus_0_r. apply sized_le with k; [lia|exact Sx].
    - apply gap; auto. }
  destruct (d_sub x y Dx Dy) as [_ E]; [apply sized_small with (k + 53)%Z; auto; lia|]. rewrite E. apply sized_rnd; auto; lia.
Qed.
Lemma fd_div j k x y : (0 <= j + k <= 1022)%Z -> double x -> double y -> fairk j (dval x) -> sized k (dval y) ->
  double (ndiv x y) /\ fairk (j + k) (dval (ndiv x y)) /\ exists d, Rabs d <= u64 /\ dval (ndiv x y) = dval x / dval y * (1 + d).
Proof.
  intros K Dx Dy [Z|Sx] Sy.
  - destruct (dd_div0 x y Dx Dy Z (sized_nz _ _ Sy)) as [A B]. split; auto. split; [now left|]. exists 0. rewrite Rabs_R0. pose proof u64_val.
    split; [lra|]. rewrite B, Z. unfold Rdiv. ring.
  - destruct (dd_div j k x y) as (A & B & C); auto. split; auto. split; auto. now right.
Qed.
Lemma fd_mul j k x y : (0 <= j + k <= 1022)%Z -> double x -> double y -> fairk j (dval x) -> fairk k (dval y) ->
  double (nmul x y) /\ fairk (j + k) (dval (nmul x y)) /\ exists d, Rabs d <= u64 /\ dval (nmul x y) = dval x * dval y * (1 + d).
Proof.
  intros K Dx Dy Fx Fy. assert (Z : dval x * dval y = 0 \/ sized j (dval x) /\ sized k (dval y)).
  { destruct Fx as [Z|Sx]; [left; rewrite Z; ring|]. destruct Fy as [Z|Sy]; [left; rewrite Z; ring|now right]. }
  destruct Z as [Z|[Sx Sy]].
  - destruct (d_mul x y Dx Dy) as [A B]; rewrite Z, rnd_0 in *; [rewrite Rabs_R0; apply bpow_gt_0|]. split; auto. split; [now left|].
    exists 0. rewrite Rabs_R0. pose proof u64_val. split; [lra|]. rewrite B. ring.
  - destruct (dd_mul j k x y) as (A & B & C); auto. split; auto. split; auto. now right.
Qed.
Lemma fd_add j x y : (0 <= j <= 1000)%Z -> double x -> double y -> fairk j (dval x) -> fairk j (dval y) ->
  double (nadd x y) /\ exists d, Rabs d <= u64 /\ dval (nadd x y) = (dval x + dval y) * (1 + d).
Proof.
  intros K Dx Dy Fx Fy. destruct (d_add x y Dx Dy) as [A B].
  - apply rnd_small. eapply Rle_trans; [apply Rabs_triang|]. apply fairk_abs in Fx. apply fairk_abs in Fy.
    apply Rle_trans with (bpow radix2 (j + 1)); [|apply bpow_le; lia]. rewrite bpow_plus. change (bpow radix2 1) with 2. lra.
  - split; auto. rewrite B. apply rnd_sum_rel; now apply double_format.
Qed.

(** ** np.linspace *)
Section Grid.
  Variables (lo hi : f64) (div : nat).
  Hypotheses (Dl : double lo) (Dh : double hi) (Fl : fair (dval lo)) (Mh : moderate (dval hi)) (Ord : 0 <= dval lo < dval hi)
    (Hd : (1 <= div)%nat) (Hd' : (Z.of_nat div <= 2 ^ 50)%Z).
  Let delta := nsub hi lo.
  Let step := ndiv delta (nofnat div).
  Let G (k : nat) : R := dval lo + INR k * ((dval hi - dval lo) / INR div).

  Lemma nat_double k : (k <= div)%nat -> double (nofnat k : f64) /\ dval (nofnat k : f64) = INR k /\ fairk 53 (INR k).
  Proof.
    intros Hk. unfold nofnat. cbn [nofZ F64num]. destruct (ofZ_double (Z.of_nat k)) as [A B]; [lia|]. split; auto. rewrite B, <- INR_IZR_INZ. split; auto.
    destruct k as [|k]; [now left|]. right. rewrite INR_IZR_INZ. apply sized_Z. lia.
  Qed.
  Lemma div_sized : sized 53 (INR div).
  Proof. rewrite INR_IZR_INZ. apply sized_Z. lia. Qed.
  Lemma div_pos : 1 <= INR div.
  Proof. change 1 with (INR 1). now apply le_INR. Qed.
  Lemma delta_ok : double delta /\ sized 253 (dval delta) /\ exists d, Rabs d <= u64 /\ dval delta = (dval hi - dval lo) * (1 + d).
  Proof.
    destruct (fd_sub 200 hi lo) as (A & B & d & C & E); auto; try lia; [right; now apply moderate_sized|now apply fair_k|].
    split; auto. split; [|eauto]. destruct B as [Z|S]; auto. exfalso. rewrite Z in E. apply abs_both in C. pose proof u64_val.
    symmetry in E. apply Rmult_integral in E. lra.
  Qed.
  Lemma step_grid : double step /\ sized 306 (dval step) /\ exists d, Rabs d <= 9 / 4 * u64 /\ dval step = (dval hi - dval lo) / INR div * (1 + d).
  Proof.
    destruct delta_ok as (A & B & d1 & E1 & V1). destruct (nat_double div) as (N1 & N2 & _); auto. pose proof div_sized as Sd. rewrite <- N2 in Sd.
    destruct (dd_div 253 53 delta (nofnat div)) as (A2 & B2 & d2 & E2 & V2); auto; try lia. fold step in A2, B2, V2. split; auto. split; auto.
    exists ((1 + d1) * (1 + d2) - 1). pose proof u64_val. apply abs_both in E1. apply abs_both in E2. split; [apply Rabs_le; split; nra|].
    rewrite V2, V1, N2. field. pose proof div_pos. lra.
  Qed.
  Lemma point k : (k <= div)%nat -> let x := nadd (nmul (nofnat k) step) lo in double x /\ Rabs (dval x - G k) <= 5 * u64 * dval hi.
  Proof.
    intros Hk x. destruct step_grid as (A & B & d & E & V). destruct (nat_double k Hk) as (K1 & K2 & K3). rewrite <- K2 in K3.
    destruct (fd_mul 53 306 (nofnat k) step) as (A2 & B2 & d2 & E2 & V2); auto; try lia; [now right|].
    destruct (fd_add 359 (nmul (nofnat k) step) lo) as (A3 & d3 & E3 & V3); auto; try lia; [apply fairk_le with 200%Z; [lia|now apply fair_k]|].
    split; [exact A3|]. unfold x. rewrite V3, V2, K2, V. unfold G. pose proof u64_val as U. pose proof div_pos as P.
    set (t := INR k * ((dval hi - dval lo) / INR div)). 
    assert (T : 0 <= t <= dval hi - dval lo).
    { unfold t. assert (Q : 0 <= (dval hi - dval lo) / INR div) by (apply Rmult_le_pos; [lra|apply Rlt_le, Rinv_0_lt_compat; lra]).
      split; [apply Rmult_le_pos; [apply pos_INR|exact Q]|]. apply Rle_trans with (INR div * ((dval hi - dval lo) / INR div)); [apply Rmult_le_compat_r; auto; now apply le_INR|].
      apply Req_le. field. lra. }
    replace (INR k * ((dval hi - dval lo) / INR div * (1 + d)) * (1 + d2)) with (t * ((1 + d) * (1 + d2))) by (unfold t; ring).
    apply abs_both in E. apply abs_both in E2. apply abs_both in E3. remember ((1 + d) * (1 + d2) - 1) as f eqn:Ef.
    assert (F : - (7 / 2 * u64) <= f <= 7 / 2 * u64) by (rewrite Ef; split; nra).
    replace ((1 + d) * (1 + d2)) with (1 + f) by (rewrite Ef; ring).
    replace ((t * (1 + f) + dval lo) * (1 + d3) - (dval lo + t)) with (t * (f * (1 + d3)) + (t + dval lo) * d3) by ring.
    assert (F2 : - (4 * u64) <= f * (1 + d3) <= 4 * u64) by (split; nra). set (f2 := f * (1 + d3)) in *. clearbody f2. set (u := u64) in *. clearbody u.
    assert (X : Rabs (t * f2) <= 4 * u * t). { rewrite Rabs_mult, (Rabs_pos_eq t) by lra. rewrite Rmult_comm. apply Rmult_le_compat_r; [lra|]. apply Rabs_le. lra. }
    assert (Y : Rabs ((t + dval lo) * d3) <= u * (t + dval lo)). { rewrite Rabs_mult, (Rabs_pos_eq (t + dval lo)) by lra. rewrite Rmult_comm. apply Rmult_le_compat_r; [lra|]. apply Rabs_le. lra. }
    eapply Rle_trans; [apply Rabs_triang|]. assert (u * t <= u * (dval hi - dval lo)) by (apply Rmult_le_compat_l; lra).
    assert (0 <= u * dval lo) by (apply Rmult_le_pos; lra). lra.
  Qed.
  Lemma start : dval (nadd (nmul (nofnat 0) step) lo) = dval lo.
  Proof.
    destruct step_grid as (A & B & d & E & V). destruct (nat_double 0 ltac:(lia)) as (K1 & K2 & K3). rewrite <- K2 in K3.
    destruct (fd_mul 53 306 (nofnat 0) step) as (A2 & B2 & d2 & E2 & V2); auto; try lia; [now right|].
    rewrite K2 in V2. cbn [INR] in V2. assert (Z : dval (nmul (nofnat 0) step) = 0) by (rewrite V2; ring).
    destruct (d_add (nmul (nofnat 0) step) lo A2 Dl) as [_ H]; rewrite Z, Rplus_0_l in *.
    - rewrite rnd_id by (now apply double_format). eapply Rle_lt_trans; [apply (fairk_abs 200); now apply fair_k|]. apply bpow_lt. lia.
    - rewrite H. apply rnd_id. now apply double_format.
  Qed.
  Lemma linspace_double : let g := linspace lo hi (S div) in length g = S div /\ Forall double g /\
    (forall k, (k <= div)%nat -> Rabs (at_ (map dval g) k - G k) <= 5 * u64 * dval hi) /\ nth div g n0 = hi /\ at_ (map dval g) 0 = dval lo /\
    (10 * u64 * dval hi < (dval hi - dval lo) / INR div -> increasing (map dval g)).
  Proof.
    intros g. destruct step_grid as (A & B & _). pose proof (sized_nz _ _ B) as Nz.
    set (v := fun k => if Nat.eqb k div then hi else nadd (nmul (nofnat k) step) lo).
    assert (Eg : g = map v (seq 0 (S div))).
    { assert (Un : linspace lo hi (S div) = tabulate (S div) (fun k => if Nat.eqb k div then hi else if neqb step (nofZ 0) then nadd (nmul (ndiv (nofnat k) (nofnat div)) delta) lo
        else nadd (nmul (nofnat k) step) lo)) by (unfold delta, step; clear - Hd; destruct div; [lia|reflexivity]).
      unfold g. rewrite Un. unfold tabulate. apply map_ext. intros k. unfold v.
      destruct (Nat.eqb k div); auto. rewrite d_eqb; auto; [|split; [reflexivity|exact I]]. change (dval (nofZ 0)) with 0. now rewrite Reqb_false. }
    assert (Lg : length g = S div) by (rewrite Eg, map_length, seq_length; auto).
    assert (At : forall k, (k <= div)%nat -> nth k g n0 = v k).
    { intros k Hk. rewrite Eg. rewrite nth_indep with (d' := v 0%nat) by (rewrite map_length, seq_length; lia). rewrite map_nth, seq_nth by lia. reflexivity. }
    assert (AtR : forall k, (k <= div)%nat -> at_ (map dval g) k = dval (v k)). { intros k Hk. rewrite dval_at. f_equal. now apply At. }
    assert (Er : forall k, (k <= div)%nat -> Rabs (dval (v k) - G k) <= 5 * u64 * dval hi).
    { intros k Hk. unfold v. destruct (Nat.eqb_spec k div) as [->|N]; [|apply (point k Hk)].
      pose proof div_pos. replace (dval hi - G div) with 0 by (unfold G; field; lra). rewrite Rabs_R0. pose proof u64_val. apply Rmult_le_pos; lra. }
    split; auto. split; [|split; [|split; [|split]]].
    - rewrite Eg. apply Forall_forall. intros x Hx. apply in_map_iff in Hx. destruct Hx as (k & <- & Hk). apply in_seq in Hk. unfold v.
      destruct (Nat.eqb_spec k div); auto. apply point. lia.
    - intros k Hk. rewrite AtR by auto. auto.
    - rewrite At by auto. unfold v. now rewrite Nat.eqb_refl.
    - rewrite AtR by lia. unfold v. destruct (Nat.eqb_spec 0 div); [lia|]. apply start.
    - intros Gap k Hk. rewrite map_length, Lg in Hk. rewrite !AtR by lia. pose proof (Er k ltac:(lia)) as E1. pose proof (Er (S k) ltac:(lia)) as E2.
      apply abs_both in E1. apply abs_both in E2. unfold G in *. rewrite S_INR in E2. lra.
  Qed.
End Grid.

(** ** one chord *)
Lemma slope_errors u d1 d2 d3 d4 d5 : 0 < u <= / 100 -> Rabs d1 <= u -> Rabs d2 <= u -> Rabs d3 <= u -> Rabs d4 <= u -> Rabs d5 <= u ->
  Rabs ((1 + d1) * (1 + d3) * (1 + d4) * (1 + d5) / (1 + d2) - 1) <= 6 * u.
Proof.
  intros U H1 H2 H3 H4 H5. apply abs_both in H1. apply abs_both in H2. apply abs_both in H3. apply abs_both in H4. apply abs_both in H5.
  set (X := (1 + d1) * (1 + d3) * (1 + d4) * (1 + d5)).
  assert (Xu : (1 - u) * (1 - u) * ((1 - u) * (1 - u)) <= X <= (1 + u) * (1 + u) * ((1 + u) * (1 + u))).
  { unfold X. rewrite (Rmult_assoc ((1 + d1) * (1 + d3))). split; (apply Rmult_le_compat; [apply Rmult_le_pos; lra|apply Rmult_le_pos; lra|apply Rmult_le_compat; lra|apply Rmult_le_compat; lra]). }
  set (X' := X) in *. clearbody X'. clear X. assert (E : X' / (1 + d2) * (1 + d2) = X') by (field; lra). set (q := X' / (1 + d2)) in *. clearbody q.
  set (a := u * u) in *. assert (A : 0 <= a <= u / 100) by (unfold a; split; nra).
  assert (L1 : (1 + u) * (1 + u) * ((1 + u) * (1 + u)) <= 1 + 4 * u + 7 * a).
  { replace ((1 + u) * (1 + u) * ((1 + u) * (1 + u))) with (1 + 4 * u + 6 * a + (4 * a * u + a * a)) by (unfold a; ring). assert (4 * a * u + a * a <= a) by nra. lra. }
  assert (L2 : 1 - 4 * u <= (1 - u) * (1 - u) * ((1 - u) * (1 - u))).
  { replace ((1 - u) * (1 - u) * ((1 - u) * (1 - u))) with (1 - 4 * u + 6 * a + (a * a - 4 * a * u)) by (unfold a; ring). assert (4 * a * u <= a) by nra. nra. }
  apply Rabs_le. split; apply Rmult_le_reg_r with (1 + d2); try lra; rewrite Rmult_minus_distr_r, E; nra.
Qed.
Lemma chord_double (x0 x1 y0 y1 q : f64) (M : R) : double x0 -> double x1 -> double y0 -> double y1 -> double q ->
  fair (dval x0) -> fair (dval x1) -> fair (dval y0) -> fair (dval y1) -> fair (dval q) ->
  dval x0 < dval x1 -> dval x0 <= dval q <= dval x1 -> Rabs (dval y0) <= M -> Rabs (dval y1) <= M ->
  let z := nadd (nmul (ndiv (nsub y1 y0) (nsub x1 x0)) (nsub q x0)) y0 in
  double z /\ Rabs (dval z - (dval y0 + (dval q - dval x0) / (dval x1 - dval x0) * (dval y1 - dval y0))) <= 14 * u64 * M.
Proof.
  intros D0 D1 E0 E1 Dq F0 F1 G0 G1 Fq Lt In M0 M1 z. pose proof u64_val as U.
  destruct (fd_sub 200 y1 y0) as (A1 & B1 & d1 & K1 & V1); auto using fair_k; try lia.
  destruct (fd_sub 200 x1 x0) as (A2 & B2 & d2 & K2 & V2); auto using fair_k; try lia.
  destruct (fd_sub 200 q x0) as (A4 & B4 & d4 & K4 & V4); auto using fair_k; try lia.
  assert (S2 : sized 253 (dval (nsub x1 x0))).
  { destruct B2 as [Z|S]; auto. exfalso. rewrite Z in V2. apply abs_both in K2. symmetry in V2. apply Rmult_integral in V2. lra. }
  destruct (fd_div 253 253 (nsub y1 y0) (nsub x1 x0)) as (A3 & B3 & d3 & K3 & V3); auto; try lia.
  destruct (fd_mul 506 253 (ndiv (nsub y1 y0) (nsub x1 x0)) (nsub q x0)) as (A5 & B5 & d5 & K5 & V5); auto; try lia.
  destruct (fd_add 759 (nmul (ndiv (nsub y1 y0) (nsub x1 x0)) (nsub q x0)) y0) as (A6 & d6 & K6 & V6); auto; try lia.
  { apply fairk_le with 200%Z; [lia|now apply fair_k]. }
  split; [exact A6|]. unfold z. rewrite V6, V5, V3, V1, V2, V4. pose proof (slope_errors u64 d1 d2 d3 d4 d5 ltac:(lra) K1 K2 K3 K4 K5) as S.
  apply abs_both in K2. apply abs_both in K6. set (f := (1 + d1) * (1 + d3) * (1 + d4) * (1 + d5) / (1 + d2) - 1) in *.
  set (t := (dval q - dval x0) / (dval x1 - dval x0)).
  replace ((dval y1 - dval y0) * (1 + d1) / ((dval x1 - dval x0) * (1 + d2)) * (1 + d3) * ((dval q - dval x0) * (1 + d4)) * (1 + d5))
    with (t * (dval y1 - dval y0) * (1 + f)) by (unfold t, f; field; split; lra).
  assert (T : 0 <= t <= 1).
  { unfold t. split; [apply Rmult_le_pos; [lra|apply Rlt_le, Rinv_0_lt_compat; lra]|]. apply Rmult_le_reg_r with (dval x1 - dval x0); [lra|]. unfold Rdiv. rewrite Rmult_assoc, Rinv_l by lra. lra. }
  clearbody t f. apply abs_both in S. apply abs_both in M0. apply abs_both in M1. set (a := dval y0) in *. set (b := dval y1) in *. set (u := u64) in *. clearbody a b u.
  assert (C : - M <= a + t * (b - a) <= M) by (split; nra).
  assert (W : - (2 * M) <= t * (b - a) <= 2 * M) by (split; nra).
  replace ((t * (b - a) * (1 + f) + a) * (1 + d6) - (a + t * (b - a))) with (t * (b - a) * (f * (1 + d6)) + (a + t * (b - a)) * d6) by ring.
  assert (F2 : - (13 / 2 * u) <= f * (1 + d6) <= 13 / 2 * u) by (split; nra). set (g := f * (1 + d6)) in *. clearbody g.
  set (c := a + t * (b - a)) in *. set (w := t * (b - a)) in *. clearbody c w. assert (0 <= M) by lra.
  assert (X : Rabs (w * g) <= 2 * M * (13 / 2 * u)). { rewrite Rabs_mult. apply Rmult_le_compat; try apply Rabs_pos; apply Rabs_le; lra. }
  assert (Y : Rabs (c * d6) <= M * u). { rewrite Rabs_mult. apply Rmult_le_compat; try apply Rabs_pos; apply Rabs_le; lra. }
  eapply Rle_trans; [apply Rabs_triang|]. lra.
Qed.

(** ** the broken line *)
Lemma line_at_double (xs : list f64) : forall (ys : list f64) (q : f64) (M : R), length ys = length xs -> (2 <= length xs)%nat -> Forall double xs -> Forall double ys ->
  Forall (fun x => fair (dval x)) xs -> Forall (fun y => fair (dval y) /\ Rabs (dval y) <= M) ys -> double q -> fair (dval q) ->
  increasing (map dval xs) -> at_ (map dval xs) 0 <= dval q <= at_ (map dval xs) (length xs - 1) ->
  double (linear_at xs ys q) /\ forall i, (S i < length xs)%nat -> at_ (map dval xs) i <= dval q <= at_ (map dval xs) (S i) ->
    Rabs (dval (linear_at xs ys q) - (at_ (map dval ys) i + (dval q - at_ (map dval xs) i) / (at_ (map dval xs) (S i) - at_ (map dval xs) i) *
       (at_ (map dval ys) (S i) - at_ (map dval ys) i))) <= 14 * u64 * M.
Proof.
  induction xs as [|x0 xs IH]; intros ys q M Ll L2 Dx Dy Fx Fy Dq Fq Inc In; [cbn in L2; lia|].
  destruct xs as [|x1 rest]; [cbn in L2; lia|]. destruct ys as [|y0 [|y1 ys]]; cbn [length] in Ll; try lia.
  inversion Dx as [|? ? Dx0 Dx']; subst. inversion Dx' as [|? ? Dx1 _]; subst. inversion Dy as [|? ? Dy0 Dy']; subst. inversion Dy' as [|? ? Dy1 _]; subst.
  inversion Fx as [|? ? Fx0 Fx']; subst. inversion Fx' as [|? ? Fx1 _]; subst. inversion Fy as [|? ? Fy0 Fy']; subst. inversion Fy' as [|? ? Fy1 _]; subst.
  assert (L01 : dval x0 < dval x1) by (apply (Inc 0%nat); cbn; lia).
  assert (Inc' : increasing (map dval (x1 :: rest))). { intros i Hi. apply (Inc (S i)). cbn [map length] in *. lia. }
  assert (X0 : at_ (map dval (x0 :: x1 :: rest)) 0 = dval x0) by reflexivity. rewrite X0 in In.
  destruct Fy0 as [Fy0 My0]. destruct Fy1 as [Fy1 My1].
  cbn [linear_at]. rewrite d_leb by auto. 
  assert (Chord : dval q <= dval x1 -> let z := nadd (nmul (ndiv (nsub y1 y0) (nsub x1 x0)) (nsub q x0)) y0 in double z /\
     forall i, (S i < S (S (length rest)))%nat -> at_ (map dval (x0 :: x1 :: rest)) i <= dval q <= at_ (map dval (x0 :: x1 :: rest)) (S i) ->
       Rabs (dval z - (at_ (map dval (y0 :: y1 :: ys)) i + (dval q - at_ (map dval (x0 :: x1 :: rest)) i) / (at_ (map dval (x0 :: x1 :: rest)) (S i) - at_ (map dval (x0 :: x1 :: rest)) i) *
       (at_ (map dval (y0 :: y1 :: ys)) (S i) - at_ (map dval (y0 :: y1 :: ys)) i))) <= 14 * u64 * M).
  { intros Hq z. destruct (chord_double x0 x1 y0 y1 q M) as [C1 C2]; auto; [lra|]. split; auto. intros i Hi Hqi. destruct i as [|i]; [exact C2|].
    assert (Hx1 : dval x1 <= at_ (map dval (x0 :: x1 :: rest)) (S i)).
    { clear - Inc' Hi. change (at_ (map dval (x0 :: x1 :: rest)) (S i)) with (at_ (map dval (x1 :: rest)) i). induction i as [|i IHi]; [apply Rle_refl|].
      specialize (IHi ltac:(lia)). specialize (Inc' i). cbn [length map] in Inc'. rewrite map_length in Inc'. specialize (Inc' ltac:(lia)).
      eapply Rle_trans; [exact IHi|]. apply Rlt_le. exact Inc'. }
    assert (Eq : dval q = dval x1) by lra. assert (i = 0%nat).
    { destruct i as [|i]; auto. exfalso. change (at_ (map dval (x0 :: x1 :: rest)) (S (S i))) with (at_ (map dval (x1 :: rest)) (S i)) in *.
      assert (Lt : dval x1 < at_ (map dval (x1 :: rest)) (S i)).
      { clear - Inc' Hi. induction i as [|i IHi]; [apply (Inc' 0%nat); cbn [map length]; rewrite map_length; lia|].
        eapply Rlt_trans; [apply IHi; lia|]. apply (Inc' (S i)). cbn [map length]. rewrite map_length. lia. }
      lra. }
    subst i. change (at_ (map dval (y0 :: y1 :: ys)) 1) with (dval y1). change (at_ (map dval (x0 :: x1 :: rest)) 1) with (dval x1).
    rewrite Eq in C2 |- *. replace ((dval x1 - dval x1) / _ * _) with 0 by (unfold Rdiv; ring). rewrite Rplus_0_r.
    replace (dval y0 + (dval x1 - dval x0) / (dval x1 - dval x0) * (dval y1 - dval y0)) with (dval y1) in C2 by (field; lra). exact C2. }
  destruct (Rleb_spec (dval q) (dval x1)) as [Hq|Hq]; [apply Chord; auto|]. destruct rest as [|x2 rest].
  - exfalso. apply Hq. apply In.
  - destruct (IH (y1 :: ys) q M) as [A B]; auto; try (cbn [length] in *; lia).
    + split; [apply Rlt_le, Rnot_le_lt; exact Hq|]. destruct In as [_ In]. cbn [length] in In |- *. replace (S (S (length rest)) - 1)%nat with (S (length rest)) by lia.
      replace (S (S (S (length rest))) - 1)%nat with (S (S (length rest))) in In by lia. exact In.
    + split; auto. intros i Hi Hqi. destruct i as [|i]; [exfalso; apply Hq; apply Hqi|]. apply (B i); [cbn [length] in *; lia|exact Hqi].
Qed.
