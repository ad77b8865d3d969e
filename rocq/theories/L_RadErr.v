(** The error of the Petrosian radius in double precision. *)
From Coq Require Import SpecFloat ZArith Reals Lra Lia.
From Flocq Require Import Core BinarySingleNaN Relative.
From Verif Require Import Base Num Numpy M_Utils M_Petrosian S_Petrosian S_Double S_Sums S_RadErr L_Double L_Double2 L_Double3 L_Double4 L_PetroR L_Sums L_Grid L_Near L_PetErr.
Local Open Scope R_scope.

(** the run with errors in terms of three runs without *)
Lemma three_runs (mk : kind -> list f64 -> list f64 -> result (f64 -> f64)) r p0 p e0 e eta ik num x : length e = length p ->
  calculate_petrosian_r mk r (p0 :: p) None eta ik num = Ok (x, nnan) ->
  calculate_petrosian_r mk r (p0 :: p) (Some (e0 :: e)) eta ik num =
    if nisnan x then Ok (x, nnan)
    else do u <- calculate_petrosian_r mk r (p0 :: map2 nadd p e) None eta ik num;
         do l <- calculate_petrosian_r mk r (p0 :: map2 nsub p e) None eta ik num;
         Ok (x, ndiv (nsub (fst u) (fst l)) n2).
Proof.
  intros Le H. unfold calculate_petrosian_r in *. destruct (set0 n0 r) as [r'|]; [|discriminate]. cbn [bind set0] in *.
  destruct (get_interpolated_values mk r' (n1 :: p) num ik) as [rp|]; [|discriminate]. cbn [bind] in *.
  destruct (pick (fst rp) (closest_value_index eta (snd rp) false)) as [y|]; [|discriminate]. cbn [bind] in *. injection H as ->.
  destruct (nisnan x); [reflexivity|]. unfold np_map2. cbn [length]. assert (Eq : Nat.eqb (S (length p)) (S (length e)) = true) by (apply Nat.eqb_eq; f_equal; symmetry; exact Le). rewrite Eq. cbn [bind map2].
  change (nadd n1 n0 : f64) with (n1 : f64). change (nsub n1 n0 : f64) with (n1 : f64).
  destruct (get_interpolated_values mk r' (n1 :: map2 nadd p e) num ik) as [up|er]; cbn [bind]; [|reflexivity].
  destruct (pick (fst up) (closest_value_index eta (snd up) false)) as [yu|er]; cbn [bind fst]; [|reflexivity].
  destruct (get_interpolated_values mk r' (n1 :: map2 nsub p e) num ik) as [lo|er]; cbn [bind]; [|reflexivity].
  destruct (pick (fst lo) (closest_value_index eta (snd lo) false)) as [yl|er]; reflexivity.
Qed.

Lemma two_double : double (n2 : f64) /\ dval (n2 : f64) = 2.
Proof. apply (ofZ_double 2). lia. Qed.
Lemma sample_reported (mk : kind -> list f64 -> list f64 -> result (f64 -> f64)) r p0 p eta num :
  length r = S (length p) -> double eta -> Forall double p -> Rabs (dval eta) <= 2 ^ 1000 -> Forall (fun x => Rabs (dval x) <= 2 ^ 1000) p ->
  exists x, calculate_petrosian_r mk r (p0 :: p) None eta None num = Ok (x, nnan) /\ reported (n0 :: tl r) (1 :: map dval p) (dval eta) x /\ (x = nnan \/ In x (n0 :: tl r)).
Proof.
  intros Lr De Dp Be Bp. destruct (sample_double mk r p0 p eta num Lr De Dp Be Bp) as (x & H & K). cbv zeta in K. exists x. split; auto.
  destruct K as [[K1 K2]|(c & i & K1 & K2 & K3 & K4)]; [split; [left; auto|left; auto]|]. 
  assert (Hi : (i < length (n0 :: tl r))%nat). { destruct K1 as [K1 _]. cbn [length] in K1 |- *. rewrite map_length in K1. destruct r; [discriminate|]. cbn [tl length] in *. lia. }
  split; [|right; rewrite K3; now apply nth_In]. right. exists c, i. split; auto. split; auto. split; auto. rewrite K3. now apply nth_indep.
Qed.
Lemma map2_entries (f : f64 -> f64 -> f64) (p : list f64) : forall e i, length e = length p -> (i < length p)%nat -> nth i (map2 f p e) dz = f (nth i p dz) (nth i e dz).
Proof. induction p as [|x p IH]; intros [|y e] [|i] L Hi; cbn in *; try lia; auto. apply IH; lia. Qed.
Lemma map2_lenp (f : f64 -> f64 -> f64) (p : list f64) : forall e, length e = length p -> length (map2 f p e) = length p.
Proof. induction p as [|x p IH]; intros [|y e] L; cbn in *; try lia; auto. Qed.
Lemma map2_all (P : f64 -> Prop) (f : f64 -> f64 -> f64) p e : length e = length p -> (forall i, (i < length p)%nat -> P (f (nth i p dz) (nth i e dz))) -> Forall P (map2 f p e).
Proof.
  intros L H. apply Forall_forall. intros x Hx. apply (In_nth _ _ dz) in Hx. destruct Hx as (i & Hi & <-). assert (Hi' : (i < length p)%nat) by (assert (Hm : length (map2 f p e) = length p) by (now apply map2_lenp); rewrite <- Hm; exact Hi). rewrite map2_entries by auto. now apply H.
Qed.
Lemma radius_errors (mk : kind -> list f64 -> list f64 -> result (f64 -> f64)) r p0 p e0 e eta num :
  length r = S (length p) -> length e = length p -> double eta -> Forall double (tl r) -> Forall fair (map dval (tl r)) -> Forall double p -> Forall double e ->
  Rabs (dval eta) <= 2 ^ 1000 -> Forall (fun x => Rabs x <= 2 ^ 998) (map dval p) -> Forall (fun x => Rabs x <= 2 ^ 998) (map dval e) ->
  exists x dx, calculate_petrosian_r mk r (p0 :: p) (Some (e0 :: e)) eta None num = Ok (x, dx) /\
    reported (n0 :: tl r) (1 :: map dval p) (dval eta) x /\ (x = nnan -> dx = nnan) /\
    (x <> nnan -> exists U L xu xl, shifted 1 (map dval p) (map dval e) U /\ shifted (-1) (map dval p) (map dval e) L /\
      reported (n0 :: tl r) (1 :: U) (dval eta) xu /\ reported (n0 :: tl r) (1 :: L) (dval eta) xl /\
      ((xu = nnan \/ xl = nnan) -> dx = nnan) /\ (xu <> nnan -> xl <> nnan -> double dx /\ within 3 ((dval xu - dval xl) / 2) (dval dx))).
Proof.
  intros Lr Le De Dr Fr Dp Dee Be Bp Bee.
  assert (Pw : forall k, bpow radix2 (Z.of_nat k) = 2 ^ k) by (intros k; rewrite bpow_powerRZ, <- pow_powerRZ; reflexivity).
  assert (P1 : 2 ^ 998 = bpow radix2 998) by (rewrite <- Pw; reflexivity). assert (P2 : 2 ^ 1000 = bpow radix2 1000) by (rewrite <- Pw; reflexivity).
  assert (P4 : bpow radix2 1000 = 4 * bpow radix2 998) by (replace 1000%Z with (2 + 998)%Z by reflexivity; rewrite bpow_plus; reflexivity). pose proof (bpow_gt_0 radix2 998) as P0.
  assert (At : forall l i, Forall double l -> Forall (fun x => Rabs x <= 2 ^ 998) (map dval l) -> (i < length l)%nat -> double (nth i l dz) /\ Rabs (dval (nth i l dz)) <= bpow radix2 998).
  { intros l i D B Hi. split; [now apply all_at|]. rewrite <- P1. rewrite Forall_forall in B. apply B. apply in_map. now apply nth_In. }
  pose proof u64_val as U.
  assert (Add : forall i, (i < length p)%nat -> double (nadd (nth i p dz) (nth i e dz)) /\ exists d, Rabs d <= u64 /\ dval (nadd (nth i p dz) (nth i e dz)) = (dval (nth i p dz) + dval (nth i e dz)) * (1 + d)).
  { intros i Hi. destruct (At p i Dp Bp Hi) as [X1 X2]. destruct (At e i Dee Bee ltac:(rewrite Le; exact Hi)) as [Y1 Y2]. destruct (d_add _ _ X1 Y1) as [A B].
    - apply rnd_small. eapply Rle_trans; [apply Rabs_triang|]. apply Rle_trans with (bpow radix2 1000); [lra|apply bpow_le; lia].
    - split; auto. rewrite B. apply rnd_sum_rel; now apply double_format. }
  assert (Sub : forall i, (i < length p)%nat -> double (nsub (nth i p dz) (nth i e dz)) /\ exists d, Rabs d <= u64 /\ dval (nsub (nth i p dz) (nth i e dz)) = (dval (nth i p dz) - dval (nth i e dz)) * (1 + d)).
  { intros i Hi. destruct (At p i Dp Bp Hi) as [X1 X2]. destruct (At e i Dee Bee ltac:(rewrite Le; exact Hi)) as [Y1 Y2]. apply (dd_sub 998); auto; lia. }
  assert (Small : forall (f : f64 -> f64 -> f64) (g : R -> R -> R), (forall a b, Rabs (g a b) <= Rabs a + Rabs b) ->
     (forall i, (i < length p)%nat -> double (f (nth i p dz) (nth i e dz)) /\ exists d, Rabs d <= u64 /\ dval (f (nth i p dz) (nth i e dz)) = g (dval (nth i p dz)) (dval (nth i e dz)) * (1 + d)) ->
     Forall double (map2 f p e) /\ Forall (fun x => Rabs (dval x) <= 2 ^ 1000) (map2 f p e)).
  { intros f g G K. split; apply map2_all; auto; intros i Hi; destruct (K i Hi) as (K1 & d & K2 & K3); auto. apply Rle_trans with (Rabs (g (dval (nth i p dz)) (dval (nth i e dz)) * (1 + d))); [right; f_equal; exact K3|]. rewrite Rabs_mult, P2, P4.
    destruct (At p i Dp Bp Hi) as [X1 X2]. destruct (At e i Dee Bee ltac:(rewrite Le; exact Hi)) as [Y1 Y2]. specialize (G (dval (nth i p dz)) (dval (nth i e dz))). apply abs_both in K2.
    replace (4 * bpow radix2 998) with (2 * bpow radix2 998 * 2) by ring. apply Rmult_le_compat; try apply Rabs_pos; [lra|apply Rabs_le; lra]. }
  destruct (Small nadd Rplus Rabs_triang Add) as [A1 A2]. destruct (Small nsub Rminus) as [S1 S2]; auto. { intros a b. unfold Rminus. eapply Rle_trans; [apply Rabs_triang|]. rewrite Rabs_Ropp. lra. }
  assert (Lu : length r = S (length (map2 nadd p e))) by (rewrite map2_lenp; auto). assert (Ll : length r = S (length (map2 nsub p e))) by (rewrite map2_lenp; auto).
  assert (Bp' : Forall (fun x => Rabs (dval x) <= 2 ^ 1000) p). { apply Forall_forall. intros x Hx. rewrite Forall_forall in Bp. specialize (Bp (dval x) (in_map dval p x Hx)). lra. }
  destruct (sample_reported mk r p0 p eta num Lr De Dp Be Bp') as (x & X1 & X2 & X3).
  destruct (sample_reported mk r p0 _ eta num Lu De A1 Be A2) as (xu & U1 & U2 & U3). destruct (sample_reported mk r p0 _ eta num Ll De S1 Be S2) as (xl & L1 & L2 & L3).
  pose proof (three_runs mk r p0 p e0 e eta None num x Le X1) as T. rewrite U1, L1 in T. cbn [bind fst] in T.
  assert (Nan : forall y, y = nnan \/ In y (n0 :: tl r) -> nisnan y = true /\ y = nnan \/ double y /\ fairk 200 (dval y)).
  { intros y [->|[<-|Hy]]; [left; auto|right; split; [split; [reflexivity|exact I]|now left]|right]. rewrite Forall_forall in Dr, Fr. split; auto. apply fair_k. apply Fr. now apply in_map. }
  assert (NotNan : forall y, y <> nnan -> nisnan y = false). { intros y H. destruct y; auto. now elim H. }
  destruct (nisnan x) eqn:En.
  - exists x, nnan. split; auto. split; auto. split; auto. intros H. apply NotNan in H. congruence.
  - exists x, (ndiv (nsub xu xl) n2). split; auto. split; auto. split; [intros ->; discriminate|]. intros _. exists (map dval (map2 nadd p e)), (map dval (map2 nsub p e)), xu, xl.
    split; [|split; [|split; [exact U2|split; [exact L2|split]]]].
    + split; [rewrite !map_length; now apply map2_lenp|]. intros i Hi. rewrite map_length in Hi. rewrite !dval_at, map2_entries by auto. destruct (Add i Hi) as (_ & d & K2 & K3). rewrite K3.
      match goal with |- Rabs ?z <= _ => replace z with (d * (dval (nth i p dz) + 1 * dval (nth i e dz))) by ring end. rewrite Rabs_mult. apply Rmult_le_compat_r; auto. apply Rabs_pos.
    + split; [rewrite !map_length; now apply map2_lenp|]. intros i Hi. rewrite map_length in Hi. rewrite !dval_at, map2_entries by auto. destruct (Sub i Hi) as (_ & d & K2 & K3). rewrite K3.
      match goal with |- Rabs ?z <= _ => replace z with (d * (dval (nth i p dz) + -1 * dval (nth i e dz))) by ring end. rewrite Rabs_mult. apply Rmult_le_compat_r; auto. apply Rabs_pos.
    + intros [->| ->]; [reflexivity|]. destruct (Nan xu U3) as [[_ ->]|[[_ D] _]]; [reflexivity|]. destruct xu; try contradiction; reflexivity.
    + intros Hu Hl. destruct (Nan xu U3) as [[_ C]|[Du Fu]]; [contradiction|]. destruct (Nan xl L3) as [[_ C]|[Dl Fl]]; [contradiction|].
      destruct (fd_sub 200 xu xl) as (Q1 & Q2 & d1 & Q3 & Q4); auto; try lia. destruct two_double as [T1 T2].
      destruct (fd_div 253 53 (nsub xu xl) n2) as (R1 & R2 & d2 & R3 & R4); auto; try lia. { rewrite T2. apply (sized_Z 2). lia. }
      split; auto. rewrite R4, Q4, T2. assert (N : near 2 ((dval xu - dval xl) / 2) ((dval xu - dval xl) * (1 + d1) / 2 * (1 + d2))). { apply (near_round 1); auto. apply near_div. now apply near_one. }
      unfold near in N. unfold within. eapply Rle_trans; [exact N|]. apply Rmult_le_compat_r; [apply Rabs_pos|]. eapply Rle_trans; [apply first_grow; lia|]. cbn [INR]. lra.
Qed.
