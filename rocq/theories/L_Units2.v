(** Petrosian profiles and their errors do not depend on units that are powers of two. *)
From Coq Require Import SpecFloat ZArith Reals Lra Lia.
From Flocq Require Import Core BinarySingleNaN Relative.
From Verif Require Import Base Num Numpy M_Utils M_Petrosian S_Petrosian S_Double S_Sums S_Near S_PetErr S_Units L_Double L_Double2 L_Sums L_Sums3 L_Grid L_Near L_Near2 L_Near3 L_PetErr L_PetErr2 L_Units.
Local Open Scope R_scope.

Lemma tri_times c g x : double g -> dval g = bpow radix2 c -> (Z.abs c <= 200)%Z -> double x -> fairk 100 (dval x) -> tri c 100 x (nmul x g).
Proof.
  intros Dg Vg C Dx Fx. destruct (room c 100 (dval x) ltac:(lia) ltac:(lia) Fx) as [_ R]. rewrite <- Vg in R. destruct (d_mul x g Dx Dg R) as [A B].
  apply (tri_intro _ _ (dval x)); auto; try lia.
  - symmetry. apply rnd_id. now apply double_format.
  - rewrite B, Vg. reflexivity.
  - intros Z. destruct (zero_double x Dx Z) as [s ->]. pose proof (bpow_gt_0 radix2 c) as P. destruct (shape g Dg) as (t & m & e & E & S); [rewrite Vg; lra|]. destruct t; [exfalso; destruct S as [S _]; specialize (S eq_refl); lra|].
    rewrite E. cbn. now rewrite Bool.xorb_false_r.
Qed.
Lemma entry_units c d a0 a1 l0 l1 a0' a1' l0' l1' : (Z.abs c <= 200)%Z -> (Z.abs d <= 200)%Z -> tri d 100 a0 a0' -> tri d 100 a1 a1' -> tri c 100 l0 l0' -> tri c 100 l1 l1' ->
  dval a0 <> dval a1 -> dval a1 <> 0 -> dval l1 <> 0 ->
  ndiv (ndiv (nsub l1' l0') (nsub a1' a0')) (ndiv l1' a1') = ndiv (ndiv (nsub l1 l0) (nsub a1 a0)) (ndiv l1 a1).
Proof.
  intros C D A0 A1 L0 L1 Na Za Zl. pose proof (tri_sub d 100 _ _ _ _ ltac:(lia) ltac:(lia) A1 A0) as Da. pose proof (tri_sub c 100 _ _ _ _ ltac:(lia) ltac:(lia) L1 L0) as Df.
  assert (Nd : dval (nsub a1 a0) <> 0). { destruct A0 as (X1 & _ & X3 & _). destruct A1 as (Y1 & _ & Y3 & _). destruct (gap_double a1 a0) as (_ & S & _); auto. now apply sized_nz in S. }
  assert (Ni : dval (ndiv l1 a1) <> 0). { destruct A1 as (Y1 & _ & [Y3|Y3] & _); [contradiction|]. destruct L1 as (Z1 & _ & [Z3|Z3] & _); [contradiction|]. destruct (dd_div 100 100 l1 a1) as (_ & S & _); auto; try lia. now apply sized_nz in S. }
  pose proof (tri_div c d (100 + 54) (100 + 54) _ _ _ _ ltac:(lia) ltac:(lia) ltac:(lia) Df Da Nd) as I. pose proof (tri_div c d 100 100 _ _ _ _ ltac:(lia) ltac:(lia) ltac:(lia) L1 A1 Za) as V.
  pose proof (tri_div (c - d) (c - d) (100 + 54 + (100 + 54)) (100 + 100) _ _ _ _ ltac:(lia) ltac:(lia) ltac:(lia) I V Ni) as P. rewrite Z.sub_diag in P. exact (tri_eq _ _ _ P).
Qed.
Lemma errors_units c d a0 a1 l0 l1 ea0 ea1 el0 el1 a0' a1' l0' l1' ea0' ea1' el0' el1' : (Z.abs c <= 200)%Z -> (Z.abs d <= 200)%Z -> tri d 100 a0 a0' -> tri d 100 a1 a1' -> tri c 100 l0 l0' -> tri c 100 l1 l1' ->
  tri d 100 ea0 ea0' -> tri d 100 ea1 ea1' -> tri c 100 el0 el0' -> tri c 100 el1 el1' -> dval a0 <> dval a1 -> dval l0 <> dval l1 -> dval a1 <> 0 -> dval l1 <> 0 ->
  err_entry64 a0' a1' l0' l1' ea0' ea1' el0' el1' = err_entry64 a0 a1 l0 l1 ea0 ea1 el0 el1.
Proof.
  intros C D A0 A1 L0 L1 EA0 EA1 EL0 EL1 Na Nl Za Zl. unfold err_entry64. cbv zeta. rewrite (entry_units c d a0 a1 l0 l1 a0' a1' l0' l1'); auto.
  pose proof (tri_sub d 100 _ _ _ _ ltac:(lia) ltac:(lia) A1 A0) as Da. pose proof (tri_sub c 100 _ _ _ _ ltac:(lia) ltac:(lia) L1 L0) as Df.
  assert (Nd : dval (nsub a1 a0) <> 0). { destruct A0 as (X1 & _ & X3 & _). destruct A1 as (Y1 & _ & Y3 & _). destruct (gap_double a1 a0) as (_ & S & _); auto. now apply sized_nz in S. }
  assert (Nf : dval (nsub l1 l0) <> 0). { destruct L0 as (X1 & _ & X3 & _). destruct L1 as (Y1 & _ & Y3 & _). destruct (gap_double l1 l0) as (_ & S & _); auto. now apply sized_nz in S. }
  assert (Ni : dval (ndiv l1 a1) <> 0). { destruct A1 as (Y1 & _ & [Y3|Y3] & _); [contradiction|]. destruct L1 as (Z1 & _ & [Z3|Z3] & _); [contradiction|]. destruct (dd_div 100 100 l1 a1) as (_ & S & _); auto; try lia. now apply sized_nz in S. }
  pose proof (tri_div c d (100 + 54) (100 + 54) _ _ _ _ ltac:(lia) ltac:(lia) ltac:(lia) Df Da Nd) as I. pose proof (tri_div c d 100 100 _ _ _ _ ltac:(lia) ltac:(lia) ltac:(lia) L1 A1 Za) as V.
  assert (Nt : dval (ndiv (nsub l1 l0) (nsub a1 a0)) <> 0). { destruct Da as (Y1 & _ & [Y3|Y3] & _); [contradiction|]. destruct Df as (Z1 & _ & [Z3|Z3] & _); [contradiction|]. destruct (dd_div (100 + 54) (100 + 54) (nsub l1 l0) (nsub a1 a0)) as (_ & S & _); auto; try lia. now apply sized_nz in S. }
  pose proof (tri_hyp c 100 _ _ _ _ ltac:(lia) ltac:(lia) EL0 EL1) as HL. pose proof (tri_hyp d 100 _ _ _ _ ltac:(lia) ltac:(lia) EA0 EA1) as HA.
  pose proof (tri_div c c (100 + 2) (100 + 54) _ _ _ _ ltac:(lia) ltac:(lia) ltac:(lia) HL Df Nf) as Q1. pose proof (tri_div d d (100 + 2) (100 + 54) _ _ _ _ ltac:(lia) ltac:(lia) ltac:(lia) HA Da Nd) as Q2. rewrite Z.sub_diag in Q1, Q2.
  pose proof (tri_hyp 0 (100 + 2 + (100 + 54)) _ _ _ _ ltac:(lia) ltac:(lia) Q1 Q2) as S1.
  pose proof (tri_div c c 100 100 _ _ _ _ ltac:(lia) ltac:(lia) ltac:(lia) EL1 L1 Zl) as Q3. pose proof (tri_div d d 100 100 _ _ _ _ ltac:(lia) ltac:(lia) ltac:(lia) EA1 A1 Za) as Q4. rewrite Z.sub_diag in Q3, Q4.
  pose proof (tri_hyp 0 (100 + 100) _ _ _ _ ltac:(lia) ltac:(lia) Q3 Q4) as S2.
  pose proof (tri_mul (c - d) 0 (100 + 54 + (100 + 54)) ((100 + 2 + (100 + 54)) + 2) _ _ _ _ ltac:(lia) ltac:(lia) ltac:(lia) (tri_abs _ _ _ _ I) S1) as M1. pose proof (tri_mul (c - d) 0 (100 + 100) ((100 + 100) + 2) _ _ _ _ ltac:(lia) ltac:(lia) ltac:(lia) (tri_abs _ _ _ _ V) S2) as M2.
  rewrite Z.add_0_r in M1, M2.
  pose proof (tri_div (c - d) (c - d) ((100 + 54 + (100 + 54)) + ((100 + 2 + (100 + 54)) + 2)) (100 + 54 + (100 + 54)) _ _ _ _ ltac:(lia) ltac:(lia) ltac:(lia) M1 I Nt) as R1. pose proof (tri_div (c - d) (c - d) ((100 + 100) + ((100 + 100) + 2)) (100 + 100) _ _ _ _ ltac:(lia) ltac:(lia) ltac:(lia) M2 V Ni) as R2. rewrite Z.sub_diag in R1, R2.
  rewrite (tri_eq _ _ _ R1), (tri_eq _ _ _ R2). reflexivity.
Qed.

(** the arrays of errors that calculate_petrosian works with *)
Definition filled (A : list f64) (e : option (list f64)) : list f64 := match e with None => map (fun _ : f64 => (n0 : f64)) A | Some l => l end.
Lemma filled_ok A e : error_bars (length A) e -> length (filled A e) = length A /\ Forall double (filled A e) /\ Forall plain (map dval (filled A e)).
Proof.
  destruct e as [l|]; [auto|]. intros _. cbn [filled]. split; [apply map_length|]. split; apply Forall_forall; intros x Hx.
  - apply in_map_iff in Hx. destruct Hx as (y & <- & _). split; [reflexivity|exact I].
  - rewrite map_map in Hx. apply in_map_iff in Hx. destruct Hx as (y & <- & _). left. reflexivity.
Qed.
Lemma errors_run A L ea fe : length L = length A -> (2 < length A)%nat -> ordinary A -> increasing (map dval A) -> error_bars (length A) ea -> error_bars (length A) fe ->
  calculate_petrosian DFloat A L ea fe = Ok (nnan :: map (entry A L) (seq 0 (length A - 1)),
    match ea, fe with None, None => None | _, _ => Some (nnan :: map (eentry A L (filled A ea) (filled L fe)) (seq 0 (length A - 1))) end).
Proof.
  intros Len Long OA IA BA BL. destruct (filled_ok A ea BA) as (A1 & _). rewrite <- Len in BL. destruct (filled_ok L fe BL) as (L1 & _).
  pose proof (profile_run A L Len Long (proj1 OA) (ordinary_moderate A OA) IA) as PR.
  assert (R : ranks A = seq 0 (length A)).
  { destruct A as [|x l]; [simpl in Long; lia|]. unfold ranks. rewrite ranks_id; auto. apply OA. }
  unfold calculate_petrosian in PR |- *. rewrite R in *. destruct (Nat.eqb (length A) (length L)); cbn [assert_] in PR |- *; [|discriminate]. destruct (Nat.ltb 2 (length A)); cbn [assert_] in PR |- *; [|discriminate].
  destruct (forallb _ (diff A)); cbn [assert_] in PR |- *; [|discriminate]. destruct (gather (nnan :: map2 ndiv (I_at DFloat A L) (I_avg A L)) (seq 0 (length A))) as [p|]; cbn [bind] in PR |- *; [|discriminate].
  injection PR as ->. fold (filled A ea). fold (filled L fe). cbn [tl].
  assert (E1 : Nat.eqb (length (filled A ea)) (length A) = true) by (apply Nat.eqb_eq; exact A1). assert (E2 : Nat.eqb (length (filled L fe)) (length L) = true) by (apply Nat.eqb_eq; exact L1).
  rewrite Len in L1. pose proof (perr_run A L Len Long OA IA (filled A ea) (filled L fe) A1 L1) as PE. cbv zeta in PE. rewrite E1, E2. cbn [assert_]. rewrite PE. rewrite gather_id by (cbn [length]; rewrite map_length, seq_length; lia). cbn [bind].
  destruct ea, fe; reflexivity.
Qed.
Lemma times_at g (l : list f64) i : (i < length l)%nat -> nth i (times g l) dz = nmul (nth i l dz) g.
Proof. unfold times. revert i; induction l as [|x l IH]; intros [|i] Hi; cbn in *; try lia; auto. apply IH; lia. Qed.
Lemma times_len g l : length (times g l) = length l.
Proof. apply map_length. Qed.
Lemma power_val g : power_of_two g -> double g /\ exists c, (Z.abs c <= 200)%Z /\ dval g = bpow radix2 c.
Proof. intros [D (s & B & V)]. split; auto. exists s. split; [lia|]. rewrite V. symmetry. apply (bpow_powerRZ radix2). Qed.
Lemma filled_tri A c g e i : double g -> dval g = bpow radix2 c -> (Z.abs c <= 200)%Z -> error_bars (length A) e -> (i < length A)%nat ->
  tri c 100 (nth i (filled A e) dz) (nth i (filled (times g A) (option_map (times g) e)) dz).
Proof.
  intros D V C B Hi. destruct (filled_ok A e B) as (F1 & F2 & F3). destruct (plain_at (filled A e) i F2 F3) as [P1 P2]; [rewrite F1; exact Hi|].
  destruct e as [l|]; cbn [filled option_map] in *.
  - rewrite times_at by (rewrite F1; exact Hi). now apply tri_times.
  - assert (Z : forall (l : list f64) j, nth j (map (fun _ : f64 => (n0 : f64)) l) dz = dz) by (induction l as [|x l IH]; intros [|j]; cbn; auto).
    rewrite !Z. split; [split; [reflexivity|exact I]|]. split; [split; [reflexivity|exact I]|]. split; [now left|]. split; auto. cbn. ring.
Qed.
Lemma units A L ea fe g h : power_of_two g -> power_of_two h -> length L = length A -> (2 < length A)%nat -> ordinary A -> ordinary L -> ordinary (times g A) -> ordinary (times h L) -> increasing (map dval A) ->
  error_bars (length A) ea -> error_bars (length A) fe -> error_bars (length A) (option_map (times g) ea) -> error_bars (length A) (option_map (times h) fe) ->
  calculate_petrosian DFloat (times g A) (times h L) (option_map (times g) ea) (option_map (times h) fe) = calculate_petrosian DFloat A L ea fe.
Proof.
  intros Pg Ph Len Long OA OL OA' OL' IA BA BL BA' BL'. destruct (power_val g Pg) as (Dg & d & Cd & Vd). destruct (power_val h Ph) as (Dh & c & Cc & Vc).
  assert (TA : forall i, (i < length A)%nat -> tri d 100 (nth i A dz) (nth i (times g A) dz)). { intros i Hi. destruct (ordinary_at A i OA Hi) as [X Y]. rewrite times_at by auto. apply tri_times; auto. now right. }
  assert (TL : forall i, (i < length A)%nat -> tri c 100 (nth i L dz) (nth i (times h L) dz)). { intros i Hi. destruct (ordinary_at L i OL) as [X Y]; [rewrite Len; exact Hi|]. rewrite times_at by (rewrite Len; exact Hi). apply tri_times; auto. now right. }
  assert (IA' : increasing (map dval (times g A))).
  { intros i Hi. rewrite map_length, times_len in Hi. rewrite !dval_at. destruct (TA i ltac:(lia)) as (_ & _ & _ & E1 & _). destruct (TA (S i) Hi) as (_ & _ & _ & E2 & _). rewrite E1, E2. pose proof (IA i) as I. rewrite map_length, !dval_at in I. specialize (I Hi). apply Rmult_lt_compat_r; auto. apply bpow_gt_0. }
  rewrite (errors_run A L ea fe) by auto. rewrite (errors_run (times g A) (times h L)); rewrite ?times_len; auto.
  assert (EN : forall i, (S i < length A)%nat -> entry (times g A) (times h L) i = entry A L i).
  { intros i Hi. unfold entry. pose proof (IA i) as I. rewrite map_length, !dval_at in I. specialize (I Hi). destruct (ordinary_at A (S i) OA Hi) as [_ Y]. destruct (ordinary_at L (S i) OL) as [_ Z]; [rewrite Len; exact Hi|].
    apply (entry_units c d); auto; try (apply TA; lia); try (apply TL; lia); try now apply (sized_nz 100). lra. }
  assert (EE : forall i, (S i < length A)%nat -> eentry (times g A) (times h L) (filled (times g A) (option_map (times g) ea)) (filled (times h L) (option_map (times h) fe)) i = eentry A L (filled A ea) (filled L fe) i).
  { intros i Hi. unfold eentry. pose proof (IA i) as I. rewrite map_length, !dval_at in I. specialize (I Hi). destruct (ordinary_at A (S i) OA Hi) as [_ Y]. destruct (ordinary_at L (S i) OL) as [_ Z]; [rewrite Len; exact Hi|].
    assert (BL2 : error_bars (length L) fe) by (rewrite Len; exact BL).
    destruct (Req_dec (dval (nth i L dz)) (dval (nth (S i) L dz))) as [Q|Q].
    - pose proof (eentry_ok A L Len Long OA OL IA (filled A ea) (filled L fe)) as K1. pose proof (eentry_ok (times g A) (times h L)) as K2. rewrite !times_len in K2. specialize (K2 Len Long OA' OL' IA' (filled (times g A) (option_map (times g) ea)) (filled (times h L) (option_map (times h) fe))).
      destruct (filled_ok A ea BA) as (F1 & F2 & F3). destruct (filled_ok L fe BL2) as (F4 & F5 & F6). destruct (filled_ok (times g A) (option_map (times g) ea)) as (F7 & F8 & F9); [rewrite times_len; exact BA'|]. destruct (filled_ok (times h L) (option_map (times h) fe)) as (F10 & F11 & F12); [rewrite times_len, Len; exact BL'|].
      rewrite times_len in F7, F10. rewrite Len in F4, F10. specialize (K1 F1 F4 F2 F5 F3 F6 i Hi). specialize (K2 F7 F10 F8 F11 F9 F12 i Hi). unfold eentry in K1, K2.
      destruct (TL i ltac:(lia)) as (_ & _ & _ & E1 & _). destruct (TL (S i) Hi) as (_ & _ & _ & E2 & _).
      destruct (Req_EM_T _ _) as [_|N] in K1; [|contradiction]. destruct (Req_EM_T _ _) as [_|N] in K2; [|exfalso; apply N; rewrite E1, E2, Q; reflexivity]. rewrite K1, K2. reflexivity.
    - apply (errors_units c d); auto; try (apply TA; lia); try (apply TL; lia); try (apply filled_tri; auto; lia); try (apply filled_tri; auto; rewrite Len; lia); try now apply (sized_nz 100). lra. }
  assert (M : forall f1 f2 : nat -> f64, (forall i, (S i < length A)%nat -> f1 i = f2 i) -> map f1 (seq 0 (length A - 1)) = map f2 (seq 0 (length A - 1))). { intros f1 f2 H. apply map_ext_in. intros i Hi. apply in_seq in Hi. apply H. lia. }
  rewrite (M _ _ EN), (M _ _ EE). destruct ea, fe; reflexivity.
Qed.
Lemma units_run A L ea fe g h : power_of_two g -> power_of_two h -> length L = length A -> (2 < length A)%nat -> ordinary A -> ordinary L -> ordinary (times g A) -> ordinary (times h L) -> increasing (map dval A) ->
  error_bars (length A) ea -> error_bars (length A) fe -> error_bars (length A) (option_map (times g) ea) -> error_bars (length A) (option_map (times h) fe) ->
  exists P E, calculate_petrosian DFloat A L ea fe = Ok (P, E) /\ calculate_petrosian DFloat (times g A) (times h L) (option_map (times g) ea) (option_map (times h) fe) = Ok (P, E).
Proof.
  intros Pg Ph Len Long OA OL OA' OL' IA BA BL BA' BL'. rewrite (units A L ea fe g h) by assumption. rewrite (errors_run A L ea fe) by assumption. do 2 eexists. split; reflexivity.
Qed.
