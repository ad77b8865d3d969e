(** The error array of calculate_petrosian in double precision: the whole array. *)
From Coq Require Import SpecFloat ZArith Reals Lra Lia.
From Flocq Require Import Core BinarySingleNaN Relative.
From Verif Require Import Base Num Numpy M_Utils M_Petrosian S_Petrosian S_Double S_Sums S_Near S_PetErr L_Double L_Double2 L_Sums L_Sums3 L_Grid L_Near L_Near2 L_Near3 L_PetErr.
Local Open Scope R_scope.

Lemma zero_double (x : f64) : double x -> dval x = 0 -> exists s, x = S754_zero s.
Proof.
  intros [_ D] E. destruct x as [s|s| |s m e]; try contradiction; [now exists s|]. exfalso. unfold dval in E.
  assert (powerRZ 2 e <> 0) by (apply powerRZ_NOR; lra). assert (IZR (Z.pos m) <> 0) by (apply not_0_IZR; lia). destruct s; repeat (apply Rmult_integral in E; destruct E as [E|E]; try contradiction; try lra).
Qed.
Lemma nan_mul (x : f64) : nmul x (S754_nan : f64) = S754_nan.
Proof. now destruct x. Qed.
(** an annulus that adds no flux has no error *)
Lemma flat_error a0 a1 l0 l1 ea0 ea1 el0 el1 : double a0 -> double a1 -> double l0 -> double l1 -> double ea0 -> double ea1 -> double el0 -> double el1 ->
  fairk 100 (dval a0) -> sized 100 (dval a1) -> fairk 100 (dval l0) -> sized 100 (dval l1) -> fairk 100 (dval ea0) -> fairk 100 (dval ea1) -> fairk 100 (dval el0) -> fairk 100 (dval el1) ->
  dval a0 <> dval a1 -> dval l0 = dval l1 -> err_entry64 a0 a1 l0 l1 ea0 ea1 el0 el1 = S754_nan.
Proof.
  intros Da0 Da1 Dl0 Dl1 Dea0 Dea1 Del0 Del1 Fa0 Sa1 Fl0 Sl1 Fea0 Fea1 Fel0 Fel1 Na El.
  destruct (gap_double a1 a0) as (A1 & A2 & _); auto; [now right|].
  destruct (fd_sub 100 l1 l0) as (L1 & _ & d & _ & L4); auto; try lia; [now right|]. rewrite El, Rminus_diag_eq, Rmult_0_l in L4 by auto.
  destruct (hypot_double 0 100 (dval el0) (dval el1) el0 el1) as (B1 & _); auto; try lia; try apply near_self.
  destruct (hypot_double 0 100 (dval ea0) (dval ea1) ea0 ea1) as (C1 & C2 & _); auto; try lia; try apply near_self.
  unfold err_entry64. cbv zeta. set (da := nsub a1 a0) in *. set (df := nsub l1 l0) in *. set (hl := hypot2 el0 el1) in *. set (ha := hypot2 ea0 ea1) in *.
  destruct (fd_div (100 + 1) 153 ha da) as (E1 & E2 & _); auto; try lia. destruct (fd_mul (100 + 1 + 153) (100 + 1 + 153) (ndiv ha da) (ndiv ha da)) as (F1 & _); auto; try lia.
  destruct (zero_double _ L1 L4) as [s Hs]. destruct (dd_div0 df da L1 A1 L4 (sized_nz _ _ A2)) as [G1 G2]. destruct (zero_double _ G1 G2) as [t Ht].
  assert (Q : ndiv hl df = S754_nan \/ exists b, ndiv hl df = S754_infinity b). { rewrite Hs. destruct B1 as [_ B1]. destruct hl as [b|b| |b m e]; try contradiction; [now left|right; eexists; reflexivity]. }
  assert (S : nmul (nabs (ndiv df da)) (hypot2 (ndiv hl df) (ndiv ha da)) = (S754_nan : f64)).
  { rewrite Ht. unfold hypot2, sq. set (w := nmul (ndiv ha da) (ndiv ha da)) in *. destruct Q as [->|[b ->]].
    - change (nmul (S754_nan : f64) S754_nan) with (S754_nan : f64). change (nadd (S754_nan : f64) w) with (S754_nan : f64). reflexivity.
    - destruct F1 as [_ F1]. destruct b; destruct w as [c|c| |c m e]; try contradiction; reflexivity. }
  rewrite S. change (ndiv (S754_nan : f64) (ndiv df da)) with (S754_nan : f64). unfold hypot2 at 1, sq. change (nmul (S754_nan : f64) S754_nan) with (S754_nan : f64).
  match goal with |- context [nadd S754_nan ?w] => change (nadd (S754_nan : f64) w) with (S754_nan : f64) end. change (nsqrt (S754_nan : f64)) with (S754_nan : f64). apply nan_mul.
Qed.

Lemma ordinary_moderate l : ordinary l -> Forall moderate (map dval l).
Proof.
  intros [_ H]. eapply Forall_impl; [|exact H]. intros x [H1 H2]. unfold moderate. split.
  - eapply Rle_trans; [|exact H1]. apply Rinv_le_contravar; [apply pow_lt; lra|apply Rle_pow; [lra|lia]].
  - eapply Rle_trans; [exact H2|]. apply Rle_pow; [lra|lia].
Qed.
Lemma ordinary_at l i : ordinary l -> (i < length l)%nat -> double (nth i l dz) /\ sized 100 (dval (nth i l dz)).
Proof.
  intros [D H] Hi. split; [now apply all_at|]. rewrite Forall_forall in H. specialize (H (dval (nth i l dz))). unfold sized. rewrite bpow_opp, pow100. apply H. apply in_map. now apply nth_In.
Qed.
Lemma plain_at l i : Forall double l -> Forall plain (map dval l) -> (i < length l)%nat -> double (nth i l dz) /\ fairk 100 (dval (nth i l dz)).
Proof.
  intros D H Hi. split; [now apply all_at|]. apply plain_fairk. rewrite Forall_forall in H. apply H. apply in_map. now apply nth_In.
Qed.

Section Errors.
  Variables A L : list f64.
  Hypotheses (Len : length L = length A) (Long : (2 < length A)%nat) (OA : ordinary A) (OL : ordinary L) (IA : increasing (map dval A)).
  Variables EA EL : list f64.
  Hypotheses (LA : length EA = length A) (LL : length EL = length A) (DA : Forall double EA) (DL : Forall double EL) (PA : Forall plain (map dval EA)) (PL : Forall plain (map dval EL)).
  Definition eentry (i : nat) : f64 :=
    err_entry64 (nth i A dz) (nth (S i) A dz) (nth i L dz) (nth (S i) L dz) (nth i EA dz) (nth (S i) EA dz) (nth i EL dz) (nth (S i) EL dz).
  Lemma eentry_ok i : (S i < length A)%nat ->
    if Req_EM_T (dval (nth i L dz)) (dval (nth (S i) L dz)) then eentry i = S754_nan
    else double (eentry i) /\ within 46 (propagated_error (map dval A) (map dval L) (map dval EA) (map dval EL) (S i)) (dval (eentry i)).
  Proof.
    intros Hi. destruct (ordinary_at A i OA ltac:(lia)) as [X1 X2]. destruct (ordinary_at A (S i) OA ltac:(lia)) as [X3 X4].
    destruct (ordinary_at L i OL ltac:(rewrite Len; lia)) as [X5 X6]. destruct (ordinary_at L (S i) OL ltac:(rewrite Len; lia)) as [X7 X8].
    destruct (plain_at EA i DA PA ltac:(rewrite LA; lia)) as [Y1 Y2]. destruct (plain_at EA (S i) DA PA ltac:(rewrite LA; lia)) as [Y3 Y4].
    destruct (plain_at EL i DL PL ltac:(rewrite LL; lia)) as [Y5 Y6]. destruct (plain_at EL (S i) DL PL ltac:(rewrite LL; lia)) as [Y7 Y8].
    pose proof (IA i) as I. rewrite map_length, !dval_at in I. specialize (I Hi).
    destruct (Req_EM_T (dval (nth i L dz)) (dval (nth (S i) L dz))) as [E|E].
    - apply flat_error; auto; try (now right); lra.
    - destruct (entry_error (nth i A dz) (nth (S i) A dz) (nth i L dz) (nth (S i) L dz) (nth i EA dz) (nth (S i) EA dz) (nth i EL dz) (nth (S i) EL dz)) as [R1 R2]; auto; try (now right); [lra|].
      split; [exact R1|]. rewrite spread_eq in R2; auto; [|lra|now apply (sized_nz 100)|now apply (sized_nz 100)]. unfold within, propagated_error, petro_ratio, local_sb, mean_sb. rewrite !dval_at. replace (S i - 1)%nat with i by lia.
      unfold near in R2. eapply Rle_trans; [exact R2|]. apply Rmult_le_compat_r; [apply Rabs_pos|]. eapply Rle_trans; [apply first_grow; lia|]. pose proof u64_val. replace (INR 45) with 45 by (rewrite INR_IZR_INZ; reflexivity). lra.
  Qed.
  Lemma tail_at (l : list f64) i : length l = length A -> (S i < length A)%nat -> nth_error l i = Some (nth i l dz) /\ nth_error (tl l) i = Some (nth (S i) l dz).
  Proof. intros H Hi. split; [apply nth_error_nth'; rewrite H; lia|apply tl_at; rewrite H; exact Hi]. Qed.
  Lemma perr_run : 
      let ad := diff A in
      let rel_diff := map2 hypot2 (map2 ndiv (map2 hypot2 EL (tl EL)) (diff L)) (map2 ndiv (map2 hypot2 EA (tl EA)) ad) in
      let iat_err := map2 (fun da e => if nltb n0 da then store DFloat e else n0) ad (map2 (fun i s => nmul (nabs i) s) (I_at DFloat A L) rel_diff) in
      let rel_avg := map2 hypot2 (map2 ndiv (tl EL) (tl L)) (map2 ndiv (tl EA) (tl A)) in
      let iavg_err := map2 (fun i s => nmul (nabs i) s) (I_avg A L) rel_avg in
      let rel := map2 hypot2 (map2 ndiv iat_err (I_at DFloat A L)) (map2 ndiv iavg_err (I_avg A L)) in
      map2 (fun da e => if nltb n0 da then store DFloat e else n0) ad (map2 (fun p s => nmul (nabs p) s) (map (entry A L) (seq 0 (length A - 1))) rel) = map eentry (seq 0 (length A - 1)).
  Proof.
    intros ad rel_diff iat_err rel_avg iavg_err rel. apply nth_error_ext. intros i. destruct (Nat.lt_ge_cases i (length A - 1)) as [Hi|Hi].
    - assert (Hi' : (S i < length A)%nat) by lia. destruct (tail_at EA i LA Hi') as [X1 X2]. destruct (tail_at EL i LL Hi') as [X3 X4]. destruct (tail_at L i Len Hi') as [X5 X6]. destruct (tail_at A i eq_refl Hi') as [X7 X8].
      assert (Ad : nth_error ad i = Some (nsub (nth (S i) A dz) (nth i A dz))) by now apply diff_at.
      assert (Ld : nth_error (diff L) i = Some (nsub (nth (S i) L dz) (nth i L dz))) by (apply diff_at; rewrite Len; exact Hi').
      assert (Pos : nltb n0 (nsub (nth (S i) A dz) (nth i A dz)) = true).
      { destruct (area_step A L Len Long (proj1 OA) (ordinary_moderate A OA) IA i Hi') as (Da & P & _). rewrite d_ltb; auto; [|split; [reflexivity|exact I]]. now apply Rltb_true. }
      assert (At : nth_error (I_at DFloat A L) i = Some (ndiv (nsub (nth (S i) L dz) (nth i L dz)) (nsub (nth (S i) A dz) (nth i A dz)))).
      { unfold I_at. erewrite map2_nth by eassumption. now rewrite Pos. }
      assert (Av : nth_error (I_avg A L) i = Some (ndiv (nth (S i) L dz) (nth (S i) A dz))) by (unfold I_avg; now apply map2_nth).
      assert (En : forall f : nat -> f64, nth_error (map f (seq 0 (length A - 1))) i = Some (f i)).
      { intros f. rewrite nth_error_map. rewrite (nth_error_nth' _ 0%nat) by (rewrite seq_length; lia). rewrite seq_nth by lia. reflexivity. }
      assert (Rd : nth_error rel_diff i = Some (hypot2 (ndiv (hypot2 (nth i EL dz) (nth (S i) EL dz)) (nsub (nth (S i) L dz) (nth i L dz))) (ndiv (hypot2 (nth i EA dz) (nth (S i) EA dz)) (nsub (nth (S i) A dz) (nth i A dz))))).
      { unfold rel_diff. apply map2_nth; apply map2_nth; auto; now apply map2_nth. }
      assert (Ra : nth_error rel_avg i = Some (hypot2 (ndiv (nth (S i) EL dz) (nth (S i) L dz)) (ndiv (nth (S i) EA dz) (nth (S i) A dz)))).
      { unfold rel_avg. apply map2_nth; now apply map2_nth. }
      assert (Ie := map2_nth (fun da e : f64 => if nltb n0 da then store DFloat e else n0) _ _ _ _ _ Ad (map2_nth (fun i s => nmul (nabs i) s) _ _ _ _ _ At Rd)). cbv beta in Ie. fold iat_err in Ie. rewrite Pos in Ie.
      assert (Ve := map2_nth (fun i s => nmul (nabs i) s) _ _ _ _ _ Av Ra). cbv beta in Ve. fold iavg_err in Ve.
      assert (Rl := map2_nth hypot2 _ _ _ _ _ (map2_nth ndiv _ _ _ _ _ Ie At) (map2_nth ndiv _ _ _ _ _ Ve Av)). fold rel in Rl.
      rewrite (map2_nth _ _ _ _ _ _ Ad (map2_nth (fun i s => nmul (nabs i) s) _ _ _ _ _ (En (entry A L)) Rl)). rewrite Pos, En. reflexivity.
    - match goal with |- nth_error ?l i = _ => assert (N1 : nth_error l i = None) end.
      { apply nth_error_None. rewrite map2_len3. unfold ad. rewrite diff_len. lia. }
      rewrite N1. symmetry. apply nth_error_None. rewrite map_length, seq_length. lia.
  Qed.
End Errors.

Lemma errors_double A L ea fe : length L = length A -> (2 < length A)%nat -> ordinary A -> ordinary L -> increasing (map dval A) ->
  error_bars (length A) ea -> error_bars (length A) fe -> ~ (ea = None /\ fe = None) ->
  exists P E, calculate_petrosian DFloat A L ea fe = Ok (P, Some E) /\ calculate_petrosian DFloat A L None None = Ok (P, None) /\ length E = length A /\ nth_error E 0 = Some nnan /\
    forall i, (1 <= i < length A)%nat -> exists e, nth_error E i = Some e /\
      (at_ (map dval L) (i - 1) = at_ (map dval L) i -> e = nnan) /\
      (at_ (map dval L) (i - 1) <> at_ (map dval L) i ->
        double e /\ within 46 (propagated_error (map dval A) (map dval L) (given (length A) ea) (given (length A) fe) i) (dval e)).
Proof.
  intros Len Long OA OL IA BA BL Some1.
  set (EA := match ea with None => map (fun _ : f64 => (n0 : f64)) A | Some l => l end). set (EL := match fe with None => map (fun _ : f64 => (n0 : f64)) L | Some l => l end).
  assert (Z : forall l : list f64, Forall double (map (fun _ : f64 => (n0 : f64)) l) /\ Forall plain (map dval (map (fun _ : f64 => (n0 : f64)) l)) /\ map dval (map (fun _ : f64 => (n0 : f64)) l) = zeros (length l)).
  { intros l. split; [|split].
    - apply Forall_forall. intros x Hx. apply in_map_iff in Hx. destruct Hx as (y & <- & _). split; [reflexivity|exact I].
    - apply Forall_forall. intros x Hx. rewrite map_map in Hx. apply in_map_iff in Hx. destruct Hx as (y & <- & _). left. reflexivity.
    - rewrite map_map. unfold zeros. induction l as [|y l IH]; cbn; f_equal; auto. }
  assert (HA : length EA = length A /\ Forall double EA /\ Forall plain (map dval EA) /\ given (length A) ea = map dval EA).
  { unfold EA. destruct ea as [l|]; cbn in BA |- *; [destruct BA as (H1 & H2 & H3); auto|]. destruct (Z A) as (H1 & H2 & H3). rewrite map_length. auto. }
  assert (HL : length EL = length A /\ Forall double EL /\ Forall plain (map dval EL) /\ given (length A) fe = map dval EL).
  { unfold EL. destruct fe as [l|]; cbn in BL |- *; [destruct BL as (H1 & H2 & H3); auto|]. destruct (Z L) as (H1 & H2 & H3). rewrite map_length. rewrite Len in H3. auto. }
  destruct HA as (A1 & A2 & A3 & A4). destruct HL as (L1 & L2 & L3 & L4).
  pose proof (profile_run A L Len Long (proj1 OA) (ordinary_moderate A OA) IA) as PR.
  exists (nnan :: map (entry A L) (seq 0 (length A - 1))), (nnan :: map (eentry A L EA EL) (seq 0 (length A - 1))).
  split; [|split; [exact PR|split; [cbn [length]; rewrite map_length, seq_length; lia|split; [reflexivity|]]]].
  - assert (R : ranks A = seq 0 (length A)).
    { destruct A as [|x l]; [simpl in Long; lia|]. unfold ranks. rewrite ranks_id; auto. apply OA. }
    unfold calculate_petrosian in PR |- *. rewrite R in *. destruct (Nat.eqb (length A) (length L)); cbn [assert_] in PR |- *; [|discriminate]. destruct (Nat.ltb 2 (length A)); cbn [assert_] in PR |- *; [|discriminate].
    destruct (forallb _ (diff A)); cbn [assert_] in PR |- *; [|discriminate]. destruct (gather (nnan :: map2 ndiv (I_at DFloat A L) (I_avg A L)) (seq 0 (length A))) as [p|]; cbn [bind] in PR |- *; [|discriminate].
    injection PR as ->. fold EA. fold EL. cbn [tl].
    assert (E1 : Nat.eqb (length EA) (length A) = true) by (apply Nat.eqb_eq; exact A1). assert (E2 : Nat.eqb (length EL) (length L) = true) by (apply Nat.eqb_eq; rewrite Len; exact L1).
    pose proof (perr_run A L Len Long OA IA EA EL A1 L1) as PE. cbv zeta in PE. rewrite E1, E2. cbn [assert_]. rewrite PE. rewrite gather_id by (cbn [length]; rewrite map_length, seq_length; lia). cbn [bind].
    destruct ea, fe; try reflexivity. exfalso. now apply Some1.
  - intros [|i] Hi; [lia|]. exists (eentry A L EA EL i). split.
    { cbn [nth_error]. rewrite nth_error_map. rewrite (nth_error_nth' _ 0%nat) by (rewrite seq_length; lia). rewrite seq_nth by lia. reflexivity. }
    pose proof (eentry_ok A L Len Long OA OL IA EA EL A1 L1 A2 L2 A3 L3 i ltac:(lia)) as K. replace (S i - 1)%nat with i by lia. rewrite !dval_at, A4, L4. destruct (Req_EM_T _ _) as [Q|Q]; [split; [intros _; exact K|intros C; contradiction]|split; [intros C; contradiction|intros _; exact K]].
Qed.
