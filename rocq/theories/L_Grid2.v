(** A curve resampled along chords in double precision. *)
From Coq Require Import SpecFloat ZArith Reals Lra Lia.
From Flocq Require Import Core BinarySingleNaN.
From Verif Require Import Base Num Numpy M_Utils M_Petrosian M_Interp M_Kinds S_Petrosian L_Petrosian S_Kinds S_Double S_Sums S_Grid L_Double L_Double2 L_Double3 L_Double4 L_Grid.
From Verif Require L_Conv2.
Local Open Scope R_scope.

Lemma low_end (l : list f64) : forall a, Forall double (a :: l) -> increasing (map dval (a :: l)) -> pymin_from a l = a.
Proof.
  unfold pymin_from. assert (G : forall m a, Forall double (a :: m) -> (forall x, In x m -> dval a < dval x) -> fold_left (fun b x : f64 => if nltb x b then x else b) m a = a).
  { induction m as [|x m IH]; intros a D H; auto. cbn [fold_left]. inversion D as [|? ? Da D']; subst. inversion D' as [|? ? Dx D'']; subst.
    rewrite d_ltb by auto. rewrite Rltb_false by (specialize (H x (or_introl eq_refl)); lra). apply IH; [now constructor|]. intros y Hy. apply H. now right. }
  intros a D I. apply G; auto. intros x Hx. apply (In_nth _ _ dz) in Hx. destruct Hx as (i & Hi & <-).
  pose proof (inc_lt (map dval (a :: l)) 0 (S i) I ltac:(lia)) as L. cbn [map length] in L. rewrite map_length in L. specialize (L (proj1 (Nat.succ_lt_mono _ _) Hi)).
  change (dval a :: map dval l) with (map dval (a :: l)) in L. rewrite !dval_at in L. exact L.
Qed.
Lemma high_end (l : list f64) : forall a, Forall double (a :: l) -> increasing (map dval (a :: l)) -> pymax_from a l = last (a :: l) n0.
Proof.
  unfold pymax_from. induction l as [|x l IH]; intros a D I; auto. cbn [fold_left]. inversion D as [|? ? Da D']; subst. inversion D' as [|? ? Dx D'']; subst.
  assert (L : dval a < dval x) by (apply (I 0%nat); cbn; lia). rewrite d_ltb by auto. rewrite Rltb_true by auto. rewrite IH; auto.
  intros i Hi. apply (I (S i)). cbn [map length] in *. lia.
Qed.

Lemma last_nth (l : list f64) : (1 <= length l)%nat -> last l n0 = nth (length l - 1) l dz.
Proof.
  induction l as [|a l IH]; [cbn; lia|]. intros _. destruct l as [|b l]; auto. change (last (a :: b :: l) n0) with (last (b :: l) (n0 : f64)).
  rewrite IH by (cbn; lia). cbn [length]. replace (S (S (length l)) - 1)%nat with (S (S (length l) - 1)) by lia. reflexivity.
Qed.

Section Resample.
  Variables (other : kind -> list f64 -> list f64 -> result (f64 -> f64)) (k : kind) (xs ys : list f64) (num : nat) (M : R).
  Let X := map dval xs.
  Let Y := map dval ys.
  Let n := Nat.max num (length xs).
  Hypotheses (Hk : chordal k) (Len : length ys = length xs) (Two : (2 <= length xs)%nat) (Dx : Forall double xs) (Dy : Forall double ys)
    (Fx : Forall fair X) (Fy : Forall fair Y) (BY : Forall (fun y => Rabs y <= M) Y) (Inc : increasing X) (Pos : 0 <= at_ X 0)
    (Wide : / 2 ^ 100 <= end_of X - at_ X 0) (Few : (Z.of_nat n <= 2 ^ 50)%Z) (Res : resolved u64 (at_ X 0) (end_of X) n).

  Lemma resampled : exists gx gy, get_interpolated_values (mk_scipy other) xs ys num (Some k) = Ok (gx, gy) /\
    length gx = n /\ length gy = n /\ Forall double gx /\ Forall double gy /\ increasing (map dval gx) /\
    at_ (map dval gx) 0 = at_ X 0 /\ at_ (map dval gx) (n - 1) = end_of X /\
    (forall i, (i < n)%nat -> Rabs (at_ (map dval gx) i - even_point (at_ X 0) (end_of X) n i) <= 5 * u64 * end_of X) /\
    forall i, (i < n)%nat -> exists y, chord_value X Y (at_ (map dval gx) i) y /\ Rabs (at_ (map dval gy) i - y) <= 14 * u64 * M.
  Proof.
    assert (Ex : exists x0 xt, xs = x0 :: xt) by (clear - Two; destruct xs as [|x0 xt]; [cbn in Two; lia|eauto]). destruct Ex as (x0 & xt & Exs). set (hi := last xs n0).
    assert (Lx : length X = length xs) by (unfold X; apply map_length).
    assert (Vh : dval hi = end_of X).
    { unfold end_of. rewrite Lx. unfold X. rewrite dval_at. unfold hi. f_equal. apply last_nth. lia. }
    assert (V0 : dval x0 = at_ X 0) by (unfold X; rewrite Exs; reflexivity).
    assert (D0 : double x0) by (rewrite Exs in Dx; now inversion Dx).
    assert (Dh : double hi).
    { unfold hi. rewrite Forall_forall in Dx. apply Dx. rewrite last_nth by lia. apply nth_In. lia. }
    assert (F0 : fair (dval x0)). { rewrite V0. rewrite Forall_forall in Fx. apply Fx. unfold at_. apply nth_In. lia. }
    assert (Fh : fair (dval hi)). { rewrite Vh. rewrite Forall_forall in Fx. apply Fx. unfold end_of, at_. apply nth_In. lia. }
    assert (W0 : 0 < / 2 ^ 100) by (apply Rinv_0_lt_compat, pow_lt; lra).
    assert (Mh : moderate (dval hi)). { destruct Fh as [Z|]; auto. exfalso. rewrite Vh in Z. lra. }
    set (d := (n - 1)%nat). assert (En : n = S d) by (unfold d, n; lia). assert (Hd : (1 <= d)%nat) by (unfold d, n; lia).
    destruct (linspace_double x0 hi d D0 Dh F0 Mh) as (G1 & G2 & G3 & G4 & G5 & G6); auto; [split; lra|lia|]. cbv zeta in *. rewrite <- En in *.
    set (gx := linspace x0 hi n) in *. unfold resolved in Res. fold d in Res. rewrite <- Vh, <- V0 in Res. specialize (G6 Res).
    assert (Pd : 0 < INR d) by (apply (lt_INR 0); lia). pose proof u64_val as U.
    assert (Lg : length (map dval gx) = n) by now rewrite map_length.
    assert (Ge : forall i, (i < n)%nat -> dval x0 <= at_ (map dval gx) i <= dval hi).
    { intros i Hi. assert (Gd : at_ (map dval gx) d = dval hi) by (rewrite dval_at; f_equal; exact G4). split.
      - destruct i; [lra|]. rewrite <- G5. apply Rlt_le, inc_lt; auto; lia.
      - destruct (Nat.eq_dec i d) as [->|N]; [lra|]. rewrite <- Gd. apply Rlt_le, inc_lt; auto; lia. }
    assert (Fg : forall i, (i < n)%nat -> fair (at_ (map dval gx) i)).
    { intros i Hi. destruct i as [|i]; [now rewrite G5|]. right. unfold moderate. pose proof (Ge _ Hi) as B. rewrite Rabs_pos_eq by lra. split.
      - specialize (G3 (S i) ltac:(lia)). apply abs_both in G3. set (h := (dval hi - dval x0) / INR d) in *.
        assert (Hh : / 2 ^ 150 <= h).
        { unfold h. apply Rmult_le_reg_r with (INR d); auto. unfold Rdiv. rewrite Rmult_assoc, Rinv_l by lra. rewrite Rmult_1_r.
          apply Rle_trans with (/ 2 ^ 100); [|lra]. assert (Dd : INR d <= 2 ^ 50). { rewrite INR_IZR_INZ. apply Rle_trans with (IZR (2 ^ 50)); [apply IZR_le; lia|]. right. symmetry. exact (pow_IZR 2 50). }
          replace (/ 2 ^ 100) with (/ 2 ^ 150 * 2 ^ 50); [apply Rmult_le_compat_l; auto; apply Rlt_le, Rinv_0_lt_compat, pow_lt; lra|].
          replace 150%nat with (100 + 50)%nat by reflexivity. rewrite pow_add. field. }
        rewrite S_INR in G3. assert (0 <= INR i * h) by (apply Rmult_le_pos; [apply pos_INR|lra]).
        assert (Q : / 2 ^ 200 <= / 2 ^ 150 / 2).
        { replace 200%nat with (150 + 50)%nat by reflexivity. rewrite pow_add, Rinv_mult. apply Rmult_le_compat_l; [apply Rlt_le, Rinv_0_lt_compat, pow_lt; lra|].
          apply Rinv_le_contravar; [lra|]. replace 50%nat with (1 + 49)%nat by reflexivity. rewrite pow_add. assert (1 <= 2 ^ 49) by (apply pow_R1_Rle; lra). lra. }
        lra.
      - destruct Mh as [_ Mh]. rewrite Rabs_pos_eq in Mh by lra. lra. }
    assert (Line : forall i, (i < n)%nat -> double (linear_at xs ys (nth i gx dz)) /\
       exists y, chord_value X Y (at_ (map dval gx) i) y /\ Rabs (dval (linear_at xs ys (nth i gx dz)) - y) <= 14 * u64 * M).
    { intros i Hi. pose proof (Ge i Hi) as B. pose proof (Fg i Hi) as F. rewrite dval_at in B, F |- *. rewrite V0, Vh in B.
      assert (Dq : double (nth i gx dz)) by (rewrite Forall_forall in G2; apply G2, nth_In; lia).
      destruct (line_at_double xs ys (nth i gx dz) M) as [A1 A2]; auto.
      - rewrite Forall_forall in Fx |- *. intros x Hx. apply Fx. unfold X. now apply in_map.
      - rewrite Forall_forall in Fy, BY |- *. intros y Hy. split; [apply Fy|apply BY]; unfold Y; now apply in_map.
      - fold X. unfold end_of in B. rewrite Lx in B. exact B.
      - split; auto. destruct (L_Conv2.find_step X (dval (nth i gx dz))) as (j & J1 & J2); [lia|exact B|]. rewrite Lx in J1. specialize (A2 j J1 J2).
        eexists. split; [|exact A2]. exists j. split; [now rewrite Lx|]. split; auto. fold X Y. assert (at_ X j < at_ X (S j)) by (apply Inc; lia). field. lra. }
    exists gx, (map (linear_at xs ys) gx). 
    assert (Mk : mk_scipy other k xs ys = Ok (linear_at xs ys)).
    { unfold mk_scipy. rewrite Len, Nat.eqb_refl. destruct Hk as [->|[->| ->]]; auto; (destruct (Nat.ltb_spec (length xs) 2); [lia|reflexivity]). }
    assert (Mn : pymin xs = Ok x0). { rewrite Exs. cbn [pymin]. f_equal. apply low_end; rewrite <- Exs; auto. }
    assert (Mx : pymax xs = Ok hi). { unfold hi. rewrite Exs. cbn [pymax]. f_equal. apply high_end; rewrite <- Exs; auto. }
    split; [|split; [|split; [|split; [|split; [|split; [|split; [|split; [|split]]]]]]]]; auto.
    - unfold get_interpolated_values, interp1d. rewrite Mk, Mn, Mx. cbn [bind].
      replace (if Nat.ltb num (length xs) then length xs else num) with n by (unfold n; destruct (Nat.ltb_spec num (length xs)); lia). fold gx.
      rewrite (mapM_ok _ gx (map (linear_at xs ys) gx)); [reflexivity|now rewrite map_length|].
      intros i a b Ha Hb. rewrite nth_error_map, Ha in Hb. cbn in Hb. injection Hb as <-.
      assert (Hi : (i < n)%nat) by (rewrite <- G1; apply nth_error_Some; congruence). pose proof (Ge i Hi) as B. rewrite dval_at in B. 
      assert (Na : nth i gx dz = a) by exact (nth_error_nth _ _ dz Ha). rewrite Na in B. assert (Da : double a) by (rewrite Forall_forall in G2; apply G2; now apply nth_error_In with i).
      rewrite !d_ltb by auto. rewrite !Rltb_false by lra. reflexivity.
    - now rewrite map_length.
    - rewrite Forall_forall. intros y Hy. apply in_map_iff in Hy. destruct Hy as (q & <- & Hq). apply (In_nth _ _ dz) in Hq. destruct Hq as (i & Hi & <-). apply Line. rewrite <- G1. exact Hi.
    - congruence.
    - fold d. rewrite <- Vh. rewrite dval_at. f_equal. exact G4.
    - intros i Hi. rewrite <- V0, <- Vh. unfold even_point. fold d. apply G3. lia.
    - intros i Hi. destruct (Line i Hi) as [_ (y & C1 & C2)]. exists y. split; auto. rewrite dval_at.
      replace (nth i (map (linear_at xs ys) gx) dz) with (linear_at xs ys (nth i gx dz)); auto.
      symmetry. transitivity (nth i (map (linear_at xs ys) gx) (linear_at xs ys dz)); [apply nth_indep; rewrite map_length, G1; exact Hi|apply map_nth].
  Qed.
End Resample.
