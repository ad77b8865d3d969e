(** Evaluation of an oversampled model in double precision. *)
From Coq Require Import String SpecFloat ZArith Reals Lra Lia.
From Flocq Require Import Core BinarySingleNaN.
From Verif Require Import Base Num Numpy M_Utils M_Petrosian M_PSF S_Petrosian S_Photometry S_PSF S_Double S_Sums L_Double L_Double2 L_Double4 L_Sums L_Near L_PSF L_PSF2 S_Over L_Over.
Local Open Scope R_scope.

Lemma zmax_le (l : list Z) z : In z l -> (z <= zmax l)%Z.
Proof.
  unfold zmax. assert (G : forall l a, (a <= fold_left Z.max l a)%Z). { induction l0 as [|x l0 IH]; intros a; cbn; [lia|]. specialize (IH (Z.max a x)). lia. }
  generalize 0%Z. induction l as [|x l IH]; intros a []; cbn; [subst; specialize (G l (Z.max a z)); lia|now apply IH].
Qed.
Lemma mapM_exact {X Y} (h : X -> result Y) l m : Forall2 (fun x y => h x = Ok y) l m -> mapM h l = Ok m.
Proof. induction 1 as [|x y l m H1 H2 IH]; [reflexivity|]. cbn. rewrite H1. cbn. now rewrite IH. Qed.

Section Evaluate.
  Variables (rotate : img f64 -> f64 -> img f64) (names : list string) (f : list f64 -> f64 -> f64 -> f64) (ps : list f64) (pa : f64) (g : R -> R -> R) (A B delta lip : R) (st : pst f64) (F : nat) (zx zy : list Z).
  Hypotheses (Dr : draws (f ps) g A B delta lip) (A1 : 1 <= A <= 2 ^ 30) (Lip : 0 <= lip) (Bd : B + delta <= 2 ^ 100) (F1 : (1 <= F)%nat) (F2 : (Z.of_nat F <= 2 ^ 20)%Z)
    (New : p_crange st = None) (Eo : p_over st = Some (OInt (Z.of_nat F))) (Ep : p_psf st = None) (Epo : p_psf_over st = None)
    (L1 : (1 <= length zx)%nat) (L2 : length zy = length zx) (Zx : Forall (fun z => Rabs (IZR z) <= A) zx) (Zy : Forall (fun z => Rabs (IZR z) <= A) zy).

  Lemma small z : Rabs (IZR z) <= A -> (Z.abs z <= 2 ^ 40)%Z.
  Proof. intros H. apply le_IZR. rewrite abs_IZR. change (IZR (2 ^ 40)) with 1099511627776. assert (P : 2 ^ 30 = 1073741824) by ring. rewrite P in A1. lra. Qed.
  Theorem evaluate_double : exists l, fst (evaluate rotate (mksm names (Fresh f)) st (map f64_ofZ zx) (map f64_ofZ zy) ps pa) = Ok l /\ length l = length zx /\
    forall i, (i < length zx)%nat -> let v := nth i l nnan in double v /\
      Rabs (dval v - mean_samples g F (IZR (nth i zx 0%Z)) (IZR (nth i zy 0%Z))) <= delta + lip * (64 * u64 * A) + mean_error (F * F) (B + delta).
  Proof.
    assert (Sx : Forall (fun z => (Z.abs z <= 2 ^ 40)%Z) zx) by (eapply Forall_impl; [|exact Zx]; apply small). assert (Sy : Forall (fun z => (Z.abs z <= 2 ^ 40)%Z) zy) by (eapply Forall_impl; [|exact Zy]; apply small).
    destruct (min_whole zx L1 Sx) as (mx & Mx1 & Mx2 & Mx3). destruct (min_whole zy ltac:(rewrite L2; auto) Sy) as (my & My1 & My2 & My3). destruct (max_some zx L1) as [wx Wx]. destruct (max_some zy ltac:(rewrite L2; auto)) as [wy Wy].
    unfold evaluate. rewrite Mx1, Wx, My1, Wy. cbn [bind].
    assert (Ix : mapM (fun x : f64 => to_int (nsub x (f64_ofZ mx))) (map f64_ofZ zx) = Ok (map (fun z => (z - mx)%Z) zx)).
    { apply mapM_exact. rewrite Forall_forall in Sx. clear L1 L2 Zx Mx1 Mx3 Wx. assert (Sm := Sx mx Mx2). clear Mx2. induction zx as [|z l IH]; cbn [map]; constructor; [apply index_whole; auto; apply Sx; now left|apply IH; intros; apply Sx; now right]. }
    assert (Iy : mapM (fun x : f64 => to_int (nsub x (f64_ofZ my))) (map f64_ofZ zy) = Ok (map (fun z => (z - my)%Z) zy)).
    { apply mapM_exact. rewrite Forall_forall in Sy. clear L2 Zy My1 My3 Wy. assert (Sm := Sy my My2). clear My2. induction zy as [|z l IH]; cbn [map]; constructor; [apply index_whole; auto; apply Sy; now left|apply IH; intros; apply Sy; now right]. }
    rewrite Ix, Iy. cbn [bind]. rewrite Eo. set (imax := zmax (map (fun z => (z - mx)%Z) zx)). set (jmax := zmax (map (fun z => (z - my)%Z) zy)). set (gs := (Z.max imax jmax + 1)%Z).
    assert (PF : psf_factor st = 1%Z) by (unfold psf_factor; now rewrite Epo). assert (OF : over_factor st = Z.of_nat F) by (unfold over_factor; now rewrite Eo). rewrite PF, OF, Z.div_1_r.
    unfold main_grid. rewrite New, andb_false_r. cbv beta iota. set (st' := if p_cache st then _ else _). cbn [fst].
    assert (P1 : p_psf st' = None) by (unfold st'; destruct (p_cache st); auto). assert (P2 : psf_factor st' = 1%Z) by (unfold st'; destruct (p_cache st); auto).
    unfold finish. rewrite P1, P2. change (1 <? 1)%Z with false. cbv iota. unfold sm_eval, make_grid. cbn [sm_kind fst snd iny inx px].
    set (n := Z.to_nat (gs * Z.of_nat F)). set (m := if (1 <? Z.of_nat F)%Z then _ else _).
    set (val := fun J I => if (1 <? Z.of_nat F)%Z then ndiv (nsum (block (f ps) mx my F I J)) (nofZ (Z.of_nat (F * F))) else f ps (grid_coord (f64_ofZ mx) (Z.of_nat F) I) (grid_coord (f64_ofZ my) (Z.of_nat F) J)).
    assert (G0 : (0 <= gs)%Z). { assert (0 <= imax)%Z; [|unfold gs; lia]. eapply Z.le_trans; [|apply (zmax_le _ (mx - mx)%Z)]; [lia|]. apply in_map_iff. now exists mx. }
    assert (Sz : iny m = Z.to_nat gs /\ inx m = Z.to_nat gs /\ forall J I, px m J I = val J I).
    { unfold m, val. destruct (Z.ltb_spec 1 (Z.of_nat F)) as [C|C].
      - assert (E : (n / F)%nat = Z.to_nat gs). { unfold n. rewrite Z2Nat.inj_mul, Nat2Z.id by lia. apply Nat.div_mul. lia. }
        unfold block_mean. cbn [iny inx px]. rewrite Nat2Z.id. split; [exact E|]. split; [exact E|]. intros J I. unfold block. reflexivity.
      - assert (F = 1%nat) by lia. unfold n. rewrite H. cbn [iny inx px]. rewrite Z.mul_1_r. auto. }
    destruct Sz as (Z1 & Z2 & Z3). set (res := map (fun p => val (Z.to_nat (snd p - my)) (Z.to_nat (fst p - mx))) (combine zx zy)).
    assert (Cm : combine (map (fun z => (z - mx)%Z) zx) (map (fun z => (z - my)%Z) zy) = map (fun p => (fst p - mx, snd p - my)%Z) (combine zx zy)).
    { clear. revert zy. induction zx as [|a l IH]; intros [|b k]; cbn; auto. now rewrite IH. }
    exists res. assert (Lc : length (combine zx zy) = length zx) by (rewrite combine_length, L2; lia). split; [|split].
    - rewrite Cm. unfold res. apply mapM_exact. assert (In1 : forall p, In p (combine zx zy) -> In (fst p) zx /\ In (snd p) zy) by (intros [a b] Hp; split; [eapply in_combine_l; eauto|eapply in_combine_r; eauto]).
      assert (Q : forall p, In (fst p) zx /\ In (snd p) zy -> (if ((snd p - my <? Z.of_nat (iny m)) && (fst p - mx <? Z.of_nat (inx m)))%Z then Ok (px m (Z.to_nat (snd p - my)) (Z.to_nat (fst p - mx))) else Err IndexError) = Ok (val (Z.to_nat (snd p - my)) (Z.to_nat (fst p - mx)))).
      { intros [a b] [Ha Hb]. cbn [fst snd] in *. rewrite Z1, Z2, Z2Nat.id by auto. assert (Ua : (a - mx <= imax)%Z) by (apply zmax_le, in_map_iff; eauto). assert (Ub : (b - my <= jmax)%Z) by (apply zmax_le, in_map_iff; eauto).
        assert (H1 : (b - my <? gs)%Z = true) by (apply Z.ltb_lt; unfold gs; lia). assert (H2 : (a - mx <? gs)%Z = true) by (apply Z.ltb_lt; unfold gs; lia). rewrite H1, H2. cbn [andb]. now rewrite Z3. }
      clear - In1 Q. induction (combine zx zy) as [|p l IH]; cbn [map]; constructor; [apply (Q p), In1; now left|apply IH; intros; apply In1; now right].
    - unfold res. now rewrite map_length.
    - intros i Hi. set (v := nth i res nnan). assert (Ev : v = val (Z.to_nat (nth i zy 0%Z - my)) (Z.to_nat (nth i zx 0%Z - mx))).
      { unfold v, res. apply nth_error_nth. rewrite nth_error_map. assert (Hc : nth_error (combine zx zy) i = Some (nth i zx 0%Z, nth i zy 0%Z)). { rewrite <- combine_nth by auto. apply nth_error_nth'. now rewrite Lc. } rewrite Hc. reflexivity. }
      set (a := nth i zx 0%Z) in *. set (b := nth i zy 0%Z) in *. assert (Ha : In a zx) by (apply nth_In; auto). assert (Hb : In b zy) by (apply nth_In; rewrite L2; auto).
      rewrite Forall_forall in Zx, Zy. assert (Na : IZR mx + INR (Z.to_nat (a - mx)) = IZR a). { specialize (Mx3 a Ha). rewrite INR_IZR_INZ, Z2Nat.id, minus_IZR by lia. ring. } assert (Nb : IZR my + INR (Z.to_nat (b - my)) = IZR b). { specialize (My3 b Hb). rewrite INR_IZR_INZ, Z2Nat.id, minus_IZR by lia. ring. }
      rewrite Ev, <- Na, <- Nb. assert (Ra := Zx a Ha). assert (Rb := Zy b Hb). rewrite <- Na in Ra. rewrite <- Nb in Rb. unfold val. destruct (Z.ltb_spec 1 (Z.of_nat F)) as [C|C].
      + apply (pixel_mean (f ps) g A B delta lip); auto.
      + assert (EF : F = 1%nat) by lia. destruct (sample (f ps) g A B delta lip mx my F (Z.to_nat (a - mx)) (Z.to_nat (b - my)) Dr A1 Lip) with (a := 0%nat) (b := 0%nat) as (V1 & V2 & V3); auto; try lia.
        rewrite EF in *. rewrite !Nat.mul_1_r, !Nat.add_0_r in *. split; auto. rewrite mean_one. replace (IZR mx + INR (Z.to_nat (a - mx)) - 1 / 2 + (INR 0 + 1 / 2) / INR 1) with (IZR mx + INR (Z.to_nat (a - mx))) in V3 by (cbn [INR]; field). replace (IZR my + INR (Z.to_nat (b - my)) - 1 / 2 + (INR 0 + 1 / 2) / INR 1) with (IZR my + INR (Z.to_nat (b - my))) in V3 by (cbn [INR]; field).
        eapply Rle_trans; [exact V3|]. assert (0 <= mean_error 1 (B + delta)); [|cbn [Nat.mul Nat.add]; lra]. unfold mean_error. apply Rplus_le_le_0_compat; [|apply Rlt_le, Rinv_0_lt_compat, pow_lt; lra].
        apply Rmult_le_pos; [apply (grow_0 2)|]. eapply Rle_trans; [apply Rabs_pos|exact V2].
  Qed.
End Evaluate.
