(** Aperture sums in double precision. *)
From Coq Require Import SpecFloat ZArith Reals Lra Lia Permutation.
From Flocq Require Import Core BinarySingleNaN.
From Verif Require Import Base Num Numpy M_Utils M_Photometry S_Petrosian S_Photometry S_Double S_Sums L_Double L_Double2 L_Double3 L_Double4 L_Sums.
Local Open Scope R_scope.

Lemma pixels_prod ny nx : pixels ny nx = list_prod (seq 0 ny) (seq 0 nx).
Proof. unfold pixels. induction (seq 0 ny) as [|j l IH]; cbn; auto. now rewrite IH. Qed.
Lemma covered_in ny nx w mask j i : In (j, i) (covered ny nx w mask) -> (j < ny)%nat /\ (i < nx)%nat /\ 0 < w j i.
Proof.
  intros H. apply filter_In in H. destruct H as [H1 H2]. apply in_prod_iff in H1. rewrite !in_seq in H1. cbn [fst snd] in H2. apply andb_prop in H2.
  destruct H2 as [H2 _]. apply Rltb_lt in H2. repeat split; auto; lia.
Qed.
Lemma used_covered (w : nat -> nat -> f64) mask ny nx : (forall j i, (j < ny)%nat -> (i < nx)%nat -> double (w j i)) ->
  filter (used w mask) (pixels ny nx) = covered ny nx (fun j i => dval (w j i)) mask.
Proof.
  intros D. unfold covered. rewrite pixels_prod. apply filter_ext_in. intros (j, i) H. apply in_prod_iff in H. rewrite !in_seq in H. unfold used. cbn [fst snd].
  f_equal. rewrite d_ltb; [reflexivity|split; [reflexivity|exact I]|apply D; lia].
Qed.

Section Flux.
  Variables (overlap : aperture f64 -> nat -> nat -> option (nat -> nat -> f64)) (ap : aperture f64) (data : img f64) (mask : option (img bool)) (w : nat -> nat -> f64).
  Hypotheses (Hw : overlap ap (iny data) (inx data) = Some w) (Hm : fits mask data)
    (Dw : forall j i, (j < iny data)%nat -> (i < inx data)%nat -> double (w j i)).
  Let P := covered (iny data) (inx data) (fun j i => dval (w j i)) mask.
  Definition term (p : nat * nat) : f64 := nmul (px data (fst p) (snd p)) (w (fst p) (snd p)).

  Lemma flux_run : do_photometry overlap ap data None mask = Ok (nsum (map term P), None).
  Proof.
    unfold do_photometry. replace (match mask with None => true | Some m => same_shape m data end) with true.
    2:{ destruct mask as [m|]; auto. destruct Hm as [H1 H2]. unfold same_shape. rewrite H1, H2, !Nat.eqb_refl. reflexivity. }
    rewrite Hw. rewrite used_covered by exact Dw. reflexivity.
  Qed.

  Section Rounded.
    Hypotheses (Dd : forall j i, In (j, i) P -> double (px data j i) /\ fair (dval (px data j i)) /\ moderate (dval (w j i)))
      (Np : INR (S (length P)) * u64 <= 1).
    Lemma term_ok p : In p P -> double (term p) /\ Rabs (dval (term p)) <= 2 ^ 400 /\
      exists d, Rabs d <= u64 /\ dval (term p) = dval (px data (fst p) (snd p)) * dval (w (fst p) (snd p)) * (1 + d).
    Proof.
      destruct p as [j i]. intros Hp. destruct (Dd j i Hp) as (D1 & F & M). unfold term. cbn [fst snd].
      assert (Dw' : double (w j i)). { apply covered_in in Hp. apply Dw; apply Hp. }
      pose proof (moderate_sized _ M) as Sw. destruct F as [Z|F].
      - destruct (d_mul (px data j i) (w j i) D1 Dw') as [H1 H2].
        + rewrite Z, Rmult_0_l, rnd_0, Rabs_R0. apply bpow_gt_0.
        + rewrite H2, Z, Rmult_0_l, rnd_0. split; auto. split; [rewrite Rabs_R0; apply Rlt_le, pow_lt; lra|]. exists 0. rewrite Rabs_R0. pose proof u64_val. lra.
      - destruct (dd_mul 200 200 _ _ ltac:(lia) D1 Dw' (moderate_sized _ F) Sw) as (H1 & H2 & H3). split; auto. split; auto.
        destruct H2 as [_ H2]. change (200 + 200)%Z with 400%Z in H2. rewrite bpow_powerRZ in H2.
        change (powerRZ (IZR radix2) 400) with (2 ^ Pos.to_nat 400) in H2. now replace (Pos.to_nat 400) with 400%nat in H2 by reflexivity.
    Qed.
    Lemma terms_sum l : incl l P -> Forall double (map term l) /\ total (map Rabs (map dval (map term l))) <= INR (length l) * 2 ^ 400 /\
      Rabs (total (map dval (map term l)) - over l (fun j i => dval (px data j i) * dval (w j i)))
        <= u64 * over l (fun j i => Rabs (dval (px data j i) * dval (w j i))) /\
      total (map Rabs (map dval (map term l))) <= (1 + u64) * over l (fun j i => Rabs (dval (px data j i) * dval (w j i))).
    Proof.
      pose proof u64_val as U. unfold over, total. induction l as [|p l IH]; intros H; cbn [map fold_right length INR].
      - rewrite Rminus_0_r, Rabs_R0. repeat split; try constructor; simpl; lra.
      - destruct IH as (I1 & I2 & I3 & I4); [intros x Hx; apply H; now right|]. destruct (term_ok p) as (T1 & T2 & d & T3 & T4); [apply H; now left|].
        split; [now constructor|]. rewrite (S_INR (length l)) || idtac. set (x := dval (px data (fst p) (snd p)) * dval (w (fst p) (snd p))) in *.
        split; [|split].
        + change (match length l with 0%nat => 1 | S _ => INR (length l) + 1 end) with (INR (S (length l))). rewrite S_INR. lra.
        + match goal with |- Rabs (?a + ?b - (?x + ?y)) <= _ => replace (a + b - (x + y)) with ((a - x) + (b - y)) by ring end.
          eapply Rle_trans; [apply Rabs_triang|]. rewrite Rmult_plus_distr_l. apply Rplus_le_compat; auto. rewrite T4.
          replace (x * (1 + d) - x) with (d * x) by ring. rewrite Rabs_mult. apply Rmult_le_compat_r; [apply Rabs_pos|auto].
        + rewrite Rmult_plus_distr_l. apply Rplus_le_compat; auto. rewrite T4, Rabs_mult, Rmult_comm. apply Rmult_le_compat_r; [apply Rabs_pos|].
          eapply Rle_trans; [apply Rabs_triang|]. rewrite Rabs_R1. lra.
    Qed.
    Lemma flux_any s : added (n0 :: map term P) s -> double s /\
      Rabs (dval s - over P (fun j i => dval (px data j i) * dval (w j i)))
        <= ((1 + u64) ^ (S (length P)) - 1) * over P (fun j i => Rabs (dval (px data j i) * dval (w j i))).
    Proof.
      intros H. destruct (terms_sum P (incl_refl _)) as (D & B & E1 & E2). destruct zero_ok as [Z1 Z2]. pose proof u64_val as U.
      assert (S1 : total (map Rabs (map dval (n0 :: map term P))) = total (map Rabs (map dval (map term P)))).
      { cbn [map]. rewrite Z2, Rabs_R0. unfold total. cbn [fold_right]. ring. }
      assert (S2 : total (map dval (n0 :: map term P)) = total (map dval (map term P))).
      { cbn [map]. rewrite Z2. unfold total. cbn [fold_right]. ring. }
      destruct (added_error _ _ H) as [Ds Es].
      - now constructor.
      - rewrite S1. eapply Rle_trans; [exact B|]. rewrite S_INR in Np. apply Rle_trans with (2 ^ 53 * 2 ^ 400).
        + apply Rmult_le_compat_r; [apply Rlt_le, pow_lt; lra|]. unfold u64 in Np. assert (0 < 2 ^ 53) by (apply pow_lt; lra).
          apply Rmult_le_reg_r with (/ 2 ^ 53); [now apply Rinv_0_lt_compat|]. rewrite Rinv_r by lra. assert (0 < / 2 ^ 53) by now apply Rinv_0_lt_compat. lra.
        + rewrite <- pow_add. apply Rle_pow; [lra|]. apply Nat.leb_le. reflexivity.
      - cbn [length]. rewrite map_length. exact Np.
      - split; auto. rewrite S1, S2 in Es. cbn [length] in Es. rewrite map_length in Es. replace (S (length P) - 1)%nat with (length P) in Es by lia.
        set (X := over P (fun j i => dval (px data j i) * dval (w j i))) in *. set (Y := over P (fun j i => Rabs (dval (px data j i) * dval (w j i)))) in *.
        set (t := total (map dval (map term P))) in *. set (q := total (map Rabs (map dval (map term P)))) in *.
        replace (dval s - X) with ((dval s - t) + (t - X)) by ring. eapply Rle_trans; [apply Rabs_triang|].
        change ((1 + u64) ^ S (length P) - 1) with (grow (S (length P))). rewrite grow_S. pose proof (grow_0 (length P)) as G.
        assert (grow (length P) * q <= grow (length P) * ((1 + u64) * Y)) by (apply Rmult_le_compat_l; auto). lra.
    Qed.
  End Rounded.

  Section Counts.
    Hypotheses (Dd : forall j i, In (j, i) P -> double (px data j i) /\ whole (dval (px data j i)) /\ dval (w j i) = 1)
      (Small : over P (fun j i => Rabs (dval (px data j i))) <= 2 ^ 53).
    Lemma bounded_in l p : In p l -> Rabs (dval (px data (fst p) (snd p))) <= over l (fun j i => Rabs (dval (px data j i))).
    Proof.
      unfold over, total. induction l as [|q l IH]; intros H; [contradiction|]. cbn [map fold_right].
      assert (0 <= fold_right Rplus 0 (map (fun p => Rabs (dval (px data (fst p) (snd p)))) l)).
      { clear. induction l as [|x l IH]; cbn; [lra|]. pose proof (Rabs_pos (dval (px data (fst x) (snd x)))). lra. }
      destruct H as [<-|H]; [lra|]. specialize (IH H). pose proof (Rabs_pos (dval (px data (fst q) (snd q)))). lra.
    Qed.
    Lemma count_term p : In p P -> double (term p) /\ dval (term p) = dval (px data (fst p) (snd p)).
    Proof.
      intros Hp. pose proof (bounded_in P p Hp) as B. destruct p as [j i]. destruct (Dd j i Hp) as (D1 & [z F] & M). unfold term. cbn [fst snd] in *.
      assert (Dw' : double (w j i)). { apply covered_in in Hp. apply Dw; apply Hp. }
      assert (Z : (Z.abs z <= 2 ^ 53)%Z).
      { apply le_IZR. rewrite abs_IZR, <- F. replace (IZR (2 ^ 53)) with (2 ^ 53); [lra|exact (pow_IZR 2 53)]. }
      assert (R : rnd (dval (px data j i) * dval (w j i)) = dval (px data j i)). { rewrite M, Rmult_1_r, F. now apply whole_format. }
      destruct (d_mul (px data j i) (w j i) D1 Dw') as [H1 H2]; rewrite R in *; auto.
      eapply Rle_lt_trans; [exact B|]. eapply Rle_lt_trans; [exact Small|]. replace (2 ^ 53) with (bpow radix2 53); [apply bpow_lt; lia|]. rewrite bpow_powerRZ. reflexivity.
    Qed.
    Lemma counts_any s : added (n0 :: map term P) s -> double s /\ dval s = over P (fun j i => dval (px data j i)).
    Proof.
      intros H. destruct zero_ok as [Z1 Z2].
      assert (E : map dval (map term P) = map (fun p => dval (px data (fst p) (snd p))) P).
      { rewrite map_map. apply map_ext_in. intros p Hp. now apply count_term. }
      destruct (added_whole _ _ H) as (D & V & _).
      - constructor; auto. apply Forall_forall. intros x Hx. apply in_map_iff in Hx. destruct Hx as (p & <- & Hp). now apply count_term.
      - cbn [map]. constructor; [exists 0%Z; rewrite Z2; reflexivity|]. rewrite E. apply Forall_forall. intros x Hx. apply in_map_iff in Hx. destruct Hx as ((j, i) & <- & Hp). now apply Dd.
      - cbn [map]. rewrite E, Z2, Rabs_R0, map_map. unfold total. cbn [fold_right]. rewrite Rplus_0_l. exact Small.
      - split; auto. rewrite V. cbn [map]. rewrite E, Z2. unfold total. cbn [fold_right]. rewrite Rplus_0_l. reflexivity.
    Qed.
  End Counts.
End Flux.

Lemma flux_double overlap ap (data : img f64) mask w : overlap ap (iny data) (inx data) = Some w -> fits mask data ->
  (forall j i, (j < iny data)%nat -> (i < inx data)%nat -> double (w j i)) ->
  let P := covered (iny data) (inx data) (fun j i => dval (w j i)) mask in
  (forall j i, In (j, i) P -> double (px data j i) /\ fair (dval (px data j i)) /\ moderate (dval (w j i))) ->
  INR (S (length P)) * u64 <= 1 ->
  exists s, do_photometry overlap ap data None mask = Ok (s, None) /\
    added (n0 :: map (fun p => nmul (px data (fst p) (snd p)) (w (fst p) (snd p))) P) s /\
    forall t, added (n0 :: map (fun p => nmul (px data (fst p) (snd p)) (w (fst p) (snd p))) P) t -> double t /\
      Rabs (dval t - over P (fun j i => dval (px data j i) * dval (w j i)))
        <= ((1 + u64) ^ (S (length P)) - 1) * over P (fun j i => Rabs (dval (px data j i) * dval (w j i))).
Proof.
  intros Hw Hm Dw P Dd Np. eexists. split; [apply (flux_run overlap ap data mask w Hw Hm Dw)|]. split; [apply nsum_added|].
  intros t Ht. exact (flux_any data mask w Dw Dd Np t Ht).
Qed.
Lemma counts_double overlap ap (data : img f64) mask w : overlap ap (iny data) (inx data) = Some w -> fits mask data ->
  (forall j i, (j < iny data)%nat -> (i < inx data)%nat -> double (w j i)) ->
  let P := covered (iny data) (inx data) (fun j i => dval (w j i)) mask in
  (forall j i, In (j, i) P -> double (px data j i) /\ whole (dval (px data j i)) /\ dval (w j i) = 1) ->
  over P (fun j i => Rabs (dval (px data j i))) <= 2 ^ 53 ->
  exists s, do_photometry overlap ap data None mask = Ok (s, None) /\
    added (n0 :: map (fun p => nmul (px data (fst p) (snd p)) (w (fst p) (snd p))) P) s /\
    forall t, added (n0 :: map (fun p => nmul (px data (fst p) (snd p)) (w (fst p) (snd p))) P) t -> double t /\
      dval t = over P (fun j i => dval (px data j i)).
Proof.
  intros Hw Hm Dw P Dd Np. eexists. split; [apply (flux_run overlap ap data mask w Hw Hm Dw)|]. split; [apply nsum_added|].
  intros t Ht. exact (counts_any data mask w Dw Dd Np t Ht).
Qed.
Lemma ones_over l : over l (fun _ _ => 1) = INR (length l).
Proof. unfold over, total. induction l as [|p l IH]; auto. cbn [map fold_right]. rewrite IH. cbn [length]. rewrite S_INR. ring. Qed.
Lemma area_double overlap ap (data : img f64) mask w : overlap ap (iny data) (inx data) = Some w -> fits mask data ->
  (forall j i, (j < iny data)%nat -> (i < inx data)%nat -> double (w j i)) ->
  let P := covered (iny data) (inx data) (fun j i => dval (w j i)) mask in
  (forall j i, In (j, i) P -> dval (w j i) = 1) -> INR (length P) <= 2 ^ 53 ->
  exists s, do_photometry overlap ap (ones_like data) None mask = Ok (s, None) /\ double s /\ dval s = INR (length P).
Proof.
  intros Hw Hm Dw P D1 Np. destruct one_double as [O1 O2].
  destruct (counts_double overlap ap (ones_like data) mask w Hw Hm Dw) as (s & H1 & H2 & H3).
  - intros j i Hp. cbn [ones_like px]. split; auto. split; [exists 1%Z; auto|]. apply D1. exact Hp.
  - cbn [ones_like px iny inx]. rewrite O2, Rabs_R1. fold P. now rewrite ones_over.
  - exists s. split; auto. destruct (H3 s H2) as [A B]. split; auto. rewrite B. cbn [ones_like px iny inx]. rewrite O2. apply ones_over.
Qed.
