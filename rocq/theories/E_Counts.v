(** A concrete image of counts. *)
From Coq Require Import SpecFloat ZArith Lia.
From Verif Require Import Base Num Numpy M_Utils M_Photometry M_Petrosian S_Petrosian S_Photometry S_Double S_Sums S_Counts L_Double L_Double3 L_Double4 E_Double E_Sums.
Local Open Scope R_scope.

(** apertures of r pixels of a strip *)
Definition row (r : f64) (j i : nat) : f64 := match f64_trunc r with Some z => if (Z.of_nat i <? z)%Z then n1 else n0 | None => n0 end.
Definition rowed (ap : aperture f64) (ny nx : nat) : option (nat -> nat -> f64) := Some (row (ap_a ap)).
Definition rC : list f64 := map f64_ofZ [1; 3; 6; 10]%Z.
Definition counts : img f64 := strip [20; 10; 10; 4; 3; 3; 1; 1; 0; 0]%Z.
Definition pixC (n : nat) : list (nat * nat) := map (fun i => (0, i)%nat) (seq 0 n).

Lemma row_of z i : (0 <= z <= 2 ^ 53)%Z -> f64_trunc (f64_ofZ z) = Some z -> dval (row (f64_ofZ z) 0 i) = if (Z.of_nat i <? z)%Z then 1 else 0.
Proof. intros _ H. unfold row. rewrite H. destruct (Z.of_nat i <? z)%Z; [apply one_double|reflexivity]. Qed.
Lemma row_double r j i : double (row r j i).
Proof. unfold row. destruct (f64_trunc r) as [z|]; [destruct (Z.of_nat i <? z)%Z|]; try apply one_double; split; (reflexivity || exact I). Qed.
Lemma taken_row z n : (z = 1 /\ n = 1 \/ z = 3 /\ n = 3 \/ z = 6 /\ n = 6 \/ z = 10 /\ n = 10)%Z ->
  taken 1 10 (fun j i => dval (row (f64_ofZ z) j i)) None = pixC (Z.to_nat n).
Proof.
  intros H. unfold taken. assert (T : Rltb 0 1 = true) by (apply Rltb_true; lra). assert (F : Rltb 0 0 = false) by (apply Rltb_false; lra).
  assert (G : f64_trunc (f64_ofZ z) = Some z) by (destruct H as [[-> _]|[[-> _]|[[-> _]|[-> _]]]]; reflexivity).
  cbn [seq list_prod map app filter fst snd]. rewrite !row_of by (auto; lia).
  destruct H as [[-> ->]|[[-> ->]|[[-> ->]|[-> ->]]]]; cbn [Z.of_nat Pos.of_succ_nat Pos.succ Z.ltb Z.compare Pos.compare Pos.compare_cont]; rewrite ?T, ?F; reflexivity.
Qed.
Lemma px_counts i : (i < 10)%nat -> double (px counts 0 i) /\ dval (px counts 0 i) = IZR (nth i [20; 10; 10; 4; 3; 3; 1; 1; 0; 0]%Z 0%Z).
Proof. intros H. cbn [counts strip px]. apply ofZ_double. do 10 (destruct i as [|i]; [cbn [nth]; lia|]). lia. Qed.
Lemma cover_row z n : (z = 1 /\ n = 1 \/ z = 3 /\ n = 3 \/ z = 6 /\ n = 6 \/ z = 10 /\ n = 10)%Z ->
  taken (iny counts) (inx counts) (fun j i => dval (row (f64_ofZ z) j i)) None = pixC (Z.to_nat n).
Proof. apply taken_row. Qed.
Lemma in_pix n j i : In (j, i) (pixC n) -> j = 0%nat /\ (i < n)%nat.
Proof. unfold pixC. intros H. apply in_map_iff in H. destruct H as (x & E & H). injection E as <- <-. apply in_seq in H. split; auto. lia. Qed.
Lemma over_row f z v n : (z = 1 /\ n = 1 /\ v = 20 \/ z = 3 /\ n = 3 /\ v = 40 \/ z = 6 /\ n = 6 /\ v = 50 \/ z = 10 /\ n = 10 /\ v = 52)%Z ->
  (forall i, (i < 10)%nat -> f 0%nat i = IZR (nth i [20; 10; 10; 4; 3; 3; 1; 1; 0; 0]%Z 0%Z)) -> over (pixC (Z.to_nat n)) f = IZR v.
Proof.
  intros H F. destruct H as [(-> & -> & ->)|[(-> & -> & ->)|[(-> & -> & ->)|(-> & -> & ->)]]];
    cbv [Z.to_nat Pos.to_nat Pos.iter_op Nat.add over pixC seq map fst snd total fold_right]; rewrite !F by lia; cbn [nth]; rewrite <- ?plus_IZR; f_equal.
Qed.
Lemma countedC z : In z [1; 3; 6; 10]%Z -> counted rowed PyFloat counts (n0, n0) None n1 n0 row (f64_ofZ z).
Proof.
  intros Hz. assert (Z0 : exists v, (z = 1 /\ z = 1 /\ v = 20 \/ z = 3 /\ z = 3 /\ v = 40 \/ z = 6 /\ z = 6 /\ v = 50 \/ z = 10 /\ z = 10 /\ v = 52)%Z).
  { cbn [In] in Hz. destruct Hz as [<-|[<-|[<-|[<-|[]]]]]; [exists 20%Z|exists 40%Z|exists 50%Z|exists 52%Z]; lia. }
  destruct Z0 as (v & Hv). assert (Hz' : (z = 1 /\ z = 1 \/ z = 3 /\ z = 3 \/ z = 6 /\ z = 6 \/ z = 10 /\ z = 10)%Z) by lia.
  unfold counted. cbv zeta. rewrite (cover_row z z Hz'). split; [|split; [|split; [|split]]].
  - cbn [In] in Hz. destruct Hz as [<-|[<-|[<-|[<-|[]]]]]; (eexists; split; [reflexivity|reflexivity]).
  - intros. apply row_double.
  - intros j i H. apply in_pix in H. destruct H as [-> H]. assert (Hi : (i < 10)%nat) by lia. destruct (px_counts i Hi) as [A B]. split; auto. split; [eexists; exact B|].
    rewrite row_of; [|lia|cbn [In] in Hz; destruct Hz as [<-|[<-|[<-|[<-|[]]]]]; reflexivity]. destruct (Z.ltb_spec (Z.of_nat i) z); [reflexivity|lia].
  - assert (Sum : over (pixC (Z.to_nat z)) (fun j i => Rabs (dval (px counts j i))) = IZR v).
    { apply over_row with z; auto. intros i Hi. rewrite (proj2 (px_counts i Hi)). apply Rabs_pos_eq. apply IZR_le. do 10 (destruct i as [|i]; [cbn [nth]; lia|]). lia. }
    rewrite Sum. unfold countable. rewrite <- abs_IZR. assert (IZR (Z.abs v) <= 52) by (apply IZR_le; lia). assert (0 <= IZR (Z.abs v)) by (apply IZR_le; lia). lra.
  - unfold pixC. rewrite map_length, seq_length, INR_IZR_INZ, Z2Nat.id by lia. unfold countable. rewrite <- abs_IZR.
    assert (IZR (Z.abs z) <= 10) by (apply IZR_le; lia). assert (0 <= IZR (Z.abs z)) by (apply IZR_le; lia). lra.
Qed.
Lemma areasC : map (fun r => INR (length (taken (iny counts) (inx counts) (fun j i => dval (row r j i)) None))) rC = [1; 3; 6; 10].
Proof.
  unfold rC. cbn [map]. rewrite (cover_row 1 1), (cover_row 3 3), (cover_row 6 6), (cover_row 10 10) by lia.
  unfold pixC. rewrite !map_length, !seq_length, !INR_IZR_INZ. reflexivity.
Qed.
Lemma fluxesC : map (fun r => over (taken (iny counts) (inx counts) (fun j i => dval (row r j i)) None) (fun j i => dval (px counts j i))) rC = [20; 40; 50; 52].
Proof.
  unfold rC. cbn [map]. rewrite (cover_row 1 1), (cover_row 3 3), (cover_row 6 6), (cover_row 10 10) by lia.
  assert (F : forall i, (i < 10)%nat -> (fun j i => dval (px counts j i)) 0%nat i = IZR (nth i [20; 10; 10; 4; 3; 3; 1; 1; 0; 0]%Z 0%Z)) by (intros i Hi; apply px_counts; auto).
  rewrite (over_row _ 1 20 1 ltac:(lia) F), (over_row _ 3 40 3 ltac:(lia) F), (over_row _ 6 50 6 ltac:(lia) F), (over_row _ 10 52 10 ltac:(lia) F). reflexivity.
Qed.
Lemma all_counted r : In r rC -> counted rowed PyFloat counts (n0, n0) None n1 n0 row r.
Proof. intros H. unfold rC in H. apply in_map_iff in H. destruct H as (z & <- & H). now apply countedC. Qed.
Lemma photC : radial_photometry rowed PyFloat counts (n0, n0) rC None None n1 n0 = Ok (LD, AD, [nnan; nnan; nnan; nnan]).
Proof. vm_compute. reflexivity. Qed.
(** larger whole numbers can change in the rounding to six decimals *)
Lemma big_count : nround6 (f64_ofZ 900719925507) = S754_finite false 7378697629753345 (-13) /\ f64_ofZ 900719925507 = S754_finite false 7378697629753344 (-13).
Proof. vm_compute. split; reflexivity. Qed.
