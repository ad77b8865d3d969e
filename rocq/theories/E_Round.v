(** A concrete image whose apertures cover pixels by half. *)
From Coq Require Import SpecFloat ZArith Lia.
From Verif Require Import Base Num Numpy M_Utils M_Photometry M_Petrosian S_Petrosian S_Photometry S_Double S_Sums S_Counts S_Photo6 S_Round L_Double L_Double3 L_Double4 L_Sums E_Double E_Sums E_Grid E_Counts.
Local Open Scope R_scope.

Definition rowh (r : f64) (j i : nat) : f64 := match f64_trunc r with Some z => if (Z.of_nat i <? z)%Z then halfd else n0 | None => n0 end.
Definition rowedh (ap : aperture f64) (ny nx : nat) : option (nat -> nat -> f64) := Some (rowh (ap_a ap)).
Definition values : list Z := [20; 10; 10; 4; 3; 3; 1; 1; 0; 0]%Z.

Lemma rowh_of z i : f64_trunc (f64_ofZ z) = Some z -> dval (rowh (f64_ofZ z) 0 i) = if (Z.of_nat i <? z)%Z then 1 / 2 else 0.
Proof. intros H. unfold rowh. rewrite H. destruct (Z.of_nat i <? z)%Z; [apply half_ok|reflexivity]. Qed.
Lemma rowh_double r j i : double (rowh r j i).
Proof. unfold rowh. destruct (f64_trunc r) as [z|]; [destruct (Z.of_nat i <? z)%Z|]; try apply half_ok; split; (reflexivity || exact I). Qed.
Lemma truncC z : In z [1; 3; 6; 10]%Z -> f64_trunc (f64_ofZ z) = Some z.
Proof. cbn [In]. intros [<-|[<-|[<-|[<-|[]]]]]; reflexivity. Qed.
Lemma pixelsC z : In z [1; 3; 6; 10]%Z -> pixels_of counts None rowh (f64_ofZ z) = pixC (Z.to_nat z).
Proof.
  intros H. rewrite <- (cover_row z z) by (cbn [In] in H; lia). unfold pixels_of, taken. apply filter_ext. intros (j, i). cbn [fst snd]. f_equal. unfold rowh, row. rewrite (truncC z H).
  assert (T : forall x, 0 < x -> Rltb 0 x = true) by (intros; now apply Rltb_true). destruct (Z.of_nat i <? z)%Z; [|reflexivity]. rewrite !T; auto; [rewrite (proj2 one_double)|rewrite (proj2 half_ok)]; lra.
Qed.
Lemma px_pos i : (i < 10)%nat -> (0 <= nth i values 0 <= 20)%Z.
Proof. intros H. unfold values. do 10 (destruct i as [|i]; [cbn [nth]; lia|]). lia. Qed.
Lemma inside z i : In z [1; 3; 6; 10]%Z -> (i < Z.to_nat z)%nat -> (i < 10)%nat /\ dval (rowh (f64_ofZ z) 0 i) = 1 / 2.
Proof.
  intros H Hi. rewrite rowh_of by now apply truncC. assert (0 <= z <= 10)%Z by (cbn [In] in H; lia). split; [lia|]. destruct (Z.ltb_spec (Z.of_nat i) z); [reflexivity|lia].
Qed.
Lemma over_pix n f g : (forall i, (i < n)%nat -> f 0%nat i = g i) -> over (pixC n) f = fold_right Rplus 0 (map g (seq 0 n)).
Proof.
  intros H. unfold over, total, pixC. rewrite map_map. f_equal. apply map_ext_in. intros i Hi. apply in_seq in Hi. cbn [fst snd]. apply H. lia.
Qed.
Lemma areaC z : In z [1; 3; 6; 10]%Z -> area_of counts None rowh (f64_ofZ z) = IZR z / 2.
Proof.
  intros H. unfold area_of. rewrite pixelsC by auto. rewrite (over_pix _ _ (fun _ => 1 / 2)) by (intros i Hi; now apply inside).
  cbn [In] in H. destruct H as [<-|[<-|[<-|[<-|[]]]]]; cbv [Z.to_nat Pos.to_nat Pos.iter_op Nat.add]; cbn [seq map fold_right]; lra.
Qed.
Definition fluxed (z : Z) : Z := match z with 1 => 20 | 3 => 40 | 6 => 50 | _ => 52 end%Z.
Lemma sumC z : In z [1; 3; 6; 10]%Z -> fold_right Rplus 0 (map (fun i => IZR (nth i values 0%Z) * (1 / 2)) (seq 0 (Z.to_nat z))) = IZR (fluxed z) / 2.
Proof. intros H. cbn [In] in H. destruct H as [<-|[<-|[<-|[<-|[]]]]]; cbv [Z.to_nat Pos.to_nat Pos.iter_op Nat.add]; cbn [seq map fold_right nth values fluxed]; lra. Qed.
Lemma fluxC z : In z [1; 3; 6; 10]%Z -> flux_of counts None rowh (f64_ofZ z) = IZR (fluxed z) / 2.
Proof.
  intros H. unfold flux_of. rewrite pixelsC by auto. rewrite <- sumC by auto. apply over_pix. intros i Hi. destruct (inside z i H Hi) as [A ->]. now rewrite (proj2 (px_counts i A)).
Qed.
Lemma absC z : In z [1; 3; 6; 10]%Z -> over (pixC (Z.to_nat z)) (fun j i => Rabs (dval (px counts j i) * dval (rowh (f64_ofZ z) j i))) = IZR (fluxed z) / 2.
Proof.
  intros H. rewrite <- sumC by auto. apply over_pix. intros i Hi. destruct (inside z i H Hi) as [A ->]. rewrite (proj2 (px_counts i A)). fold values. apply Rabs_pos_eq.
  apply Rmult_le_pos; [|lra]. apply IZR_le. now apply px_pos.
Qed.
Lemma grow_lin n : 2 * INR n * u64 <= 1 -> grow n <= 2 * INR n * u64.
Proof.
  pose proof u64_val as U. induction n as [|n IH]; [unfold grow; cbn; lra|]. rewrite grow_S, S_INR. intros H. assert (X : grow n <= 2 * INR n * u64) by (apply IH; lra).
  assert (u64 * grow n <= u64 * 1) by (apply Rmult_le_compat_l; lra). lra.
Qed.
Lemma small_loss n x : (n <= 14)%nat -> 0 <= x <= 26 -> 0 <= loss n x <= / 1000000.
Proof.
  intros Hn Hx. unfold loss. fold (grow n). pose proof u64_val as U. pose proof (grow_0 n) as G0. assert (G : grow n <= / 1000000000000).
  { eapply Rle_trans; [apply (grow_le n 14); auto|]. assert (X : INR 14 = 14) by (rewrite INR_IZR_INZ; reflexivity). eapply Rle_trans; [apply grow_lin; rewrite X; lra|]. rewrite X. lra. }
  assert (0 <= grow n * x <= / 1000000000000 * 26) by (split; [apply Rmult_le_pos; lra|apply Rmult_le_compat; lra]). lra.
Qed.
Lemma lossC z : In z [1; 3; 6; 10]%Z -> 0 <= area_loss counts None rowh (f64_ofZ z) <= / 1000000 /\ 0 <= flux_loss counts None rowh (f64_ofZ z) <= / 1000000.
Proof.
  intros H. unfold area_loss, flux_loss. rewrite areaC, pixelsC, absC by auto. unfold pixC. rewrite map_length, seq_length.
  cbn [In] in H. destruct H as [<-|[<-|[<-|[<-|[]]]]]; cbn [fluxed]; split; apply small_loss; (lra || lia).
Qed.
Lemma areasR : map (area_of counts None rowh) rC = [1 / 2; 3 / 2; 6 / 2; 10 / 2].
Proof. unfold rC. cbn [map]. rewrite !areaC by (cbn [In]; tauto). reflexivity. Qed.
Lemma fluxesR : map (flux_of counts None rowh) rC = [20 / 2; 40 / 2; 50 / 2; 52 / 2].
Proof. unfold rC. cbn [map]. rewrite !fluxC by (cbn [In]; tauto). reflexivity. Qed.
Lemma clearR : clear_of counts None rowh (/ 10000) rC 3.
Proof.
  unfold clear_of. rewrite areasR, fluxesR. split; [|split].
  - intros r Hr. unfold rC in Hr. apply in_map_iff in Hr. destruct Hr as (z & <- & Hz). rewrite areaC, fluxC by auto. destruct (lossC z Hz) as [A F].
    assert (Big : 64 <= 2 ^ 199) by (replace 64 with (2 ^ 6) by ring; apply Rle_pow; [lra|lia]). assert (Sm : / 2 ^ 199 <= / 64) by (apply Rinv_le_contravar; lra).
    cbn [In] in Hz. destruct Hz as [<-|[<-|[<-|[<-|[]]]]]; cbn [fluxed]; lra.
  - intros j Hj. pose proof (lossC 1 ltac:(cbn [In]; tauto)). pose proof (lossC 3 ltac:(cbn [In]; tauto)). pose proof (lossC 6 ltac:(cbn [In]; tauto)). pose proof (lossC 10 ltac:(cbn [In]; tauto)).
    cbn [rC map length] in Hj. destruct j as [|[|[|j]]]; [| | |lia]; unfold at_, rC; cbn [map nth]; lra.
  - intros j Hj. pose proof (lossC 1 ltac:(cbn [In]; tauto)). pose proof (lossC 3 ltac:(cbn [In]; tauto)). pose proof (lossC 6 ltac:(cbn [In]; tauto)). pose proof (lossC 10 ltac:(cbn [In]; tauto)).
    destruct j as [|[|[|j]]]; [| | |lia]; unfold at_, rC; cbn [map nth]; lra.
Qed.
Lemma gaugedR r : In r rC -> gauged rowedh PyFloat counts counts (n0, n0) None n1 n0 rowh r.
Proof.
  intros Hr. unfold rC in Hr. apply in_map_iff in Hr. destruct Hr as (z & <- & Hz). unfold gauged. cbv zeta.
  pose proof (pixelsC z Hz) as P. unfold pixels_of in P. rewrite P. split; [|split; [|split]].
  - cbn [In] in Hz. destruct Hz as [<-|[<-|[<-|[<-|[]]]]]; (eexists; split; [reflexivity|reflexivity]).
  - intros. apply rowh_double.
  - intros j i H. apply in_pix in H. destruct H as [-> H]. destruct (inside z i Hz H) as [Hi ->]. destruct (px_counts i Hi) as [A B]. fold values in B. pose proof (px_pos i Hi) as Pp.
    rewrite B, <- mult_IZR. split; [apply (mod_inv 2); lia|]. split; auto. destruct (Z.eq_dec (nth i values 0%Z) 0) as [->|N].
    + split; [left; reflexivity|]. split; auto. left. reflexivity.
    + split; [right; apply mod_Z; lia|]. split; auto. right. apply mod_Z. nia.
  - unfold pixC. rewrite map_length, seq_length, !S_INR, INR_IZR_INZ, Z2Nat.id by (cbn [In] in Hz; lia). pose proof u64_val as U.
    assert (IZR z <= 10) by (apply IZR_le; cbn [In] in Hz; lia). assert (0 <= IZR z) by (apply IZR_le; cbn [In] in Hz; lia).
    assert ((IZR z + 1 + 1) * u64 <= 12 * u64) by (apply Rmult_le_compat_r; lra). lra.
Qed.
Lemma cutR : clear_cut (64 * u64 * 1 + 12 * / 10000 * 1) (dval quarter) (1 :: map (petro_ratio (map (area_of counts None rowh) rC) (map (flux_of counts None rowh) rC)) (seq 1 (length rC - 1))) 3 2 /\
  (forall j, (1 <= j <= 3)%nat -> Rabs (petro_ratio (map (area_of counts None rowh) rC) (map (flux_of counts None rowh) rC) j) <= 1).
Proof.
  rewrite areasR, fluxesR. cbn [rC map length seq Nat.sub]. 
  assert (Q1 : petro_ratio [1 / 2; 3 / 2; 6 / 2; 10 / 2] [20 / 2; 40 / 2; 50 / 2; 52 / 2] 1 = 3 / 4) by (unfold petro_ratio, local_sb, mean_sb, at_; cbn; lra).
  assert (Q2 : petro_ratio [1 / 2; 3 / 2; 6 / 2; 10 / 2] [20 / 2; 40 / 2; 50 / 2; 52 / 2] 2 = 2 / 5) by (unfold petro_ratio, local_sb, mean_sb, at_; cbn; lra).
  assert (Q3 : petro_ratio [1 / 2; 3 / 2; 6 / 2; 10 / 2] [20 / 2; 40 / 2; 50 / 2; 52 / 2] 3 = 5 / 52) by (unfold petro_ratio, local_sb, mean_sb, at_; cbn; lra).
  pose proof u64_val as U. rewrite Q1, Q2, Q3. assert (E : dval quarter = 1 / 4) by apply quarter_ok. rewrite E. split.
  - split; [cbn [length]; lia|]. cbn [nth]. split; [lra|]. split.
    + intros j Hj. destruct j as [|[|[|j]]]; [| | |lia]; cbn [nth]; lra.
    + intros j Hj N. destruct j as [|[|[|[|j]]]]; [| |lia| |lia]; cbn [nth]; unfold Rabs; repeat destruct Rcase_abs; lra.
  - intros j Hj. destruct j as [|[|[|[|j]]]]; [lia| | | |lia]; rewrite ?Q1, ?Q2, ?Q3, Rabs_pos_eq; lra.
Qed.
(** no interpolation is needed *)
Definition nomk : kind -> list f64 -> list f64 -> result (f64 -> f64) := fun _ _ _ => Err TypeError.
(** the radius found is 6 *)
Lemma runR : exists F A E Q, radial_photometry rowedh PyFloat counts (n0, n0) rC (Some counts) None n1 n0 = Ok (F, A, E) /\ calculate_petrosian DFloat A F None None = Ok (Q, None) /\
  calculate_petrosian_r nomk rC Q None quarter None 1 = Ok (f64_ofZ 6, nnan).
Proof. eexists. eexists. eexists. eexists. split; [vm_compute; reflexivity|]. split; [vm_compute; reflexivity|]. vm_compute. reflexivity. Qed.
