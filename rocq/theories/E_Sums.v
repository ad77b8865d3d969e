(** Concrete sums in double precision. *)
From Coq Require Import SpecFloat ZArith Lia Permutation.
From Verif Require Import Base Num Numpy M_Utils M_Photometry S_Petrosian S_Photometry S_Double S_Sums L_Double L_Double3 L_Double4.
Local Open Scope R_scope.

Definition strip (l : list Z) : img f64 := mkimg 1 (length l) (fun _ i => f64_ofZ (nth i l 0%Z)).
Definition flat : aperture f64 -> nat -> nat -> option (nat -> nat -> f64) := fun _ _ _ => Some (fun _ _ => n1).
Definition anyap : aperture f64 := mkap n0 n0 n1 n1 n0.
Definition big : img f64 := strip [2 ^ 53; 1; 1]%Z.
Definition few : img f64 := strip [3; -1; 5]%Z.

Lemma one_pos : Rltb 0 (dval (n1 : f64)) = true.
Proof. rewrite (proj2 one_double). apply Rltb_true. lra. Qed.
Lemma cover3 : covered 1 3 (fun _ _ => dval (n1 : f64)) None = [(0, 0); (0, 1); (0, 2)]%nat.
Proof. unfold covered. cbn [seq list_prod map app filter fst snd]. rewrite one_pos. reflexivity. Qed.
Lemma w_double : double (n1 : f64).
Proof. apply one_double. Qed.
Lemma mod_Z z : (1 <= z <= 2 ^ 53)%Z -> moderate (IZR z).
Proof.
  intros H. unfold moderate. assert (1 <= IZR z) by (apply IZR_le; lia). rewrite Rabs_pos_eq by lra. split.
  - apply Rle_trans with 1; auto. rewrite <- Rinv_1. apply Rinv_le_contravar; [lra|]. apply pow_R1_Rle. lra.
  - apply Rle_trans with (2 ^ 53); [|apply Rle_pow; [lra|lia]]. replace (2 ^ 53) with (IZR (2 ^ 53)) by (symmetry; exact (pow_IZR 2 53)). apply IZR_le. lia.
Qed.
Lemma big_ok : forall j i, In (j, i) [(0, 0); (0, 1); (0, 2)]%nat -> double (px big j i) /\ fair (dval (px big j i)) /\ moderate (dval (n1 : f64)).
Proof.
  intros j i H. assert (M1 : moderate (dval (n1 : f64))) by (rewrite (proj2 one_double); apply (mod_Z 1); lia).
  cbn [In] in H. repeat (destruct H as [H|H]; [injection H as <- <-; cbn [big strip px nth];
    match goal with |- context [f64_ofZ ?z] => destruct (ofZ_double z ltac:(lia)) as [D V]; split; [exact D|split; [right; rewrite V; apply mod_Z; lia|exact M1]] end|]). contradiction.
Qed.
(** 2^53 + 1 + 1 depends on the grouping *)
Lemma big_sum : do_photometry flat anyap big None None = Ok (f64_ofZ (2 ^ 53), None) /\
  added (n0 :: map (fun p => nmul (px big (fst p) (snd p)) n1) [(0, 0); (0, 1); (0, 2)]%nat) (f64_ofZ (2 ^ 53)) /\
  added (n0 :: map (fun p => nmul (px big (fst p) (snd p)) n1) [(0, 0); (0, 1); (0, 2)]%nat) (f64_ofZ (2 ^ 53 + 2)) /\
  dval (f64_ofZ (2 ^ 53)) = 2 ^ 53.
Proof.
  split; [vm_compute; reflexivity|]. cbn [map fst snd].
  set (x0 := nmul (px big 0 0) n1). set (x1 := nmul (px big 0 1) n1). set (x2 := nmul (px big 0 2) n1). split; [|split].
  - replace (f64_ofZ (2 ^ 53)) with (nadd (nadd (nadd n0 x0) x1) x2) by (vm_compute; reflexivity).
    apply (added_two [n0; x0; x1] [x2]); [|constructor]. apply (added_two [n0; x0] [x1]); [|constructor]. apply (added_two [n0] [x0]); constructor.
  - replace (f64_ofZ (2 ^ 53 + 2)) with (nadd (nadd n0 x0) (nadd x1 x2)) by (vm_compute; reflexivity).
    apply (added_two [n0; x0] [x1; x2]); [apply (added_two [n0] [x0]); constructor|apply (added_two [x1] [x2]); constructor].
  - rewrite (proj2 (ofZ_double (2 ^ 53) ltac:(lia))). symmetry. exact (pow_IZR 2 53).
Qed.
Lemma few_ok : (forall j i, In (j, i) [(0, 0); (0, 1); (0, 2)]%nat -> double (px few j i) /\ whole (dval (px few j i)) /\ dval (n1 : f64) = 1) /\
  over [(0, 0); (0, 1); (0, 2)]%nat (fun j i => Rabs (dval (px few j i))) = 9 /\ do_photometry flat anyap few None None = Ok (f64_ofZ 7, None).
Proof.
  split; [|split; [|vm_compute; reflexivity]].
  - intros j i H. cbn [In] in H. repeat (destruct H as [H|H]; [injection H as <- <-; cbn [few strip px nth];
      match goal with |- context [f64_ofZ ?z] => destruct (ofZ_double z ltac:(lia)) as [D V]; split; [exact D|split; [exists z; exact V|apply one_double]] end|]). contradiction.
  - unfold over, total. cbn [map fold_right fst snd few strip px nth].
    rewrite (proj2 (ofZ_double 3 ltac:(lia))), (proj2 (ofZ_double (-1) ltac:(lia))), (proj2 (ofZ_double 5 ltac:(lia))).
    rewrite (Rabs_pos_eq 3), (Rabs_left (-1)), (Rabs_pos_eq 5) by lra. lra.
Qed.
Lemma four_small : INR 4 * u64 <= 1.
Proof. pose proof u64_val. simpl. lra. Qed.
