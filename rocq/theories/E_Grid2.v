(** A concrete growing curve, its half-light radius found in double precision. *)
From Coq Require Import SpecFloat ZArith Lia.
From Verif Require Import Base Num Numpy M_Utils M_Petrosian M_Interp M_Kinds S_Petrosian S_Kinds S_Double S_Sums S_Grid L_Double L_Double3 L_Double4 E_Double E_Sums E_Grid.
Local Open Scope R_scope.

Definition fH : list f64 := map f64_ofZ [2; 6; 8]%Z.
Definition two : f64 := f64_ofZ 2.
Definition onehalf : f64 := SFdiv 53 1024 (f64_ofZ 3) (f64_ofZ 2).
Lemma XH : map dval rG = [1; 2; 4].
Proof. unfold rG. cbn [map]. rewrite (proj2 (ofZ_double 1 ltac:(lia))), (proj2 (ofZ_double 2 ltac:(lia))), (proj2 (ofZ_double 4 ltac:(lia))). reflexivity. Qed.
Lemma YH : map dval fH = [2; 6; 8].
Proof. unfold fH. cbn [map]. rewrite (proj2 (ofZ_double 2 ltac:(lia))), (proj2 (ofZ_double 6 ltac:(lia))), (proj2 (ofZ_double 8 ltac:(lia))). reflexivity. Qed.
Lemma dblH : Forall double rG /\ Forall double fH /\ double two /\ double halfd /\ double (f64_ofZ 1).
Proof.
  split; [|split; [|split; [|split]]].
  - unfold rG. cbn [map]. do 3 (apply Forall_cons; [apply ofZ_double; lia|]). constructor.
  - unfold fH. cbn [map]. do 3 (apply Forall_cons; [apply ofZ_double; lia|]). constructor.
  - apply ofZ_double. lia.
  - apply half_ok.
  - apply ofZ_double. lia.
Qed.
Lemma fairH : Forall fair [1; 2; 4] /\ Forall fair [2; 6; 8] /\ Forall (fun y => Rabs y <= 8) [2; 6; 8] /\ increasing [1; 2; 4].
Proof.
  split; [|split; [|split]].
  - apply Forall_cons; [right; apply (mod_Z 1); lia|]. apply Forall_cons; [right; apply (mod_Z 2); lia|]. apply Forall_cons; [right; apply (mod_Z 4); lia|]. constructor.
  - apply Forall_cons; [right; apply (mod_Z 2); lia|]. apply Forall_cons; [right; apply (mod_Z 6); lia|]. apply Forall_cons; [right; apply (mod_Z 8); lia|]. constructor.
  - do 3 (apply Forall_cons; [rewrite Rabs_pos_eq; lra|]). constructor.
  - intros i Hi. cbn in Hi. unfold at_. do 2 (destruct i as [|i]; [cbn; lra|]). lia.
Qed.
Lemma slopeH i : (S i < 3)%nat -> Rabs (at_ [2; 6; 8] (S i) - at_ [2; 6; 8] i) <= 4 * (at_ [1; 2; 4] (S i) - at_ [1; 2; 4] i).
Proof. intros Hi. unfold at_. do 2 (destruct i as [|i]; [cbn [nth]; rewrite Rabs_pos_eq; lra|]). lia. Qed.
Lemma numH : / 2 ^ 100 <= 4 - 1 /\ resolved u64 1 4 7 /\ moderate 4 /\ moderate (1 / 2) /\ moderate 1 /\ dval two * dval two = 4 /\ dval halfd / dval (f64_ofZ 1) = 1 / 2.
Proof.
  pose proof u64_val as U. split; [|split; [|split; [|split; [|split; [|split]]]]].
  - apply Rle_trans with 1; [|lra]. rewrite <- Rinv_1. apply Rinv_le_contravar; [lra|]. apply pow_R1_Rle. lra.
  - unfold resolved. cbn [INR Nat.sub]. lra.
  - apply (mod_Z 4); lia.
  - apply (mod_inv 2); lia.
  - apply (mod_Z 1); lia.
  - unfold two. rewrite (proj2 (ofZ_double 2 ltac:(lia))). lra.
  - rewrite (proj2 half_ok), (proj2 (ofZ_double 1 ltac:(lia))). lra.
Qed.
Lemma runH : fraction_to_r (mk_scipy otherG) halfd rG fH two None None two (f64_ofZ 1) (Some KLinear) 7 = Ok (onehalf, nnan) /\
  fraction_to_r (mk_scipy otherG) halfd rG fH two None None (f64_ofZ 3) (f64_ofZ 1) (Some KLinear) 7 = Ok (nnan, nnan).
Proof. split; vm_compute; reflexivity. Qed.
