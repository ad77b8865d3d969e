(** A concrete curve resampled in double precision. *)
From Coq Require Import SpecFloat ZArith Lia.
From Verif Require Import Base Num Numpy M_Utils M_Petrosian M_Interp M_Kinds S_Petrosian S_Kinds S_Double S_Sums S_Grid L_Double L_Double3 L_Double4 E_Double E_Sums.
Local Open Scope R_scope.

Definition rG : list f64 := map f64_ofZ [1; 2; 4]%Z.
Definition halfd : f64 := SFdiv 53 1024 (f64_ofZ 1) (f64_ofZ 2).
Definition pG : list f64 := [halfd; quarter].
Definition otherG (k : kind) (xs ys : list f64) : result (f64 -> f64) := Err NotImplementedError.

Lemma half_ok : double halfd /\ dval halfd = 1 / 2.
Proof.
  split; [split; [reflexivity|exact I]|]. change halfd with (S754_finite false 4503599627370496 (-53)). unfold dval.
  change (powerRZ 2 (-53)) with (/ 2 ^ Pos.to_nat 53). replace (Pos.to_nat 53) with 53%nat by reflexivity.
  assert (E : 2 ^ 53 = 4503599627370496 * 2) by lra. rewrite E. field.
Qed.
Lemma mod_inv z : (1 <= z <= 1000)%Z -> moderate (1 / IZR z).
Proof.
  intros H. assert (A : 1 <= IZR z <= 1000) by (split; apply IZR_le; lia). assert (P : 0 < 1 / IZR z) by (apply Rdiv_lt_0_compat; lra).
  assert (Big : 1000 <= 2 ^ 200). { apply Rle_trans with (2 ^ 10); [lra|apply Rle_pow; [lra|lia]]. }
  unfold moderate. rewrite Rabs_pos_eq by lra. unfold Rdiv. rewrite Rmult_1_l. split; [apply Rinv_le_contravar; lra|].
  apply Rle_trans with 1; [|lra]. rewrite <- Rinv_1. apply Rinv_le_contravar; lra.
Qed.
Lemma XG : 0 :: map dval (tl rG) = [0; 2; 4].
Proof. unfold rG. cbn [map tl]. rewrite (proj2 (ofZ_double 2 ltac:(lia))), (proj2 (ofZ_double 4 ltac:(lia))). reflexivity. Qed.
Lemma YG : 1 :: map dval pG = [1; 1 / 2; 1 / 4].
Proof. unfold pG. cbn [map]. now rewrite (proj2 half_ok), (proj2 quarter_ok). Qed.
Lemma fairX : Forall fair [0; 2; 4].
Proof. apply Forall_cons; [now left|]. apply Forall_cons; [right; apply (mod_Z 2); lia|]. apply Forall_cons; [right; apply (mod_Z 4); lia|]. constructor. Qed.
Lemma fairY : Forall fair [1; 1 / 2; 1 / 4].
Proof. apply Forall_cons; [right; apply (mod_Z 1); lia|]. apply Forall_cons; [right; apply (mod_inv 2); lia|]. apply Forall_cons; [right; apply (mod_inv 4); lia|]. constructor. Qed.
Lemma boundY : Forall (fun y => Rabs y <= 1) [1; 1 / 2; 1 / 4].
Proof. do 3 (apply Forall_cons; [rewrite Rabs_pos_eq; lra|]). constructor. Qed.
Lemma incX : increasing [0; 2; 4].
Proof. intros i Hi. cbn in Hi. unfold at_. do 2 (destruct i as [|i]; [cbn; lra|]). lia. Qed.
Lemma slopeG i : (S i < 3)%nat -> Rabs (at_ [1; 1 / 2; 1 / 4] (S i) - at_ [1; 1 / 2; 1 / 4] i) <= 1 / 4 * (at_ [0; 2; 4] (S i) - at_ [0; 2; 4] i).
Proof. intros Hi. unfold at_. do 2 (destruct i as [|i]; [cbn [nth]; rewrite Rabs_left; lra|]). lia. Qed.
Lemma wideG : / 2 ^ 100 <= 4.
Proof. apply Rle_trans with 1; [|lra]. rewrite <- Rinv_1. apply Rinv_le_contravar; [lra|]. apply pow_R1_Rle. lra. Qed.
Lemma dbl_rG : Forall double (tl rG) /\ Forall double pG /\ double quarter /\ fair (dval quarter).
Proof.
  split; [|split; [|split]].
  - unfold rG. cbn [map tl]. do 2 (apply Forall_cons; [apply ofZ_double; lia|]). constructor.
  - apply Forall_cons; [apply half_ok|]. apply Forall_cons; [apply quarter_ok|]. constructor.
  - apply quarter_ok.
  - rewrite (proj2 quarter_ok). right. apply (mod_inv 4). lia.
Qed.
Lemma runG : calculate_petrosian_r (mk_scipy otherG) rG (nnan :: pG) None quarter (Some KLinear) 5 = Ok (f64_ofZ 4, nnan).
Proof. vm_compute. reflexivity. Qed.
Lemma grid5 : linspace (f64_ofZ 0) (f64_ofZ 4) 5 = map f64_ofZ [0; 1; 2; 3; 4]%Z.
Proof. vm_compute. reflexivity. Qed.
(** 1/3 of 1 is not a double *)
Lemma grid4 : nth 1 (linspace (f64_ofZ 0) (f64_ofZ 1) 4) n0 = S754_finite false 6004799503160661 (-54).
Proof. vm_compute. reflexivity. Qed.
Lemma resG n : (n = 4 \/ n = 5)%nat -> resolved u64 0 4 n.
Proof. pose proof u64_val as U. unfold resolved. intros [-> | ->]; cbn [INR Nat.sub]; lra. Qed.
