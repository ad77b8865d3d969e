(** A concrete oversampled image in double precision. *)
From Coq Require Import String SpecFloat ZArith Lia.
From Verif Require Import Base Num Numpy M_PSF S_Photometry S_PSF S_Double L_Double L_Double2 L_Double4 S_Over L_Over.
Local Open Scope R_scope.

Definition addxy (_ : list f64) (x y : f64) : f64 := nadd x y.
Definition obj3 : pst f64 := match new None (VInt 3) VNone with Ok s => s | Err _ => blank end.
Lemma obj3_new : new None (VInt 3) VNone = Ok obj3 /\ p_crange obj3 = None /\ p_over obj3 = Some (OInt (Z.of_nat 3)) /\ p_psf obj3 = None /\ p_psf_over obj3 = None.
Proof. vm_compute. repeat split. Qed.
Lemma draws_addxy : draws (addxy []) (fun x y => x + y) 8 32 (64 * u64) 1.
Proof.
  split; [|split].
  - intros x y Dx Dy Hx Hy. assert (S : Rabs (dval x + dval y) <= 32) by (eapply Rle_trans; [apply Rabs_triang|lra]). unfold addxy.
    destruct (d_add x y Dx Dy) as [A B]; [apply upto_small; apply Rle_trans with (1 := S); assert (P : 2 ^ 60 = 1152921504606846976) by ring; rewrite P; lra|].
    split; auto. rewrite B. replace (64 * u64) with (2 * u64 * 32) by ring. apply rnd_upto; [lra|exact S].
  - intros x y Hx Hy. eapply Rle_trans; [apply Rabs_triang|lra].
  - intros x y x' y' _ _ _ _. replace (x + y - (x' + y')) with ((x - x') + (y - y')) by ring. eapply Rle_trans; [apply Rabs_triang|lra].
Qed.
Lemma runs : fst (evaluate (fun m _ => m) (mksm [] (Fresh addxy)) obj3 (map f64_ofZ [3; 4]%Z) (map f64_ofZ [0; 5]%Z) [] n0) = Ok (map f64_ofZ [3; 9]%Z).
Proof. vm_compute. reflexivity. Qed.
Lemma sizes : Forall (fun z => Rabs (IZR z) <= 8) [3; 4]%Z /\ Forall (fun z => Rabs (IZR z) <= 8) [0; 5]%Z.
Proof. split; repeat constructor; rewrite Rabs_pos_eq; lra. Qed.
