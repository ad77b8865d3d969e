(** Concrete photometry with errors in double precision. *)
From Coq Require Import SpecFloat ZArith Lia.
From Verif Require Import Base Num Numpy M_Utils M_Photometry S_Petrosian S_Photometry S_Double S_Sums S_Counts S_Photo6 L_Double L_Double3 L_Double4 E_Double E_Sums E_Grid.
Local Open Scope R_scope.

Definition halved : aperture f64 -> nat -> nat -> option (nat -> nat -> f64) := fun _ _ _ => Some (fun _ _ => halfd).
Definition noise : img f64 := strip [3; 4; 0]%Z.
Definition three : list (nat * nat) := [(0, 0); (0, 1); (0, 2)]%nat.
Lemma noise_ok : forall j i, In (j, i) three -> double (px noise j i) /\ fair (dval (px noise j i) * dval (px noise j i)).
Proof.
  intros j i H. cbn [In three] in H. destruct H as [H|[H|[H|[]]]]; injection H as <- <-; cbn [noise strip px nth].
  - destruct (ofZ_double 3 ltac:(lia)) as [D V]. split; auto. rewrite V, <- mult_IZR. right. apply mod_Z. lia.
  - destruct (ofZ_double 4 ltac:(lia)) as [D V]. split; auto. rewrite V, <- mult_IZR. right. apply mod_Z. lia.
  - destruct (ofZ_double 0 ltac:(lia)) as [D V]. split; auto. left. rewrite V. ring.
Qed.
Lemma variance : over three (fun j i => dval (px noise j i) * dval (px noise j i) * dval (n1 : f64)) = 25 /\ sqrt 25 = 5.
Proof.
  split.
  - unfold over, total. cbn [map fold_right fst snd three noise strip px nth].
    rewrite (proj2 (ofZ_double 3 ltac:(lia))), (proj2 (ofZ_double 4 ltac:(lia))), (proj2 (ofZ_double 0 ltac:(lia))), (proj2 one_double). lra.
  - apply sqrt_lem_1; lra.
Qed.
Lemma five_small : INR 5 * u64 <= / 2.
Proof. pose proof u64_val. simpl. lra. Qed.
Lemma run_noise : do_photometry flat anyap few (Some noise) None = Ok (f64_ofZ 7, Some (f64_ofZ 5)).
Proof. vm_compute. reflexivity. Qed.
Lemma take3 : taken 1 3 (fun _ _ => dval halfd) None = three.
Proof.
  unfold taken, three. cbn [seq list_prod map app filter fst snd]. assert (H : Rltb 0 (dval halfd) = true) by (rewrite (proj2 half_ok); apply Rltb_true; lra). rewrite H. reflexivity.
Qed.
Lemma all_gauged : forall r, In r [n1] -> gauged halved PyFloat few noise (n0, n0) None n1 n0 (fun _ _ _ => halfd) r.
Proof.
  intros r [<-|[]]. unfold gauged. change (iny few) with 1%nat. change (inx few) with 3%nat. rewrite take3. split; [|split; [|split]].
  - exists (mkap n0 n0 n1 n1 n0). split; reflexivity.
  - intros. apply half_ok.
  - intros j i H. destruct (noise_ok j i H) as [N1 N2]. split; [rewrite (proj2 half_ok); apply (mod_inv 2); lia|].
    assert (F : double (px few j i) /\ fair (dval (px few j i))).
    { cbn [In three] in H. destruct H as [H|[H|[H|[]]]]; injection H as <- <-; cbn [few strip px nth].
      - destruct (ofZ_double 3 ltac:(lia)) as [D V]. split; auto. rewrite V. right. apply mod_Z. lia.
      - destruct (ofZ_double (-1) ltac:(lia)) as [D V]. split; auto. rewrite V. right. pose proof (mod_Z 1 ltac:(lia)) as M. unfold moderate in *. rewrite Rabs_left by lra. rewrite Rabs_pos_eq in M by lra. lra.
      - destruct (ofZ_double 5 ltac:(lia)) as [D V]. split; auto. rewrite V. right. apply mod_Z. lia. }
    tauto.
  - exact five_small.
Qed.
(** 3.5, 1.5 and sqrt(12.5) rounded to six decimals *)
Lemma run_halved : radial_photometry halved PyFloat few (n0, n0) [n1] (Some noise) None n1 n0 =
  Ok ([S754_finite false 7881299347898368 (-51)], [S754_finite false 6755399441055744 (-52)], [S754_finite false 7961314802477860 (-51)]).
Proof. vm_compute. reflexivity. Qed.
