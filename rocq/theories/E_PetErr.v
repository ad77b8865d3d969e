(** A concrete Petrosian profile with flux errors in double precision. *)
From Coq Require Import SpecFloat ZArith Lia.
From Verif Require Import Base Num Numpy M_Petrosian S_Petrosian S_Double S_Near S_PetErr L_Double4.
Local Open Scope R_scope.

Definition A4 : list f64 := map f64_ofZ [1; 2; 4; 7]%Z.
Definition L4 : list f64 := map f64_ofZ [3; 5; 5; 9]%Z.
Definition E4 : list f64 := map f64_ofZ [1; 1; 0; 2]%Z.
Lemma whole (l : list Z) : Forall (fun z => Z.abs z <= 2 ^ 53)%Z l -> Forall double (map f64_ofZ l) /\ map dval (map f64_ofZ l) = map IZR l.
Proof.
  intros H. induction H as [|z l Hz _ [IH1 IH2]]; [split; constructor|]. destruct (ofZ_double z Hz) as [A B]. split; [constructor; [exact A|exact IH1]|]. cbn. rewrite IH2. f_equal. exact B.
Qed.
Lemma big : 1000 <= 2 ^ 100 /\ / 2 ^ 100 <= 1.
Proof. assert (1000 <= 2 ^ 100). { apply Rle_trans with (2 ^ 10); [lra|apply Rle_pow; [lra|lia]]. } split; auto. rewrite <- Rinv_1. apply Rinv_le_contravar; lra. Qed.
Lemma example_meets : length L4 = length A4 /\ (2 < length A4)%nat /\ ordinary A4 /\ ordinary L4 /\ increasing (map dval A4) /\ error_bars (length A4) (Some E4).
Proof.
  destruct big as [B1 B2]. destruct (whole [1; 2; 4; 7]%Z) as [A1 A2]; [repeat constructor; lia|]. destruct (whole [3; 5; 5; 9]%Z) as [A3 A4']; [repeat constructor; lia|]. destruct (whole [1; 1; 0; 2]%Z) as [A5 A6]; [repeat constructor; lia|].
  split; [reflexivity|]. split; [cbn; lia|]. split; [|split; [|split; [|split; [reflexivity|split; [exact A5|]]]]].
  - split; [exact A1|]. unfold A4. rewrite A2. cbn [map]. repeat constructor; rewrite Rabs_pos_eq; lra.
  - split; [exact A3|]. unfold L4. rewrite A4'. cbn [map]. repeat constructor; rewrite Rabs_pos_eq; lra.
  - unfold A4. rewrite A2. intros i Hi. cbn in Hi. destruct i as [|[|[|i]]]; unfold at_; cbn; try lra. lia.
  - unfold E4. rewrite A6. cbn [map]. apply Forall_cons; [right|apply Forall_cons; [right|apply Forall_cons; [left; reflexivity|apply Forall_cons; [right|apply Forall_nil]]]]; rewrite Rabs_pos_eq; lra.
Qed.
(** the first annulus: 0.8 sqrt (2/4 + 1/25), the second adds no flux *)
Lemma example_runs : exists P, calculate_petrosian DFloat A4 L4 None (Some E4) =
  Ok (P, Some [S754_nan; S754_finite false 5295130124566164 (-53); S754_nan; S754_finite false 5110900185734281 (-53)]).
Proof. eexists. vm_compute. reflexivity. Qed.
