(** A concrete Petrosian radius with its error in double precision. *)
From Coq Require Import SpecFloat ZArith Lia.
From Verif Require Import Base Num Numpy M_Utils M_Petrosian S_Petrosian S_Double S_Sums S_RadErr L_Double4 E_PetErr.
Local Open Scope R_scope.

Definition r4 : list f64 := map f64_ofZ [7; 2; 5; 9]%Z.
Definition p3 : list f64 := map f64_ofZ [0; -3; -8]%Z.
Definition e3 : list f64 := map f64_ofZ [1; 2; 3]%Z.
Definition m4 : f64 := f64_ofZ (-4).
Lemma meets : length r4 = S (length p3) /\ length e3 = length p3 /\ double m4 /\ Forall double (tl r4) /\ Forall fair (map dval (tl r4)) /\ Forall double p3 /\ Forall double e3 /\
  Rabs (dval m4) <= 2 ^ 1000 /\ Forall (fun x => Rabs x <= 2 ^ 998) (map dval p3) /\ Forall (fun x => Rabs x <= 2 ^ 998) (map dval e3).
Proof.
  assert (B : 2 ^ 10 <= 2 ^ 998) by (apply Rle_pow; [lra|apply Nat.leb_le; reflexivity]). assert (B' : 2 ^ 10 <= 2 ^ 1000) by (apply Rle_pow; [lra|apply Nat.leb_le; reflexivity]).
  assert (M : / 2 ^ 200 <= 1) by (rewrite <- Rinv_1; apply Rinv_le_contravar; [lra|apply pow_R1_Rle; lra]). assert (M' : 2 ^ 10 <= 2 ^ 200) by (apply Rle_pow; [lra|apply Nat.leb_le; reflexivity]).
  assert (T : 2 ^ 10 = 1024) by ring. rewrite T in *.
  destruct (whole [2; 5; 9]%Z) as [A1 A2]; [repeat constructor; lia|]. destruct (whole [0; -3; -8]%Z) as [A3 A4]; [repeat constructor; lia|]. destruct (whole [1; 2; 3]%Z) as [A5 A6]; [repeat constructor; lia|].
  destruct (ofZ_double (-4) ltac:(lia)) as [D1 D2]. change (f64_ofZ (-4)) with m4 in D1, D2.
  split; [reflexivity|]. split; [reflexivity|]. split; [exact D1|]. split; [exact A1|]. split; [change (tl r4) with (map f64_ofZ [2; 5; 9]%Z); rewrite A2|].
  { cbn [map]. apply Forall_cons; [right|apply Forall_cons; [right|apply Forall_cons; [right|apply Forall_nil]]]; unfold moderate; rewrite Rabs_pos_eq; lra. }
  split; [exact A3|]. split; [exact A5|]. split; [rewrite D2; apply Rabs_le; lra|]. unfold p3, e3. rewrite A4, A6. cbn [map].
  split; (apply Forall_cons; [|apply Forall_cons; [|apply Forall_cons; [|apply Forall_nil]]]; apply Rabs_le; lra).
Qed.
Lemma runs (mk : kind -> list f64 -> list f64 -> result (f64 -> f64)) num :
  calculate_petrosian_r mk r4 (nnan :: p3) (Some (nnan :: e3)) m4 None num = Ok (f64_ofZ 5, f64_ofZ 2).
Proof. vm_compute. reflexivity. Qed.
