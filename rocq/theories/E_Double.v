(** Concrete cases in double precision. *)
From Coq Require Import SpecFloat ZArith Lia.
From Verif Require Import Base Num Numpy M_Utils M_Petrosian S_Petrosian L_Petrosian S_Double L_Double4.
Local Open Scope R_scope.

Definition rD : list f64 := map f64_ofZ [1; 2; 3; 4]%Z.
Definition AD : list f64 := map f64_ofZ [1; 3; 6; 10]%Z.
Definition LD : list f64 := map f64_ofZ [20; 40; 50; 52]%Z.
Definition quarter : f64 := SFdiv 53 1024 (f64_ofZ 1) (f64_ofZ 4).

Lemma ints l : (forall z, In z l -> (1 <= z <= 1000)%Z) -> Forall double (map f64_ofZ l) /\ Forall moderate (map dval (map f64_ofZ l)) /\
  map dval (map f64_ofZ l) = map IZR l.
Proof.
  intros H. assert (E : map dval (map f64_ofZ l) = map IZR l).
  { rewrite map_map. apply map_ext_in. intros z Hz. apply ofZ_double. specialize (H z Hz). lia. }
  split; [|split; [|exact E]].
  - apply Forall_forall. intros x Hx. apply in_map_iff in Hx. destruct Hx as (z & <- & Hz). apply ofZ_double. specialize (H z Hz). lia.
  - rewrite E. apply Forall_forall. intros x Hx. apply in_map_iff in Hx. destruct Hx as (z & <- & Hz). specialize (H z Hz).
    assert (R1 : 1 <= IZR z <= 1000) by (split; apply IZR_le; lia). unfold moderate. rewrite Rabs_pos_eq by lra.
    assert (P : 1 <= 2 ^ 190) by (apply pow_R1_Rle; lra). assert (Q : 2 ^ 200 = 1024 * 2 ^ 190).
    { replace 200%nat with (10 + 190)%nat by reflexivity. rewrite pow_add. f_equal. lra. }
    split; [|lra]. apply Rle_trans with 1; [|lra]. rewrite <- Rinv_1. apply Rinv_le_contravar; lra.
Qed.
Ltac small := intros z Hz; cbn in Hz; repeat (destruct Hz as [<-|Hz]; [lia|]); contradiction.
Lemma AD_ok : Forall double AD /\ Forall moderate (map dval AD) /\ map dval AD = [1; 3; 6; 10].
Proof. apply (ints [1; 3; 6; 10]%Z). small. Qed.
Lemma LD_ok : Forall double LD /\ Forall moderate (map dval LD) /\ map dval LD = [20; 40; 50; 52].
Proof. apply (ints [20; 40; 50; 52]%Z). small. Qed.
Lemma AD_inc : increasing (map dval AD).
Proof. rewrite (proj2 (proj2 AD_ok)). intros i Hi. cbn in Hi. unfold at_. do 3 (destruct i as [|i]; [cbn; lra|]). lia. Qed.
Lemma quarter_ok : double quarter /\ dval quarter = 1 / 4.
Proof.
  split; [split; [reflexivity|exact I]|]. change quarter with (S754_finite false 4503599627370496 (-54)). unfold dval.
  change (powerRZ 2 (-54)) with (/ 2 ^ Pos.to_nat 54). replace (Pos.to_nat 54) with 54%nat by reflexivity.
  assert (E : 2 ^ 54 = 4503599627370496 * 4) by lra. rewrite E. field.
Qed.
Lemma abs_cases x a b : (0 <= x -> x = a) -> (x <= 0 -> - x = a) -> a = b -> Rabs x = b.
Proof. intros H1 H2 <-. unfold Rabs. destruct (Rcase_abs x); [apply H2|apply H1]; lra. Qed.
Lemma cut_ok : clear_cut (32 * u64 * 1) (dval quarter) (1 :: map (petro_ratio (map dval AD) (map dval LD)) (seq 1 3)) 3 2 /\
  forall j, (1 <= j <= 3)%nat -> Rabs (petro_ratio (map dval AD) (map dval LD) j) <= 1.
Proof.
  rewrite (proj2 quarter_ok), (proj2 (proj2 AD_ok)), (proj2 (proj2 LD_ok)). pose proof L_Double.u64_val as U.
  assert (P1 : petro_ratio [1; 3; 6; 10] [20; 40; 50; 52] 1 = 3 / 4) by (unfold petro_ratio, local_sb, mean_sb, at_; cbn; field).
  assert (P2 : petro_ratio [1; 3; 6; 10] [20; 40; 50; 52] 2 = 2 / 5) by (unfold petro_ratio, local_sb, mean_sb, at_; cbn; field).
  assert (P3 : petro_ratio [1; 3; 6; 10] [20; 40; 50; 52] 3 = 5 / 52) by (unfold petro_ratio, local_sb, mean_sb, at_; cbn; field).
  cbn [map seq]. rewrite P1, P2, P3. split.
  - unfold clear_cut. cbn [length nth]. split; [lia|]. split; [lra|]. split.
    + intros j Hj. do 3 (destruct j as [|j]; [cbn [nth]; lra|]). lia.
    + assert (D2 : Rabs (2 / 5 - 1 / 4) = 3 / 20) by (rewrite Rabs_pos_eq; lra). rewrite D2. intros j Hj Nj.
      destruct j as [|[|[|[|j]]]]; cbn [nth]; [rewrite Rabs_pos_eq; lra|rewrite Rabs_pos_eq; lra|lia|rewrite Rabs_left; lra|lia].
  - intros j Hj. assert (J : j = 1%nat \/ j = 2%nat \/ j = 3%nat) by lia. destruct J as [->|[->| ->]]; [rewrite P1|rewrite P2|rewrite P3]; rewrite Rabs_pos_eq; lra.
Qed.

(** the computed profile: 0.75, the double before 0.4, and 0.09615384615384613 *)
Lemma run_ok : calculate_petrosian DFloat AD LD None None = Ok ([S754_nan; S754_finite false 6755399441055744 (-53);
    S754_finite false 7205759403792793 (-54); S754_finite false 6928614811339224 (-56)], None) /\
  forall mk num, calculate_petrosian_r mk rD [S754_nan; S754_finite false 6755399441055744 (-53);
    S754_finite false 7205759403792793 (-54); S754_finite false 6928614811339224 (-56)] None quarter None num = Ok (f64_ofZ 3, nnan).
Proof. split; [vm_compute; reflexivity|]. intros. vm_compute. reflexivity. Qed.
