(** A concrete change of units. *)
From Coq Require Import SpecFloat ZArith Lia.
From Verif Require Import Base Num Numpy M_Petrosian S_Petrosian S_Double S_Near S_PetErr S_Units L_Double4 E_PetErr.
Local Open Scope R_scope.

Definition four : f64 := f64_ofZ 4.
Definition eight : f64 := f64_ofZ 8.
Lemma ordinary_whole l : Forall (fun z => 1 <= z <= 1000)%Z l -> ordinary (map f64_ofZ l).
Proof.
  intros H. destruct (whole l) as [A B]; [eapply Forall_impl; [|exact H]; cbv beta; intros; lia|]. split; auto. rewrite B. destruct big as [B1 B2].
  apply Forall_forall. intros x Hx. apply in_map_iff in Hx. destruct Hx as (z & <- & Hz). rewrite Forall_forall in H. specialize (H z Hz). destruct H as [H1 H2]. apply IZR_le in H1, H2. rewrite Rabs_pos_eq by lra. lra.
Qed.
Lemma units_meet : power_of_two four /\ power_of_two eight /\ ordinary (times four A4) /\ ordinary (times eight L4) /\ error_bars (length A4) (option_map (times eight) (Some E4)).
Proof.
  destruct big as [B1 B2]. destruct (ofZ_double 4 ltac:(lia)) as [F1 F2]. destruct (ofZ_double 8 ltac:(lia)) as [G1 G2].
  split; [split; [exact F1|exists 2%Z; split; [lia|]]|]. { change (dval four = powerRZ 2 2). unfold four. rewrite F2. change (powerRZ 2 2) with (2 ^ 2). ring. }
  split; [split; [exact G1|exists 3%Z; split; [lia|]]|]. { change (dval eight = powerRZ 2 3). unfold eight. rewrite G2. change (powerRZ 2 3) with (2 ^ 3). ring. }
  assert (TA : times four A4 = map f64_ofZ [4; 8; 16; 28]%Z) by (vm_compute; reflexivity). assert (TL : times eight L4 = map f64_ofZ [24; 40; 40; 72]%Z) by (vm_compute; reflexivity). assert (TE : times eight E4 = map f64_ofZ [8; 8; 0; 16]%Z) by (vm_compute; reflexivity).
  rewrite TA, TL. split; [apply ordinary_whole; repeat constructor; lia|]. split; [apply ordinary_whole; repeat constructor; lia|]. cbn [option_map error_bars]. rewrite TE.
  destruct (whole [8; 8; 0; 16]%Z) as [A B]; [repeat constructor; lia|]. split; [reflexivity|]. split; [exact A|]. rewrite B. cbn [map].
  apply Forall_cons; [right|apply Forall_cons; [right|apply Forall_cons; [left; reflexivity|apply Forall_cons; [right|apply Forall_nil]]]]; rewrite Rabs_pos_eq; lra.
Qed.
(** tripling the fluxes changes the last bit of a profile *)
Lemma tripled : exists P P', calculate_petrosian DFloat (map f64_ofZ [1; 4; 7]%Z) (map f64_ofZ [1; 1; 3]%Z) None None = Ok (P, None) /\
  calculate_petrosian DFloat (map f64_ofZ [1; 4; 7]%Z) (times (f64_ofZ 3) (map f64_ofZ [1; 1; 3]%Z)) None None = Ok (P', None) /\ P <> P'.
Proof. eexists. eexists. split; [vm_compute; reflexivity|]. split; [vm_compute; reflexivity|]. intros H. discriminate H. Qed.
Lemma any_factor : ~ forall (A L : list f64) (h : f64), length L = length A -> (2 < length A)%nat ->
  ordinary A -> ordinary L -> ordinary (times h L) -> increasing (map dval A) ->
  calculate_petrosian DFloat A (times h L) None None = calculate_petrosian DFloat A L None None.
Proof.
  intros H. destruct tripled as (P & P' & E1 & E2 & N). specialize (H (map f64_ofZ [1; 4; 7]%Z) (map f64_ofZ [1; 1; 3]%Z) (f64_ofZ 3)).
  rewrite E1, E2 in H. apply N. assert (Q : Ok (P', @None (list f64)) = Ok (P, None)); [|injection Q as Q; congruence]. apply H; try reflexivity.
  - cbn. lia.
  - apply ordinary_whole. repeat constructor; lia.
  - apply ordinary_whole. repeat constructor; lia.
  - assert (T : times (f64_ofZ 3) (map f64_ofZ [1; 1; 3]%Z) = map f64_ofZ [3; 3; 9]%Z) by (vm_compute; reflexivity). rewrite T. apply ordinary_whole. repeat constructor; lia.
  - destruct (whole [1; 4; 7]%Z) as [_ B]; [repeat constructor; lia|]. rewrite B. intros i Hi. cbn in Hi. destruct i as [|[|i]]; unfold at_; cbn; try lra. lia.
Qed.
