(** A concrete object whose total flux is found in double precision. *)
From Coq Require Import SpecFloat ZArith Lia.
From Verif Require Import Base Num Numpy M_Utils M_Petrosian M_Interp M_Kinds S_Petrosian S_Kinds S_Double S_Sums S_Grid S_Flux6 L_Double L_Double3 L_Double4 E_Double E_Sums E_Grid E_Grid2.
Local Open Scope R_scope.

Definition oH : petrosian f64 :=
  match Petrosian_new (mkdata DFloat rG (map f64_ofZ [1; 4; 16]%Z) fH None None) (mkset halfd (f64_ofZ 1) (f64_ofZ 1) (f64_ofZ 1) (Some KLinear) 5) with
  | Ok o => o | Err _ => mkpet (mkdata DFloat [] [] [] None None) (mkset n0 n0 n0 n0 None 0) [] None end.
Lemma built : Petrosian_new (mkdata DFloat rG (map f64_ofZ [1; 4; 16]%Z) fH None None) (mkset halfd (f64_ofZ 1) (f64_ofZ 1) (f64_ofZ 1) (Some KLinear) 5) = Ok oH.
Proof. vm_compute. reflexivity. Qed.
Lemma data_H : d_r (p_data oH) = rG /\ d_flux (p_data oH) = fH /\ d_flux_err (p_data oH) = None /\ p_set oH = mkset halfd (f64_ofZ 1) (f64_ofZ 1) (f64_ofZ 1) (Some KLinear) 5.
Proof. vm_compute. repeat split. Qed.
Lemma runs : obj_petro_r (mk_scipy otherG) oH = Ok (f64_ofZ 3, nnan) /\
  obj_fraction (mk_scipy otherG) oH (f64_ofZ 1) = Ok (SFdiv 53 1024 (f64_ofZ 13) (f64_ofZ 4), nnan) /\
  obj_total_flux (mk_scipy otherG) oH = Ok (SFdiv 53 1024 (f64_ofZ 29) (f64_ofZ 4)).
Proof. split; [|split]; vm_compute; reflexivity. Qed.
Lemma measurable_H : measurable KLinear oH 8 4.
Proof.
  destruct data_H as (E1 & E2 & E3 & E4). unfold measurable, samples_of, radii_of, fluxes_of. rewrite E1, E2, E3, E4, XH, YH. destruct dblH as (D1 & D2 & _). destruct fairH as (F1 & F2 & F3 & F4).
  pose proof u64_val as U. split; [|split; [|split; [|split]]].
  - split; [left; reflexivity|]. split; reflexivity.
  - split; [reflexivity|]. split; [cbn; lia|]. auto.
  - split; auto. unfold end_of, at_. cbn [length nth Nat.sub s_num Nat.max]. split; [lra|]. split; [|split; [lia|]].
    + apply Rle_trans with 1; [|lra]. rewrite <- Rinv_1. apply Rinv_le_contravar; [lra|]. apply pow_R1_Rle. lra.
    + unfold resolved. cbn [INR Nat.sub]. lra.
  - exact slopeH.
  - pose proof (mod_Z 8 ltac:(lia)) as Mz. unfold moderate in Mz. rewrite Rabs_pos_eq in Mz by lra. exact Mz.
Qed.
Lemma askable_H : askable oH (f64_ofZ 3) (s_total_flux_fraction (p_set oH)).
Proof.
  destruct data_H as (E1 & E2 & E3 & E4). unfold askable, radii_of. rewrite E1, E4, XH. cbn [s_epsilon s_epsilon_fraction s_total_flux_fraction].
  destruct (ofZ_double 3 ltac:(lia)) as [D3 V3]. destruct (ofZ_double 1 ltac:(lia)) as [D1 V1]. rewrite V3, V1. unfold end_of, at_. cbn [length nth Nat.sub].
  replace (3 * 1) with 3 by ring. replace (1 / 1) with 1 by field. pose proof (mod_Z 3 ltac:(lia)). pose proof (mod_Z 1 ltac:(lia)). repeat split; auto; try apply D3; try apply D1; try apply H; try apply H0; lra.
Qed.
