(** A concrete simulated galaxy, its grid row and its correction: the hypotheses of the
    theorems about generated grids can be met. *)
From Coq Require Import String.
From Verif Require Import Base Num Numpy M_Utils L_Numpy S_Utils M_Petrosian S_Petrosian S_PetroR L_PetroR
  L_Petrosian L_FracR L_Utils3 L_Photometry M_Heap S_PetObj M_Correction M_CorHeap S_Correction S_CorRow L_Correction
  L_Correction2 L_Correction3 L_Correction4 E_Petrosian E_Correction.
Local Open Scope R_scope.

(** a profile that drops from 1 to 1/5 at radius 2; a flux curve that is 1 everywhere *)
Definition step (q : xr) : xr :=
  match q with Fin r => if Rltb r 2 then Fin 1 else Fin (1/5) | _ => NaN end.
Definition mk_ex (k : kind) (xs ys : list xr) : result (xr -> xr) :=
  match k with
  | KCubic => Ok (if neqb (nth 1 ys NaN) (Fin (3/4)) then step else fun _ => Fin 1)
  | _ => Ok (fun _ => Fin 3)
  end.
Definition rr : list R := [1; 3; 5].

Lemma mk_ex_petro xs y l : mk_ex KCubic xs (y :: Fin (3/4) :: l) = Ok step.
Proof. cbn. now rewrite (proj2 (Reqb_iff (3/4) (3/4)) eq_refl). Qed.
Lemma mk_ex_flux xs y b l : b <> 3/4 -> mk_ex KCubic xs (y :: Fin b :: l) = Ok (fun _ => Fin 1).
Proof. intros H. cbn. destruct (Reqb_spec b (3/4)); [contradiction|reflexivity]. Qed.

Lemma min05 : is_min [0; 3; 5] 0.
Proof. split; [cbn; auto|]. intros r [<-|[<-|[<-|[]]]]; lra. Qed.
Lemma max05 : is_max [0; 3; 5] 5.
Proof. split; [cbn; auto|]. intros r [<-|[<-|[<-|[]]]]; lra. Qed.
Lemma min15 : is_min rr 1.
Proof. split; [cbn; auto|]. intros r [<-|[<-|[<-|[]]]]; lra. Qed.
Lemma max15 : is_max rr 5.
Proof. split; [cbn; auto|]. intros r [<-|[<-|[<-|[]]]]; lra. Qed.

Lemma radius_ex eta : 1/5 <= eta < 3/5 -> exists a,
  calculate_petrosian_r mk_ex (map Fin rr) [NaN; Fin (3/4); Fin (2/5)] None (Fin eta) cubic num5000
    = Ok (Fin a, NaN) /\ 2 <= a <= 21/10.
Proof.
  intros He. change (map Fin rr) with (Fin 1 :: map Fin [3; 5]).
  destruct (petro_r_total mk_ex (Fin 1) [3; 5] NaN [Fin (3/4); Fin (2/5)] (Fin eta) cubic num5000) as (v & Ev);
    [cbn; lia|reflexivity| |].
  { intros k Hk. injection Hk as <-. eexists. apply mk_ex_petro. }
  destruct (petro_r_spec mk_ex (Fin 1) [3; 5] NaN _ eta cubic num5000 v NaN ltac:(cbn; lia) Ev) as (g & q & R & F & _).
  destruct R as (f & lo & hi & Hf & Hlo & Hhi & [Hg1 Hg2] & ->).
  rewrite mk_ex_petro in Hf. injection Hf as <-.
  assert (lo = 0) as -> by (destruct Hlo, min05; apply Rle_antisym; auto).
  assert (hi = 5) as -> by (destruct Hhi, max05; apply Rle_antisym; auto).
  assert (Nn : Nat.max num5000 (List.length [0; 3; 5]) = num5000) by reflexivity. rewrite Nn in *.
  assert (Hn : INR (num5000 - 1) = 4999).
  { rewrite INR_IZR_INZ. f_equal. }
  assert (Nth : forall i, (i < num5000)%nat -> nth_error g i = Some (INR i * (5 / 4999))).
  { intros i Hi. rewrite at_nth_error by lia. rewrite Hg2 by auto. f_equal. rewrite Hn. field. }
  set (q := map step (map Fin g)) in *.
  assert (Nq : forall i y, nth_error q i = Some y -> exists b, nth_error g i = Some b /\ y = step (Fin b)).
  { intros i y H. unfold q in H. rewrite !nth_error_map in H. destruct (nth_error g i) as [b|]; [|discriminate].
    cbn in H. injection H as <-. eauto. }
  assert (Hok : Forall xok q).
  { apply Forall_forall. intros x Hx. apply In_nth_error in Hx. destruct Hx as (i & Hi).
    destruct (Nq i x Hi) as (b & _ & ->). cbn. destruct (Rltb b 2); discriminate. }
  destruct F as [[NR _]|[_ (i & a & -> & Ha & C)]].
  { exfalso. apply NR. exists (Fin (1/5)). split; [|unfold crossed, xle; cbn; apply Rleb_true; lra].
    apply nth_error_In with (num5000 - 1)%nat. unfold q. rewrite !nth_error_map, Nth by (cbv; lia).
    cbn [option_map step]. rewrite Hn. rewrite Rltb_false by lra. reflexivity. }
  exists a. split; [exact Ev|]. specialize (C Hok).
  destruct C as (c & x & ((x0 & Hc & Cr) & Before) & Hic & Hx & Min & _).
  destruct (Nq c x0 Hc) as (b & Hb & ->). destruct (Nq i x Hx) as (a' & Ha' & ->).
  assert (a' = a) by congruence. subst a'.
  unfold crossed, xle in Cr. cbn in Cr.
  destruct (Rltb_spec b 2) as [Lb|Lb]; [cbn in Cr; apply Rleb_iff in Cr; lra|].
  specialize (Min c _ ltac:(lia) Hc). cbn [step] in Min. rewrite (Rltb_false b 2) in Min by lra.
  destruct (Rltb_spec a 2) as [La|La].
  { exfalso. unfold xle in Min. cbn in Min. apply Rleb_iff in Min. revert Min. unfold Rabs. repeat destruct (Rcase_abs _); intros; lra. }
  split; [lra|].
  (* the previous sample is below 2 *)
  assert (Li : (i < num5000)%nat) by (rewrite <- Hg1; apply nth_error_Some; congruence).
  rewrite Nth in Ha by auto. injection Ha as <-.
  destruct i as [|i]; [cbn in La; lra|].
  assert (E : nth_error q i = Some (step (Fin (INR i * (5/4999))))).
  { unfold q. now rewrite !nth_error_map, Nth by lia. }
  destruct (Rltb_spec (INR i * (5/4999)) 2) as [L1|L1].
  - rewrite S_INR. lra.
  - exfalso. apply (Before i _ ltac:(lia) E). cbn [step]. rewrite Rltb_false by lra.
    unfold crossed, xle. cbn. apply Rleb_true. lra.
Qed.

Lemma fraction_ex frac y b c p eps pe : b <> 3/4 -> 0 <= frac <= 99/100 -> 1 <= p * eps <= 5 ->
  fraction_to_r mk_ex (Fin frac) (map Fin rr) [Fin y; Fin b; Fin c] (Fin p) None pe (Fin eps) (Fin (99/100))
    cubic num5000 = Ok (Fin 1, NaN).
Proof.
  intros Hb Hf Hp. unfold fraction_to_r.
  rewrite (pymax_is_max _ _ max15). cbn [bind]. cbn [nmul XRnum xmul nltb xltb].
  rewrite Rltb_false by lra. cbn [cubic].
  rewrite (interp1d_fin mk_ex KCubic rr [Fin y; Fin b; Fin c] (fun _ => Fin 1) 1 5);
    auto using mk_ex_flux, min15, max15. cbn [bind nltb XRnum xltb].
  rewrite !Rltb_false by lra. cbn [orb bind].
  assert (Hq : fdiv PyFloat (Fin frac) (Fin (99/100)) = Ok (Fin (frac / (99/100)))).
  { cbn. destruct (Reqb_spec (99/100) 0); [lra|]. cbn. destruct (Reqb_spec (99/100) 0); [lra|reflexivity]. }
  rewrite Hq. cbn [bind].
  destruct (giv_spec mk_ex KCubic rr [Fin y; Fin b; Fin c] num5000 (fun _ => Fin 1) ltac:(cbn; lia) (mk_ex_flux _ _ _ _ Hb))
    as (lo & hi & g & E & Hlo & Hhi & Hg).
  unfold cubic. rewrite E. cbn [bind fst snd].
  assert (lo = 1) as -> by (destruct Hlo, min15; apply Rle_antisym; auto).
  assert (exists g', g = 1 :: g') as (g' & ->).
  { exists (tl g). assert (Nn : Nat.max num5000 (List.length rr) = S (num5000 - 1)) by reflexivity.
    rewrite Nn in Hg. subst g. cbn [seq map tl]. f_equal. apply grid_point_0. }
  cbn [map]. unfold closest_value_index. cbn [find_index].
  cbn [nmul XRnum xmul nleb xleb]. rewrite Rleb_true by lra. reflexivity.
Qed.

Definition ex_p : petrosian xr :=
  mkpet (mkdata DFloat (map Fin rr) (map Fin exA) (map Fin exL) None None) default_settings
    [NaN; Fin (3/4); Fin (2/5)] None.

Lemma lit15 : nlit 1 5 = Fin (1/5). Proof. unfold nlit. cbn. destruct (Reqb_spec 5 0); [lra|reflexivity]. Qed.
Lemma lit45 : nlit 4 5 = Fin (4/5). Proof. unfold nlit. cbn. destruct (Reqb_spec 5 0); [lra|reflexivity]. Qed.
Lemma lit310 : nlit 3 10 = Fin (3/10). Proof. unfold nlit. cbn. destruct (Reqb_spec 10 0); [lra|reflexivity]. Qed.
Lemma lit25 : nlit 2 5 = Fin (2/5). Proof. unfold nlit. cbn. destruct (Reqb_spec 5 0); [lra|reflexivity]. Qed.
Lemma lit12 : nlit 1 2 = Fin (1/2). Proof. unfold nlit. cbn. destruct (Reqb_spec 2 0); [lra|reflexivity]. Qed.
Lemma lit910 : nlit 9 10 = Fin (9/10). Proof. unfold nlit. cbn. destruct (Reqb_spec 10 0); [lra|reflexivity]. Qed.
Lemma lit99 : nlit 99 100 = Fin (99/100). Proof. unfold nlit. cbn. destruct (Reqb_spec 100 0); [lra|reflexivity]. Qed.
Lemma lit1310 : nlit 13 10 = Fin (13/10). Proof. unfold nlit. cbn. destruct (Reqb_spec 10 0); [lra|reflexivity]. Qed.

Lemma xlog10_1 : nlog10 (ndiv (Fin 1) (Fin 1)) = Fin 0.
Proof.
  cbn. destruct (Reqb_spec 1 0); [lra|]. replace (1 / 1) with 1 by field. cbn.
  rewrite Rltb_true by lra. f_equal. unfold Rlog10. rewrite ln_1. unfold Rdiv. ring.
Qed.

Section WithRadius.
  Variable a : R.
  Hypothesis Ha : 2 <= a <= 21/10.
  Hypothesis Hr : calculate_petrosian_r mk_ex (map Fin rr) [NaN; Fin (3/4); Fin (2/5)] None (Fin (1/5)) cubic num5000
    = Ok (Fin a, NaN).

  Lemma rp_ex e : obj_petro_r mk_ex (do_assign ex_p (Set_epsilon e)) = Ok (Fin a, NaN).
  Proof.
    unfold obj_petro_r, do_assign, ex_p, default_settings. cbn [p_data p_set p_list p_err d_r assign_settings s_eta s_kind s_num].
    rewrite lit15. exact Hr.
  Qed.

  Lemma frac_ex eps frac : 1 <= a * eps <= 5 -> 0 <= frac <= 99/100 ->
    obj_fraction mk_ex (do_assign ex_p (Set_epsilon (Fin eps))) (Fin frac) = Ok (Fin 1, NaN).
  Proof.
    intros He Hf. unfold obj_fraction, obj_r_petrosian, obj_r_petrosian_err. rewrite rp_ex. cbn [bind fst snd].
    unfold do_assign, ex_p, default_settings.
    cbn [p_data p_set d_r d_flux d_flux_err assign_settings s_epsilon s_epsilon_fraction s_kind s_num].
    rewrite lit99. apply fraction_ex; auto. lra.
  Qed.

  Lemma conc_ex eps f1 f2 : 1 <= a * eps <= 5 -> 0 <= f1 <= 99/100 -> 0 <= f2 <= 99/100 ->
    obj_concentration mk_ex (do_assign ex_p (Set_epsilon (Fin eps))) (Fin f1) (Fin f2) = Ok (Fin 1, Fin 1, Fin 0).
  Proof.
    intros He H1 H2. pose proof (frac_ex eps f1 He H1) as F1. pose proof (frac_ex eps f2 He H2) as F2.
    unfold obj_concentration, calculate_concentration_index.
    unfold obj_fraction, obj_r_petrosian, obj_r_petrosian_err in F1, F2 |- *.
    rewrite rp_ex in *. cbn [bind fst snd] in *. rewrite F1. cbn [bind]. rewrite F2. cbn [bind fst snd].
    cbn [nisnan XRnum orb]. rewrite xlog10_1. cbn. now rewrite Rmult_0_r.
  Qed.

  Lemma self2 : do_assign ex_p (Set_epsilon (Fin 2)) = ex_p.
  Proof. reflexivity. Qed.
End WithRadius.

Lemma meas_ex : exists a, 2 <= a <= 21/10 /\
  calculate_petrosian_r mk_ex (map Fin rr) [NaN; Fin (3/4); Fin (2/5)] None (Fin (1/5)) cubic num5000
    = Ok (Fin a, NaN) /\
  get_xyz_from_p mk_ex ex_p = Ok (Fin a, Fin 1, Fin 0).
Proof.
  destruct (radius_ex (1/5)) as (a & Ea & Ha); [lra|].
  destruct (radius_ex (3/10)) as (a3 & E3 & _); [lra|].
  destruct (radius_ex (2/5)) as (a4 & E4 & _); [lra|].
  destruct (radius_ex (1/2)) as (a5 & E5 & _); [lra|].
  exists a. split; auto. split; auto. unfold get_xyz_from_p.
  change (d_r (p_data ex_p)) with (map Fin rr). change (p_list ex_p) with [NaN; Fin (3/4); Fin (2/5)].
  rewrite lit15, lit310, lit25, lit12, lit45. rewrite Ea. cbn [bind fst]. rewrite E3. cbn [bind fst].
  rewrite E4. cbn [bind fst]. rewrite E5. cbn [bind fst].
  unfold half. rewrite lit12. rewrite <- self2.
  rewrite (frac_ex a Ea 2 (1/2)) by lra. cbn [bind fst].
  rewrite (conc_ex a Ea 2 (1/5) (4/5)) by lra. reflexivity.
Qed.

Definition sim_ex (r_eff n : xr) (radii : list Z) (size x0 : Z) : result (list xr * list xr) :=
  Ok (map Fin exL, map Fin exA).

Lemma sim_max_ex : sim_max_r (Fin 8) (Fin 3) (Fin 4) = Fin (52/10).
Proof.
  unfold sim_max_r. cbn. rewrite (Rltb_false 8 7), (Rltb_false 3 2) by lra. cbn [andb].
  destruct (Reqb_spec 10 0); [lra|]. f_equal. field.
Qed.

Lemma row_entries_ex : exists row a, 2 <= a /\
  generate_row mk_ex (fun _ _ => Fin 5) (fun _ _ _ => Fin 4) sim_ex (Fin 8) (Fin 3) = Ok row /\
  entry row "p02" (Fin a) /\ entry row "c_epsilon" (Fin (3 / a)) /\ entry row "c_c2080" (Fin 0).
Proof.
  destruct (radius_ex (1/5)) as (a & Ea & Ha); [lra|].
  destruct (radius_ex (3/10)) as (a3 & E3 & _); [lra|].
  destruct (radius_ex (2/5)) as (a4 & E4 & _); [lra|].
  destruct (radius_ex (1/2)) as (a5 & E5 & _); [lra|].
  unfold generate_row. rewrite sim_max_ex.
  assert (Et : Rtrunc (52/10) = 5%Z).
  { unfold Rtrunc. rewrite Rleb_true by lra.
    pose proof (Int_part_le (52/10) 5 ltac:(lra)). pose proof (Int_part_lt (52/10) 6 ltac:(lra)). lia. }
  cbn [int_of ntrunc XRnum xtrunc]. rewrite Et. cbn [bind].
  assert (Eg : sim_geometry (nleb (nofZ 200) (Fin (52/10))) 5 = Ok ([1; 3; 5]%Z, 10%Z, 5%Z)).
  { cbn [nleb nofZ XRnum xleb]. rewrite Rleb_false by lra. reflexivity. }
  rewrite Eg. cbn [bind fst snd sim_ex].
  change (map nofZ [1; 3; 5]%Z) with (map Fin rr).
  assert (Ep : Petrosian_new (mkdata DFloat (map Fin rr) (map Fin exA) (map Fin exL) None None) default_settings = Ok ex_p).
  { unfold Petrosian_new, validate_input_arrays.
    cbn [d_dtype d_r d_area d_flux d_area_err d_flux_err]. rewrite profileA. reflexivity. }
  rewrite Ep. cbn [bind]. rewrite profileA.
  rewrite lit15, lit45, lit310, lit25, lit12, lit910, lit99.
  assert (C2 : obj_concentration mk_ex ex_p (Fin (1/5)) (Fin (4/5)) = Ok (Fin 1, Fin 1, Fin 0)).
  { rewrite <- self2. apply (conc_ex a Ea); lra. }
  rewrite C2. cbn [bind fst snd nisnan XRnum orb].
  (* linear interpolation of the radius on the flux *)
  assert (Ux : unique_index (map Fin exL) = [(Fin 2, 0%nat); (Fin 4, 1%nat); (Fin 5, 2%nat)]).
  { unfold unique_index, sort_ix, exL. cbn [map List.length seq combine fold_right insert_ix fst].
    cbn [nleb XRnum xleb]. rewrite (Rleb_true 4 5) by lra.
    cbn [insert_ix fst nleb XRnum xleb]. rewrite (Rleb_true 2 4) by lra.
    cbn [first_of_runs fst neqb XRnum xeqb].
    destruct (Reqb_spec 2 4); [lra|]. destruct (Reqb_spec 4 5); [lra|]. reflexivity. }
  rewrite Ux. cbn [map fst snd].
  assert (Ei : interp1d mk_ex (Some KLinear) [Fin 2; Fin 4; Fin 5]
     [nth 0 (map Fin rr) nnan; nth 1 (map Fin rr) nnan; nth 2 (map Fin rr) nnan]
     = Ok (fun q => if nltb q (Fin 2) || nltb (Fin 5) q then Err ValueError else Ok (Fin 3))).
  { apply (interp1d_fin mk_ex KLinear [2; 4; 5] _ (fun _ => Fin 3) 2 5); [reflexivity| |];
      (split; [cbn; auto|]; intros r [<-|[<-|[<-|[]]]]; lra). }
  rewrite Ei. cbn [bind nmul XRnum xmul].
  cbn [nltb XRnum xltb]. rewrite (Rltb_false (5 * (99/100)) 2), (Rltb_false 5 (5 * (99/100))) by lra.
  cbn [orb bind].
  rewrite (Rltb_false (5 * (99/100) * (4/5)) 2), (Rltb_false 5 (5 * (99/100) * (4/5))) by lra.
  cbn [orb bind].
  assert (Erp : obj_r_petrosian mk_ex ex_p = Ok (Fin a)).
  { unfold obj_r_petrosian. rewrite <- self2, (rp_ex a Ea). reflexivity. }
  rewrite Erp. cbn [bind fst].
  rewrite Ea. cbn [bind fst]. rewrite E3. cbn [bind fst]. rewrite E4. cbn [bind fst].
  rewrite E5. cbn [bind fst].
  assert (Eq : neqb (nround6 (Fin a)) (nround6 (Fin a)) = true).
  { rewrite nround6_fin. cbn. now apply Reqb_iff. }
  rewrite Eq. cbn [assert_].
  assert (Ediv : ndiv (Fin 3) (Fin a) = Fin (3 / a)).
  { cbn. destruct (Reqb_spec a 0); [lra|reflexivity]. }
  rewrite Ediv.
  assert (Hc : 1 <= a * (3 / a) <= 5) by (replace (a * (3 / a)) with 3 by (field; lra); lra).
  assert (F2 : forall f, 0 <= f <= 99/100 -> obj_fraction mk_ex ex_p (Fin f) = Ok (Fin 1, NaN)).
  { intros f Hf. rewrite <- self2. apply (frac_ex a Ea); lra. }
  assert (K2 : forall f g, 0 <= f <= 99/100 -> 0 <= g <= 99/100 ->
     obj_concentration mk_ex ex_p (Fin f) (Fin g) = Ok (Fin 1, Fin 1, Fin 0)).
  { intros f g Hf Hg. rewrite <- self2. apply (conc_ex a Ea); lra. }
  unfold half. rewrite lit12.
  rewrite !F2 by lra. cbn [bind fst]. rewrite !(frac_ex a Ea (3/a)) by lra. cbn [bind fst].
  rewrite !K2 by lra. cbn [bind snd]. rewrite !(conc_ex a Ea (3/a)) by lra. cbn [bind snd].
  eexists _, a. split; [lra|]. split; [reflexivity|]. repeat split.
Qed.
Lemma row_ex : exists row,
  generate_row mk_ex (fun _ _ => Fin 5) (fun _ _ _ => Fin 4) sim_ex (Fin 8) (Fin 3) = Ok row.
Proof. destruct row_entries_ex as (row & _ & _ & E & _). now exists row. Qed.

(** a two-row grid whose second row is the measured galaxy *)
Definition ex_grid2 (a : R) : table xr :=
  mktable column_names [ex_row 1 (a + 1) 3 2 1 4 6; ex_row 4 a 9 1 0 16 20].

Lemma row2_ex : exists a c, 2 <= a /\
  PetrosianCorrection_new (GTable (ex_grid2 a)) true = Ok c /\
  get_corrected_row mk_ex c ex_p = Ok 1%nat /\ estimate_n mk_ex c ex_p = Ok (Fin 4) /\
  estimate_epsilon mk_ex c ex_p = Ok (Fin (20 / a)).
Proof.
  destruct meas_ex as (a & Ha & _ & M). exists a. eexists. split; [lra|]. split; [reflexivity|].
  set (c := mkcor _ _ _ _ _).
  assert (H : get_corrected_row mk_ex c ex_p = Ok 1%nat /\ estimate_n mk_ex c ex_p = Ok (Fin 4)).
  { apply (same_row mk_ex (ex_grid2 a) true c [a + 1; a] [2; 1] [1; 0] ex_p 1); auto; try reflexivity.
    - exists 0%nat, 1%nat. cbn. repeat split; try lia. lra.
    - exists 0%nat, 1%nat. cbn. repeat split; try lia. lra.
    - exists 0%nat, 1%nat. cbn. repeat split; try lia. lra.
    - intros [|j] Hj; [|lia]. unfold at_. cbn. lra. }
  destruct H as [H1 H2]. split; auto. split; auto.
  unfold estimate_epsilon. rewrite H1. cbn [bind].
  change (c_grid c) with (ex_grid2 a). unfold ex_p, default_settings.
  cbn [p_set s_epsilon_fraction s_eta]. rewrite lit99, lit15.
  rewrite (epsilon_ok (ex_grid2 a) 1 _ _ "c_r_99" "p02" (Fin 20) (Fin a)); try reflexivity.
  - f_equal. cbn. destruct (Reqb_spec a 0); [lra|reflexivity].
  - cbn. lia.
  - right; auto.
  - left; auto.
Qed.

(** the galaxy as a Python object, and the object returned by correct() *)
Definition ex_world : world xr :=
  mkworld [map Fin rr; map Fin exA; map Fin exL; [NaN; Fin (3/4); Fin (2/5)]]
    [mkhpet DFloat 0%nat 1%nat 2%nat None None default_settings 3%nat None].

Lemma C30_ex : exists c a w' p',
  see ex_world 0 = Some ex_p /\
  w_correct mk_ex c 0 ex_world = Some (Ok 1%nat, w') /\
  see w' 0 = Some ex_p /\ see w' 1 = Some p' /\
  s_epsilon (p_set p') = Fin (20 / a) /\ s_epsilon (p_set ex_p) = Fin 2 /\ 2 <= a.
Proof.
  destruct row2_ex as (a & c & Ha & _ & _ & _ & E). exists c, a.
  unfold w_correct, w_copy. cbn [ex_world w_objs w_heap nth_error List.length].
  assert (V : see ex_world 0 = Some ex_p) by reflexivity.
  set (w1 := mkworld _ _). assert (V1 : see w1 0 = Some ex_p) by reflexivity. rewrite V1, E.
  eexists _, _. split; [exact V|]. split; [reflexivity|]. split; [reflexivity|]. split; [reflexivity|].
  repeat split; auto.
Qed.

(** writing into an array of the returned object changes the original *)
Lemma C30_shared : exists c w' o' l v p,
  w_correct mk_ex c 0 ex_world = Some (Ok 1%nat, w') /\
  nth_error (w_objs w') 1 = Some o' /\ h_flux o' = l /\
  see w' 0 = Some p /\ see (w_write w' l v) 0 <> Some p.
Proof.
  destruct row2_ex as (a & c & Ha & _ & _ & _ & E). exists c.
  unfold w_correct, w_copy. cbn [ex_world w_objs w_heap nth_error List.length].
  set (w1 := mkworld _ _). assert (V1 : see w1 0 = Some ex_p) by reflexivity. rewrite V1, E.
  eexists _, _, _, [], _. split; [reflexivity|]. split; [reflexivity|]. split; [reflexivity|].
  split; [reflexivity|]. discriminate.
Qed.

(** ** the round trip (C63) *)
Lemma cell_named {T} {N : Num T} (t : table T) i row name c :
  t_names t = column_names -> nth_error (t_rows t) i = Some row ->
  find_index (String.eqb name) column_names = Some c -> cell t i name = Ok (nth c row nnan).
Proof. intros Hn Hi Hc. unfold cell, col_index. now rewrite Hi, Hn, Hc. Qed.

Lemma column_at (t : table xr) name c X i row :
  t_names t = column_names -> column t name = Ok (map Fin X) ->
  find_index (String.eqb name) column_names = Some c ->
  nth_error (t_rows t) i = Some row -> nth c row nnan = Fin (at_ X i).
Proof.
  intros Hn HX Hc Hi. unfold column, col_index in HX. rewrite Hn, Hc in HX. injection HX as HX.
  assert (E : nth_error (map Fin X) i = Some (nth c row nnan)).
  { rewrite <- HX, nth_error_map, Hi. reflexivity. }
  rewrite nth_error_map in E. destruct (nth_error X i) as [x|] eqn:Ex; [|discriminate].
  cbn [option_map] in E. injection E as E. etransitivity; [symmetry; exact E|]. f_equal. unfold at_. symmetry. now apply nth_error_nth.
Qed.

Section RoundTrip.
  Variable mk : kind -> list xr -> list xr -> result (xr -> xr).
  Variable sersic_total : xr -> xr -> xr.
  Variable sersic_radius : xr -> xr -> xr -> xr.
  Variable simulate : xr -> xr -> list Z -> Z -> Z -> result (list xr * list xr).
  Let job := generate_row mk sersic_total sersic_radius simulate.

  Lemma round_trip : forall ns rs nc plot schedule write t e c X Y Z i j n r,
    (serial nc = true \/ plot = false) ->
    (forall l, Permutation.Permutation (schedule l) l) ->
    generate job ns rs nc plot schedule write = Ok t ->
    PetrosianCorrection_new (GTable t) e = Ok c ->
    column t "p02" = Ok (map Fin X) -> column t "u_r_50" = Ok (map Fin Y) ->
    column t "u_c2080" = Ok (map Fin Z) ->
    nonconstant X -> nonconstant Y -> nonconstant Z ->
    nth_error ns i = Some n -> nth_error rs j = Some r ->
    let row := (i * List.length rs + j)%nat in
    exists radii size x0 flux area p k,
      simulate r (nround6 n) radii size x0 = Ok (flux, area) /\
      Petrosian_new (mkdata DFloat (map nofZ radii) area flux None None) default_settings = Ok p /\
      get_corrected_row mk c p = Ok k /\ (k <= row)%nat /\
      at_ X k = at_ X row /\ at_ Y k = at_ Y row /\ at_ Z k = at_ Z row /\
      estimate_n mk c p = cell t k "n" /\
      cell t row "n" = Ok (nround6 n) /\ cell t row "r_eff" = Ok r /\
      ((forall q, (q < row)%nat ->
          ~ (at_ X q = at_ X row /\ at_ Y q = at_ Y row /\ at_ Z q = at_ Z row)) ->
       estimate_n mk c p = Ok (nround6 n)).
  Proof.
    intros ns rs nc plot schedule write t e c X Y Z i j n r Hnc Hs Hg Hc HX HY HZ NX NY NZ Hi Hj row.
    destruct (gen_rows job ns rs nc plot schedule write t Hnc Hs Hg) as (Hn & Hlen & _ & Hrow).
    destruct (Hrow i j n r Hi Hj) as (rw & Erw & Ejob).
    destruct (row_measured mk sersic_total sersic_radius simulate r (nround6 n) rw Ejob)
      as (m & radii & size & x0 & flux & area & p & _ & _ & Hsim & Hp & Hm & N0 & N1 & _).
    fold row in Erw.
    rewrite (column_at t "p02" 6 X row rw), (column_at t "u_r_50" 15 Y row rw),
      (column_at t "u_c2080" 19 Z row rw) in Hm by auto.
    assert (Hl : (row < List.length (t_rows t))%nat) by (apply nth_error_Some; congruence).
    assert (Cn : cell t row "n" = Ok (nround6 n)).
    { rewrite (cell_named t row rw "n" 0) by auto. now rewrite N0. }
    destruct (same_row mk t e c X Y Z p row (nround6 n)) as [(k & Hk & K1 & K2 & K3 & K4) K5]; auto.
    exists radii, size, x0, flux, area, p, k.
    split; auto. split; auto. split; auto. split; auto. split; auto. split; auto. split; auto.
    split.
    { unfold estimate_n. rewrite Hk. cbn [bind].
      destruct (cols t e c X Y Z Hc HX HY HZ) as (-> & _). reflexivity. }
    split; auto. split.
    { rewrite (cell_named t row rw "r_eff" 1) by auto. now rewrite N1. }
    intros D. apply K5. exact D.
  Qed.
End RoundTrip.

(** ** C31 and C32 examples *)
Lemma C31_ex : exists t,
  generate (fun r n => Ok (repeat (xadd r n) 30)) [Fin 1; Fin 2] [Fin 10; Fin 20; Fin 30] (CInt 4) false
    (fun l => rev l) (fun _ => Err GenericException) = Ok t /\
  List.length (t_rows t) = 6%nat /\
  nth_error (t_rows t) 5 = Some (repeat (Fin 32) 30).
Proof.
  set (job := fun r n : xr => Ok (repeat (xadd r n) 30)).
  assert (E : exists t, generate job [Fin 1; Fin 2] [Fin 10; Fin 20; Fin 30] CNone false
    (fun l => rev l) (fun _ => Err GenericException) = Ok t) by (eexists; reflexivity).
  destruct E as (t & E). exists t.
  assert (P : forall l : list (nat * result (list xr)), Permutation.Permutation (rev l) l)
    by (intros l; apply Permutation.Permutation_sym, Permutation.Permutation_rev).
  split; [apply serial_gen; auto; lia|].
  destruct (gen_rows job _ _ CNone false _ _ t (or_introl eq_refl) P E) as (_ & L & _ & R).
  split; [exact L|]. destruct (R 1%nat 2%nat (Fin 2) (Fin 30) eq_refl eq_refl) as (row & E1 & E2).
  change (1 * List.length [Fin 10; Fin 20; Fin 30] + 2)%nat with 5%nat in E1.
  rewrite E1. f_equal. unfold job in E2.
  assert (Er : nround6 (Fin 2) = Fin 2).
  { rewrite nround6_fin. f_equal. unfold rd6. replace (2 * 1000000) with (IZR 2000000) by lra.
    rewrite Rrint_IZR. lra. }
  rewrite Er in E2. cbn [xadd] in E2. injection E2 as <-. cbn. repeat f_equal; lra.
Qed.

Lemma C32_ex :
  sim_geometry false 5 = Ok ([1; 3; 5]%Z, 10%Z, 5%Z) /\
  (exists r, sim_geometry true 200 = Ok (r, 398%Z, 199%Z)).
Proof. split; [reflexivity|]. eexists. reflexivity. Qed.

Lemma C62_ex :
  unique_grid_values (mktable ["a"; "b"]%string [[Fin 2; Fin 5]; [Fin 1; Fin 6]; [Fin 2; Fin 7]]) "a"
    = Ok [Fin 1; Fin 2] /\
  filter_grid (mktable ["a"; "b"]%string [[Fin 2; Fin 5]; [Fin 1; Fin 6]; [Fin 2; Fin 7]]) "a" (Fin 2)
    = Ok (mktable ["a"; "b"]%string [[Fin 2; Fin 5]; [Fin 2; Fin 7]]).
Proof.
  split.
  - unfold unique_grid_values, column, np_unique, nsort. cbn -[insert dedup Rleb Reqb].
    cbn [insert nleb XRnum xleb]. rewrite (Rleb_true 1 2) by lra. cbn [insert nleb XRnum xleb].
    rewrite (Rleb_false 2 1) by lra. cbn [insert nleb XRnum xleb]. rewrite (Rleb_true 2 2) by lra.
    cbn [dedup neqb XRnum xeqb]. destruct (Reqb_spec 1 2); [lra|]. destruct (Reqb_spec 2 2); [|lra]. reflexivity.
  - unfold filter_grid. cbn -[Reqb]. destruct (Reqb_spec 2 2); [|lra]. destruct (Reqb_spec 1 2); [lra|]. reflexivity.
Qed.
