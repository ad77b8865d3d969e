(** Concrete cases and combined statements for P_Petrosian. *)
From Verif Require Import Base Num Numpy M_Utils M_Petrosian M_Interp L_Numpy S_Utils L_Utils L_Utils3
  S_Petrosian L_Petrosian L_Petrosian2 S_PetroR L_PetroR L_FracR S_PetObj L_PetObj.
Local Open Scope R_scope.

Ltac ix := intros i Hi; cbn [length] in Hi;
  repeat (destruct i as [|i]; [|try (exfalso; lia)]); try (exfalso; lia); unfold at_; cbn [nth].

Definition exA : list R := [1; 3; 6].
Definition exL : list R := [2; 4; 5].

Lemma exA_inc : increasing exA.
Proof. unfold exA, increasing. ix; lra. Qed.
Lemma exA_nz : nonzero_tail exA.
Proof. unfold exA, nonzero_tail. ix; lra. Qed.
Lemma exL_nz : nonzero_tail exL.
Proof. unfold exL, nonzero_tail. ix; lra. Qed.

Lemma C15_ex : length exA = length exL /\ (2 < length exA)%nat /\ increasing exA /\
  nonzero_tail exA /\ nonzero_tail exL /\ petro_ratio exA exL 1 = 3/4.
Proof.
  repeat split; auto using exA_inc, exA_nz, exL_nz.
  unfold petro_ratio, local_sb, mean_sb, at_, exA, exL; cbn [nth Nat.sub]. field.
Qed.

Lemma C16_ex : nondecreasing [1; 2; 2; 3; 3] /\ distinct_below [1; 2; 2; 3; 3] 4 = 2%nat.
Proof.
  assert (H : nondecreasing [1; 2; 2; 3; 3]) by (unfold nondecreasing; ix; lra).
  split; auto. rewrite <- steps_distinct by (auto; cbn; lia).
  rewrite steps_eq, steps_ne, steps_eq, steps_ne; try reflexivity; unfold at_; cbn; lra.
Qed.

Lemma C17_ex :
  let A := map IZR [1; 2; 4]%Z in let L := [1; 2; 3] in
  length A = length L /\ (2 < length A)%nat /\ increasing A /\ nonzero_tail A /\ nonzero_tail L /\
  (forall i z, (1 <= i < length A)%nat -> truncated (local_sb A L i) z -> int64_range z) /\
  truncated (local_sb A L 2) 0 /\ ~ is_integer (local_sb A L 2).
Proof.
  intros A L.
  assert (E2 : local_sb A L 2 = 1/2) by (unfold local_sb, at_, A, L; cbn; field).
  assert (E1 : local_sb A L 1 = 1) by (unfold local_sb, at_, A, L; cbn; field).
  assert (T2 : truncated (local_sb A L 2) 0) by (rewrite E2; left; lra).
  assert (T1 : truncated (local_sb A L 1) 1) by (rewrite E1; left; lra).
  split; auto. split; [cbn; lia|].
  split; [unfold increasing, A; cbn [map]; ix; lra|].
  split; [unfold nonzero_tail, A; cbn [map]; ix; lra|].
  split; [unfold nonzero_tail, L; ix; lra|].
  split; [|split; auto].
  - intros i z Hi Hz. destruct i as [|[|[|i]]]; cbn in Hi; try lia.
    + rewrite (truncated_unique _ _ _ Hz T1). unfold int64_range. lia.
    + rewrite (truncated_unique _ _ _ Hz T2). unfold int64_range. lia.
  - intros H. apply (truncated_eq _ _ T2) in H. lra.
Qed.

Lemma C18_ex :
  let A := [1; 2; 3] in let L := [3; 5; 6] in
  length A = length L /\ (2 < length A)%nat /\ increasing A /\ 0 < at_ A 0 /\
  (forall i, (i < length L)%nat -> 0 < at_ L i) /\
  (forall i, (1 <= i < length A)%nat -> 0 <= local_sb A L i) /\
  local_sb A L 1 <= mean_sb A L 0 /\
  (forall i, (1 <= i)%nat -> (S i < length A)%nat -> local_sb A L (S i) <= local_sb A L i).
Proof.
  intros A L. unfold A, L, local_sb, mean_sb.
  split; auto. split; [cbn; lia|]. split; [unfold increasing; ix; lra|].
  split; [unfold at_; cbn; lra|]. split; [ix; lra|]. split.
  - intros i Hi. cbn [length] in Hi. destruct i as [|[|[|i]]]; try lia; unfold at_; cbn; lra.
  - split; [unfold at_; cbn; lra|]. intros i Hi Hj. cbn [length] in Hj.
    destruct i as [|[|i]]; try lia. unfold at_; cbn. lra.
Qed.

Lemma C19_all (A L : list R) (ea fe : option (list R)) :
  length A = length L -> (2 < length A)%nat -> increasing A -> nonzero_tail A -> nonzero_tail L ->
  ~ (ea = None /\ fe = None) ->
  let EA := match ea with None => zeros (length A) | Some l => l end in
  let EL := match fe with None => zeros (length A) | Some l => l end in
  length EA = length A -> length EL = length A ->
  exists P E,
    calculate_petrosian DFloat (map Fin A) (map Fin L)
      (option_map (map Fin) ea) (option_map (map Fin) fe) = Ok (P, Some E) /\
    calculate_petrosian DFloat (map Fin A) (map Fin L) None None = Ok (P, None) /\
    length E = length A /\ nth_error E 0 = Some NaN /\
    forall i, (1 <= i < length A)%nat ->
      (at_ L (i - 1) = at_ L i -> nth_error E i = Some NaN) /\
      (at_ L (i - 1) <> at_ L i ->
         nth_error E i = Some (Fin (propagated_error A L EA EL i)) /\
         0 <= propagated_error A L EA EL i /\
         ((forall j, at_ EA j = 0) -> (forall j, at_ EL j = 0) -> propagated_error A L EA EL i = 0)).
Proof.
  intros Hl Hn HA HA0 HL0 Hne EA EL H1 H2.
  destruct (petrosian_errors A L ea fe Hl Hn HA HA0 HL0 Hne H1 H2)
    as (P & E & E1 & E2 & E3 & E4 & E5).
  exists P, E. split; auto. split; auto. split; auto. split; auto.
  intros i Hi. specialize (E5 i Hi). destruct (Req_EM_T (at_ L (i - 1)) (at_ L i)); split; try tauto.
  intros _. split; auto. split; [apply propagated_nonneg|].
  intros Z1 Z2. unfold propagated_error. rewrite !Z1, !Z2.
  match goal with |- (_ * sqrt ?x = 0)%R => replace x with 0%R by (unfold Rdiv; ring) end.
  rewrite sqrt_0. ring.
Qed.

Lemma C19_ex : at_ exL 0 <> at_ exL 1 /\
  propagated_error exA exL (zeros 3) [1; 0; 0] 1 = 3/8.
Proof.
  split; [unfold at_, exL; cbn; lra|].
  unfold propagated_error. rewrite (proj2 (proj2 (proj2 (proj2 (proj2 C15_ex))))).
  rewrite !at_zeros. unfold at_, exL, exA. cbn [nth Nat.sub].
  match goal with |- (_ * sqrt ?x = _)%R => replace x with ((1/2) * (1/2))%R by field end.
  rewrite sqrt_square by lra. rewrite Rabs_pos_eq by lra. field.
Qed.

(** C20 *)
Lemma C20_all (mk : kind -> list xr -> list xr -> result (xr -> xr))
    x rs y ps eta ik num v err :
  (1 <= length rs)%nat ->
  calculate_petrosian_r mk (x :: map Fin rs) (y :: ps) None (Fin eta) ik num = Ok (v, err) ->
  err = NaN /\
  exists g q, resampled mk ik num (0 :: rs) (Fin 1 :: ps) g q /\
    (v = NaN <-> ~ reached false (Fin eta) q) /\
    found_radius false eta g q v /\
    (forall lo hi a, is_min (0 :: rs) lo -> is_max (0 :: rs) hi -> v = Fin a -> lo <= a <= hi).
Proof.
  intros Hl H. destruct (petro_r_unfold _ _ _ _ _ _ _ _ _ _ Hl H) as (_ & _ & _ & _ & He).
  split; auto.
  destruct (petro_r_spec _ _ _ _ _ _ _ _ _ _ Hl H) as (g & q & R & F & B).
  exists g, q. split; auto. split; [|split; auto].
  destruct F as [[F1 F2]|[F1 (i & a & F2 & _)]]; split; auto; try tauto.
  intros ->. discriminate.
Qed.

Lemma cvi_compute_ex :
  closest_value_index (Fin (1/5)) [Fin 1; Fin (4/5); Fin (2/5); Fin (1/10)] false = Some 3%nat.
Proof.
  unfold closest_value_index, argmin. cbn. rdec. cbn.
  unfold Rabs. repeat (destruct (Rcase_abs _); try (exfalso; lra)).
  rdec. reflexivity.
Qed.

Lemma C20_ex (mk : kind -> list xr -> list xr -> result (xr -> xr)) :
  calculate_petrosian_r mk [NaN; Fin 1; Fin 2; Fin 3] [NaN; Fin (4/5); Fin (2/5); Fin (1/10)]
    None (Fin (1/5)) None 5000 = Ok (Fin 3, NaN).
Proof.
  unfold calculate_petrosian_r. cbn [set0 bind get_interpolated_values fst snd].
  change (n1 : xr) with (Fin 1). rewrite cvi_compute_ex. reflexivity.
Qed.

(** C21 *)
Ltac cvi := unfold closest_value_index, argmin; cbn; rdec; cbn;
  unfold Rabs; repeat (destruct (Rcase_abs _); try (exfalso; lra)); rdec; reflexivity.

Lemma C21_negative (mk : kind -> list xr -> list xr -> result (xr -> xr)) :
  exists (rs ps es : list R) (eta : R) (num : nat),
    increasing rs /\ Forall (fun r => 0 <= r) rs /\ Forall (fun e => 0 <= e) es /\
    calculate_petrosian_r mk (map Fin rs) (map Fin ps) (Some (map Fin es)) (Fin eta) None num
      = Ok (Fin 1, Fin (-1/2)).
Proof.
  exists [0; 1; 2; 3], [1; 295/1000; 545/1000; 50/1000], [0; 5/1000; 355/1000; 0], (1/5), 0%nat.
  split; [unfold increasing; ix; lra|].
  split; [repeat constructor; lra|]. split; [repeat constructor; lra|].
  unfold calculate_petrosian_r, np_map2.
  cbn [map set0 bind get_interpolated_values fst snd length Nat.eqb map2].
  assert (E1 : closest_value_index (Fin (1/5)) [n1; Fin (295/1000); Fin (545/1000); Fin (50/1000)] false = Some 1%nat) by cvi.
  rewrite E1. cbn [pick index nth_error bind nisnan XRnum xisnan].
  match goal with |- context [closest_value_index _ ?l false] =>
    assert (E2 : closest_value_index (Fin (1/5)) l false = Some 1%nat) by cvi end.
  rewrite E2. cbn [pick index nth_error bind].
  match goal with |- context [closest_value_index _ ?l false] =>
    assert (E3 : closest_value_index (Fin (1/5)) l false = Some 2%nat) by cvi end.
  rewrite E3. cbn [pick index nth_error bind].
  cbn [nsub XRnum xsub xopp xadd ndiv n2 nofZ]. do 2 f_equal.
  rewrite xdiv_fin by lra. f_equal. field.
Qed.

(** constant errors on a strictly decreasing profile, no interpolation *)
Lemma C21_nonneg (mk : kind -> list xr -> list xr -> result (xr -> xr))
    x (rs : list R) y (ps : list R) e (err : R) eta num v w :
  (1 <= length rs)%nat -> length ps = length rs -> increasing (0 :: rs) ->
  increasing (map Ropp (1 :: ps)) -> 0 <= err ->
  (forall p, In p ps -> p + err < 1) ->
  calculate_petrosian_r mk (x :: map Fin rs) (y :: map Fin ps)
     (Some (e :: repeat (Fin err) (length rs))) (Fin eta) None num = Ok (v, w) ->
  w = NaN \/ exists s, w = Fin s /\ 0 <= s.
Proof.
  intros Hl Hp Hr Hd He Htop H.
  assert (Hu : plus_err (map Fin ps) (repeat (Fin err) (length rs)) = map Fin (map (fun p => p + err) ps)).
  { rewrite <- Hp. clear. induction ps; cbn; auto. f_equal; auto. }
  assert (Hlo : minus_err (map Fin ps) (repeat (Fin err) (length rs)) = map Fin (map (fun p => p - err) ps)).
  { rewrite <- Hp. clear. induction ps; cbn; auto. f_equal; auto. }
  refine (petro_r_err_nonneg mk x rs y (map Fin ps) e _ eta None num v w Hl _ _ _ _ H).
  - now rewrite map_length.
  - now rewrite repeat_length.
  - intros _. now apply inc_nondec.
  - intros g q qu ql [-> ->] [-> ->]. rewrite Hu, Hlo.
    change (Fin 1 :: map Fin ?l) with (map Fin (1 :: l)).
    split; [apply Forall_xok_fin|]. split; [apply Forall_xok_fin|].
    assert (Hdp : forall i j, (i < j)%nat -> (j < length ps)%nat -> at_ ps j < at_ ps i).
    { intros i j Hij Hj.
      pose proof (inc_lt _ (S i) (S j) Hd ltac:(lia)) as Hq. rewrite map_length in Hq.
      specialize (Hq ltac:(cbn; lia)). rewrite !at_map in Hq by (cbn; lia).
      unfold at_ in *. cbn in Hq. lra. }
    split.
    + intros i j a b Hij Ha Hb.
      destruct j as [|j]; [lia|]. cbn in Hb. rewrite !nth_error_map in Hb.
      destruct (nth_error ps j) as [pj|] eqn:Ej; [|discriminate]. cbn in Hb. injs.
      assert (Lj : (j < length ps)%nat) by (apply nth_error_Some; congruence).
      rewrite at_nth_error in Ej by auto. injs. apply xlt_fin || idtac.
      destruct i as [|i]; cbn in Ha.
      * injs. apply xlt_fin. apply Htop. unfold at_. now apply nth_In.
      * rewrite !nth_error_map, at_nth_error in Ha by lia. cbn in Ha. injs. apply xlt_fin.
        specialize (Hdp i j ltac:(lia) Lj). lra.
    + intros [|i] a b Ha Hb; cbn in Ha, Hb.
      * injs. apply xle_fin. lra.
      * rewrite !nth_error_map in *. destruct (nth_error ps i); [|discriminate]. cbn in *. injs.
        apply xle_fin. lra.
Qed.

Lemma C21_ex : increasing (0 :: [1; 2; 3]) /\ increasing (map Ropp (1 :: [1/2; 1/4; 1/8])) /\
  (forall p, In p [1/2; 1/4; 1/8] -> p + 1/10 < 1).
Proof.
  split; [unfold increasing; ix; lra|]. split; [unfold increasing; cbn [map]; ix; lra|].
  intros p [<-|[<-|[<-|[]]]]; lra.
Qed.

(** C22 *)
Lemma C22_outside (mk : kind -> list xr -> list xr -> result (xr -> xr))
    frac r flux p fe pe eps ef ik num lo hi :
  is_min r lo -> is_max r hi ->
  (hi < p * eps ->
     fraction_to_r mk frac (map Fin r) flux (Fin p) fe pe (Fin eps) ef ik num = Ok (NaN, NaN)) /\
  (p * eps < lo ->
     (exists f, mk (match ik with None => KCubic | Some k => k end) (map Fin r) flux = Ok f) ->
     fraction_to_r mk frac (map Fin r) flux (Fin p) fe pe (Fin eps) ef ik num = Err ValueError).
Proof.
  intros Hlo Hhi. split.
  - now apply frac_beyond.
  - intros H [f Hf]. eapply frac_below; eauto.
Qed.

Definition mk_id (k : kind) (xs ys : list xr) : result (xr -> xr) := Ok (fun q => q).

Lemma min13 : is_min [1; 2; 3] 1.
Proof. split; [cbn; auto|]. intros r [<-|[<-|[<-|[]]]]; lra. Qed.
Lemma max13 : is_max [1; 2; 3] 3.
Proof. split; [cbn; auto|]. intros r [<-|[<-|[<-|[]]]]; lra. Qed.

Lemma giv13 : get_interpolated_values mk_id [Fin 1; Fin 2; Fin 3] [Fin 1; Fin 2; Fin 3] 3 (Some KLinear)
  = Ok ([Fin 1; Fin 2; Fin 3], [Fin 1; Fin 2; Fin 3]).
Proof.
  change [Fin 1; Fin 2; Fin 3] with (map Fin [1; 2; 3]).
  apply resampled_giv; [cbn; lia|].
  exists (fun q => q), 1, 3. split; auto. split; [apply min13|]. split; [apply max13|].
  split; [|now rewrite map_id]. split; auto.
  intros i Hi. cbn [Nat.max length] in *.
  destruct i as [|[|[|i]]]; try lia; unfold at_; cbn; field.
Qed.

Lemma frac13 (f : R) (i : nat) (a : R) :
  closest_value_index (Fin (2 * (f / 1))) [Fin 1; Fin 2; Fin 3] true = Some i ->
  nth_error [Fin 1; Fin 2; Fin 3] i = Some (Fin a) ->
  fraction_to_r mk_id (Fin f) [Fin 1; Fin 2; Fin 3] [Fin 1; Fin 2; Fin 3] (Fin 1) None None
    (Fin 2) (Fin 1) (Some KLinear) 3 = Ok (Fin a, NaN).
Proof.
  intros Hi Ha. unfold fraction_to_r. rewrite giv13.
  pose proof (pymax_is_max _ _ max13) as Emax. pose proof (pymin_is_min _ _ min13) as Emin.
  cbn [map] in Emax, Emin. unfold interp1d. rewrite Emax, Emin. cbn [bind mk_id].
  cbn [nmul XRnum xmul nltb xltb].
  rewrite !Rltb_false by lra. cbn [orb bind].
  unfold fdiv. cbn [neqb XRnum n0 nofZ xeqb]. rewrite Reqb_false by lra. cbn [bind fst snd].
  cbn [ndiv XRnum]. rewrite xdiv_fin by lra. cbn [xmul].
  replace (1 * 2 * (f / 1)) with (2 * (f / 1)) by field.
  rewrite Hi. cbn [pick]. unfold index. rewrite Ha. reflexivity.
Qed.

Lemma C22_ex :
  fraction_to_r mk_id (Fin (1/2)) [Fin 1; Fin 2; Fin 3] [Fin 1; Fin 2; Fin 3] (Fin 1) None None
    (Fin 2) (Fin 1) (Some KLinear) 3 = Ok (Fin 1, NaN) /\
  fraction_to_r mk_id (Fin 1) [Fin 1; Fin 2; Fin 3] [Fin 1; Fin 2; Fin 3] (Fin 1) None None
    (Fin 2) (Fin 1) (Some KLinear) 3 = Ok (Fin 2, NaN).
Proof.
  split.
  - apply (frac13 _ 0); [|reflexivity]. replace (2 * (1/2/1)) with 1 by field. cvi.
  - apply (frac13 _ 1); [|reflexivity]. replace (2 * (1/1)) with 2 by field. cvi.
Qed.

Lemma C23_ex :
  calculate_concentration_index mk_id (Fin (1/2)) (Fin 1) [Fin 1; Fin 2; Fin 3] [Fin 1; Fin 2; Fin 3]
    (Fin 1) None None (Fin 2) (Fin 1) (Some KLinear) 3 = Ok (Fin 1, Fin 2, Fin (5 * Rlog10 (2 / 1))).
Proof.
  destruct C22_ex as [E1 E2].
  destruct (conc_spec _ _ _ _ _ _ _ _ _ _ _ _ _ _ _ _ E1 E2) as [_ C]. apply C; auto; lra.
Qed.

(** NaN Petrosian radius with an interpolant that does not propagate NaN ('nearest', 'previous',
    'next' look up an index, so a NaN query still returns a data value) *)
Definition mk_last (k : kind) (xs ys : list xr) : result (xr -> xr) := Ok (fun _ => last ys NaN).

Lemma C22_nan_witness :
  fraction_to_r mk_last (Fin (1/2)) [Fin 1; Fin 2; Fin 3] [Fin 1; Fin 2; Fin 4] NaN None None
    (Fin 2) (Fin 1) None 3 = Ok (Fin 2, NaN).
Proof.
  unfold fraction_to_r.
  pose proof (pymax_is_max _ _ max13) as Emax. pose proof (pymin_is_min _ _ min13) as Emin.
  cbn [map] in Emax, Emin. unfold interp1d. rewrite Emax, Emin.
  cbn [bind mk_last last nmul XRnum xmul nltb xltb orb].
  unfold fdiv. cbn [neqb XRnum n0 nofZ xeqb]. rewrite Reqb_false by lra.
  cbn [bind fst snd get_interpolated_values].
  cbn [ndiv XRnum]. rewrite xdiv_fin by lra. cbn [xmul].
  replace (4 * (1 / 2 / 1)) with 2 by field.
  assert (E : closest_value_index (Fin 2) [Fin 1; Fin 2; Fin 4] true = Some 1%nat) by cvi.
  rewrite E. reflexivity.
Qed.

(** objects *)
Definition ex_data : pdata xr :=
  mkdata DFloat [Fin 1; Fin 2; Fin 3] (map Fin exA) (map Fin exL) None None.
Definition ex_set (eta : R) : psettings xr :=
  mkset (Fin eta) (Fin 2) (Fin (99/100)) (Fin (99/100)) (Some KLinear) 3.

Lemma ex_obj s : exists o, Petrosian_new ex_data s = Ok o.
Proof.
  unfold Petrosian_new, validate_input_arrays.
  cbn [ex_data d_dtype d_r d_area d_flux d_area_err d_flux_err length map Nat.ltb Nat.leb Nat.eqb exL assert_ bind].
  destruct (petrosian_formula exA exL) as (P & E & _); auto using exA_inc, exA_nz, exL_nz.
  change [Fin 2; Fin 4; Fin 5] with (map Fin exL). rewrite E. cbn. eauto.
Qed.

Lemma C24_ex : (exists o, Petrosian_new ex_data (ex_set (1/5)) = Ok o) /\
  final_settings (ex_set (1/5))
    [Read A_r_petrosian; Assign (Set_eta (Fin (3/10))); Assign (Set_epsilon (Fin 3)); Read A_total_flux;
     Assign (Set_eta (Fin (1/2)))]
  = mkset (Fin (1/2)) (Fin 3) (Fin (99/100)) (Fin (99/100)) (Some KLinear) 3.
Proof. split; [apply ex_obj|reflexivity]. Qed.

(** linear interpolation commutes with rescaling *)
Lemma linear_at_scale c xs ys q : 0 < c ->
  linear_at xs (map (scale c) ys) q = scale c (linear_at xs ys q).
Proof.
  intros Hc. revert ys. induction xs as [|x0 [|x1 xs] IH]; intros ys.
  - destruct ys; reflexivity.
  - destruct ys as [|y0 [|y1 ys]]; reflexivity.
  - destruct ys as [|y0 [|y1 ys]]; [reflexivity|reflexivity|].
    assert (E : nadd (nmul (ndiv (nsub (scale c y1) (scale c y0)) (nsub x1 x0)) (nsub q x0)) (scale c y0)
      = scale c (nadd (nmul (ndiv (nsub y1 y0) (nsub x1 x0)) (nsub q x0)) y0)).
    { cbn [nadd nmul ndiv nsub XRnum].
      now rewrite (sc_sub c Hc), (sc_divl c Hc), (sc_mulr c Hc), (sc_add c Hc). }
    cbn [map]. cbn [map] in IH. cbn [linear_at]. rewrite E.
    destruct (nleb q x1); auto. destruct xs as [|x2 xs]; auto.
    apply (IH (y1 :: ys)).
Qed.

Lemma mk_linear_equivariant : scale_equivariant mk_linear.
Proof.
  intros c k xs ys Hc. unfold mk_linear. rewrite map_length.
  destruct (Nat.eqb _ _); auto. eexists. split; [reflexivity|]. intros q. now apply linear_at_scale.
Qed.

Lemma C26_all (mk : kind -> list xr -> list xr -> result (xr -> xr)) (c : R) (d : pdata xr)
    (s : psettings xr) :
  scale_equivariant mk -> 0 < c -> d_dtype d = DFloat ->
  match Petrosian_new d s with
  | Err e => Petrosian_new (scaled_data c d) s = Err e
  | Ok o => exists o', Petrosian_new (scaled_data c d) s = Ok o' /\
      read mk o' A_r_petrosian = read mk o A_r_petrosian /\
      read mk o' A_r_petrosian_err = read mk o A_r_petrosian_err /\
      (forall f, read mk o' (A_fraction_to_r f) = read mk o (A_fraction_to_r f)) /\
      read mk o' A_r_half_light = read mk o A_r_half_light /\
      read mk o' A_r_total_flux = read mk o A_r_total_flux /\
      (forall f1 f2, read mk o' (A_concentration f1 f2) = read mk o (A_concentration f1 f2)) /\
      (forall F, read mk o A_total_flux = Ok (VNum F) -> read mk o' A_total_flux = Ok (VNum (scale c F))) /\
      (forall e, read mk o A_total_flux = Err e -> read mk o' A_total_flux = Err e) /\
      (forall F, read mk o A_half_flux = Ok (VNum F) -> read mk o' A_half_flux = Ok (VNum (scale c F)))
  end.
Proof.
  intros Hmk Hc Hd. rewrite (new_scale c Hc mk Hmk d s Hd) || rewrite (new_scale c Hc d s Hd).
  destruct (Petrosian_new d s) as [o|e]; auto.
  eexists. split; [reflexivity|]. fold (scaled_obj c o).
  cbn [read]. unfold num.
  rewrite !(obj_total_flux_scale c Hc mk Hmk), !(obj_half_flux_scale c Hc mk Hmk).
  repeat split; intros; rewrite ?(obj_fraction_scale c Hc mk Hmk), ?(obj_conc_scale c Hc mk Hmk);
    try reflexivity.
  - match goal with H : _ = Ok (VNum F) |- _ => apply bind_Ok in H; destruct H as (z & Ez & Hz) end.
    rewrite Ez. injection Hz as ->. reflexivity.
  - destruct (obj_total_flux mk o); cbn in *; [discriminate|congruence].
  - match goal with H : _ = Ok (VNum F) |- _ => apply bind_Ok in H; destruct H as (z & Ez & Hz) end.
    rewrite Ez. injection Hz as ->. reflexivity.
Qed.

Lemma C26_err (mk : kind -> list xr -> list xr -> result (xr -> xr)) (c : R) (o o' : petrosian xr)
    (d : pdata xr) (set : psettings xr) (fe : list xr) (r : xr) (F e s : R) (g : xr -> result xr) :
  scale_equivariant mk -> 0 < c -> d_dtype d = DFloat -> d_flux_err d = Some fe ->
  Petrosian_new d set = Ok o -> Petrosian_new (scaled_data c d) set = Ok o' ->
  read mk o A_r_total_flux = Ok (VNum r) -> read mk o A_r_total_flux_err = Ok (VNum (Fin s)) ->
  read mk o A_total_flux = Ok (VNum (Fin F)) ->
  interp1d mk (Some KNearest) (d_r d) fe = Ok g -> g r = Ok (Fin e) ->
  read mk o A_total_flux_err = Ok (VNum (Fin (sqrt (e^2 + s^2)))) /\
  read mk o' A_total_flux_err = Ok (VNum (Fin (sqrt ((c * e)^2 + s^2)))) /\
  (sqrt ((c * e)^2 + s^2) = c * sqrt (e^2 + s^2) <-> s = 0 \/ c = 1).
Proof.
  intros Hmk Hc Hd Hfe Ho Ho' Hr Hs HF Hg He.
  rewrite (new_scale c Hc mk Hmk d set Hd) in Ho' || rewrite (new_scale c Hc d set Hd) in Ho'.
  rewrite Ho in Ho'. assert (Ho2 : o' = scaled_obj c o) by (unfold scaled_obj; congruence).
  assert (Hpd : p_data o = d).
  { unfold Petrosian_new in Ho. apply bind_Ok in Ho. destruct Ho as (u & _ & Ho).
    apply bind_Ok in Ho. destruct Ho as (pe & _ & Ho). injs. reflexivity. }
  cbn [read] in *. unfold num in *.
  destruct (obj_fraction mk o (s_total_flux_fraction (p_set o))) as [[r' s']|] eqn:Ef; [|discriminate].
  cbn in Hr, Hs. assert (r' = r) by congruence. assert (s' = Fin s) by congruence. subst r' s'.
  destruct (obj_total_flux mk o) as [F'|] eqn:EF; [|discriminate]. cbn in HF.
  assert (F' = Fin F) by congruence. subst F'.
  rewrite <- Hpd in Hfe, Hg.
  destruct (obj_total_flux_err_scale c Hc mk Hmk o e s fe Hfe r F Ef EF) as (E1 & E2 & E3).
  { rewrite Hg. exact He. }
  subst o'. rewrite E1, E2. cbn [bind]. split; auto. split; auto.
  rewrite <- E3, E1, E2. cbn [scale_result scale xmul]. split; congruence.
Qed.

(** C25: no interpolation *)
Definition ex_set_none : psettings xr :=
  mkset (Fin (3/4)) (Fin 1) (Fin 1) (Fin (7/8)) None 3.

Lemma profileA : calculate_petrosian DFloat (map Fin exA) (map Fin exL) None None
  = Ok ([NaN; Fin (3/4); Fin (2/5)], None).
Proof.
  destruct (petrosian_formula exA exL) as (P & E & Hl & H0 & H); auto using exA_inc, exA_nz, exL_nz.
  rewrite E. do 2 f_equal. apply nth_error_ext. intros i.
  destruct i as [|[|[|i]]]; auto.
  - rewrite H by (cbn; lia). cbn. do 2 f_equal. apply C15_ex.
  - rewrite H by (cbn; lia). cbn. do 2 f_equal.
    unfold petro_ratio, local_sb, mean_sb, at_, exA, exL; cbn [nth Nat.sub]. field.
  - rewrite (proj2 (nth_error_None P _)) by (rewrite Hl; cbn; lia). now destruct i.
Qed.

Lemma C25_ex : exists o, Petrosian_new ex_data ex_set_none = Ok o /\
    read mk_linear o A_r_total_flux = Ok (VNum (Fin 2)) /\
    read mk_linear o A_total_flux = Err NotImplementedError.
Proof.
  unfold Petrosian_new, validate_input_arrays, ex_data.
  cbn [d_dtype d_r d_area d_flux d_area_err d_flux_err].
  rewrite profileA. cbn [length map exA exL Nat.ltb Nat.leb Nat.eqb assert_ bind fst snd].
  eexists. split; [reflexivity|].
  set (o := mkpet _ _ _ _).
  assert (Hr : obj_petro_r mk_linear o = Ok (Fin 2, NaN)).
  { unfold obj_petro_r, o, calculate_petrosian_r.
    cbn [p_data p_set p_list p_err d_r s_eta s_kind s_num ex_set_none set0 bind get_interpolated_values fst snd].
    assert (E : closest_value_index (Fin (3/4)) [n1; Fin (3/4); Fin (2/5)] false = Some 1%nat) by cvi.
    rewrite E. reflexivity. }
  assert (Hf : obj_fraction mk_linear o (Fin (7/8)) = Ok (Fin 2, NaN)).
  { unfold obj_fraction, obj_r_petrosian, obj_r_petrosian_err. rewrite Hr. cbn [bind fst snd].
    unfold o. cbn [p_data p_set d_r d_flux d_flux_err s_epsilon s_epsilon_fraction s_kind s_num ex_set_none].
    unfold fraction_to_r.
    pose proof (pymax_is_max _ _ max13) as Emax. pose proof (pymin_is_min _ _ min13) as Emin.
    cbn [map] in Emax, Emin. unfold interp1d. rewrite Emax, Emin.
    cbn [bind mk_linear length Nat.eqb nmul XRnum xmul nltb xltb orb map exL].
    rewrite !Rltb_false by lra. cbn [orb bind linear_at].
    cbn [nleb XRnum xleb]. rewrite Rleb_true by lra.
    cbn [nsub nmul nadd ndiv XRnum xsub xopp xadd xmul bind].
    rewrite xdiv_fin by lra. cbn [xmul xadd]. unfold fdiv.
    cbn [neqb XRnum n0 nofZ xeqb]. rewrite Reqb_false by lra. cbn [ndiv XRnum bind].
    rewrite xdiv_fin by lra. cbn [xmul fst snd get_interpolated_values bind].
    match goal with |- context [closest_value_index ?v ?l true] =>
      assert (E : closest_value_index v l true = Some 1%nat) end.
    { match goal with |- closest_value_index (Fin ?v) _ _ = _ => replace v with (7/2) by field end. cvi. }
    rewrite E. reflexivity. }
  assert (R1 : read mk_linear o A_r_total_flux = Ok (VNum (Fin 2))).
  { cbn [read]. unfold o at 2. cbn [p_set s_total_flux_fraction ex_set_none].
    rewrite Hf. reflexivity. }
  split; auto.
  refine (proj1 (total_flux_kind_none mk_linear o (Fin 2) (Fin 1) (Fin 3) _ _ _ _ _) R1); auto.
  - apply (pymin_is_min _ _ min13).
  - apply (pymax_is_max _ _ max13).
  - cbn. apply Rleb_true. lra.
  - cbn. apply Rleb_true. lra.
Qed.

Lemma C59_ex : nondecreasing (map IZR [1; 2; 4]%Z).
Proof. unfold nondecreasing; cbn [map]; ix; lra. Qed.

Lemma C60_ex :
  fraction_to_r mk_id (Fin (1/2)) [Fin 1; Fin 2; Fin 3] [Fin 1; Fin 2; Fin 3] (Fin 1) None
    (Some (Fin 2)) (Fin 2) (Fin 1) (Some KLinear) 3 = Ok (Fin 1, NaN) /\ 1 * 2 - 2 < 1.
Proof. split; [exact (proj1 C22_ex)|lra]. Qed.
