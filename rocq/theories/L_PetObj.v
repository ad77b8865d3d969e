(** Proofs about the Petrosian object. *)
From Coq Require Import String.
From Verif Require Import Base Num Numpy M_Utils M_Petrosian L_Numpy S_Petrosian L_Petrosian S_PetObj.

(** ** histories (C24), any scalar type *)
Section Hist.
  Context {T : Type} {N : Num T} {NL : NumLog T}.
  Variable mk : kind -> list T -> list T -> result (T -> T).

  Lemma run_fields (h : list action) : forall o : petrosian T,
    p_data (run mk o h) = p_data o /\ p_list (run mk o h) = p_list o /\
    p_err (run mk o h) = p_err o /\ p_set (run mk o h) = final_settings (p_set o) h.
  Proof.
    induction h as [|x h IH]; intros o.
    - cbn. repeat split; auto. destruct (p_set o); reflexivity.
    - change (run mk o (x :: h)) with (run mk (fst (act mk o x)) h).
      destruct (IH (fst (act mk o x))) as (H1 & H2 & H3 & H4).
      rewrite H1, H2, H3, H4. destruct x as [a|a]; cbn [act fst]; auto.
      cbn. repeat split; auto. destruct a; reflexivity.
  Qed.

  Lemma history (d : pdata T) (s : psettings T) (o : petrosian T) (h : list action) :
    Petrosian_new d s = Ok o ->
    exists o', Petrosian_new d (final_settings s h) = Ok o' /\
      forall a, read mk (run mk o h) a = read mk o' a.
  Proof.
    unfold Petrosian_new. intros H.
    apply bind_Ok in H. destruct H as (u & E1 & H). rewrite E1. cbn [bind].
    apply bind_Ok in H. destruct H as (pe & E2 & H). rewrite E2. cbn [bind].
    eexists. split; [reflexivity|].
    assert (run mk o h = mkpet d (final_settings s h) (fst pe) (snd pe)) as ->; auto.
    injs. destruct (run_fields h (mkpet d s (fst pe) (snd pe))) as (H1 & H2 & H3 & H4).
    destruct (run mk _ h) as [d' s' p' e']. cbn in *. congruence.
  Qed.

  (** construction fails or succeeds independently of the settings *)
  Lemma new_settings (d : pdata T) (s s' : psettings T) e :
    Petrosian_new d s = Err e -> Petrosian_new d s' = Err e.
  Proof.
    unfold Petrosian_new. destruct (validate_input_arrays d); cbn [bind]; auto.
    destruct (calculate_petrosian _ _ _ _ _); cbn [bind]; auto. discriminate.
  Qed.

  Lemma independent (o : petrosian T) (x : T) :
    (forall a, a = Set_epsilon x \/ a = Set_epsilon_fraction x \/ a = Set_total_flux_fraction x ->
       read mk (do_assign o a) A_r_petrosian = read mk o A_r_petrosian /\
       read mk (do_assign o a) A_r_petrosian_err = read mk o A_r_petrosian_err) /\
    (forall a, read mk (do_assign o a) A_petrosian_list = read mk o A_petrosian_list /\
       read mk (do_assign o a) A_petrosian_err = read mk o A_petrosian_err).
  Proof.
    split.
    - intros a [->|[->| ->]]; split; reflexivity.
    - intros a. split; reflexivity.
  Qed.

  (** ** broken properties (C25) *)
  Lemma half_flux_err_broken (o : petrosian T) : read mk o A_half_flux_err = Err AttributeError.
  Proof. reflexivity. Qed.

  Lemma flux_kind_none (o : petrosian T) (r : T) lo hi :
    s_kind (p_set o) = None ->
    pymin (d_r (p_data o)) = Ok lo -> pymax (d_r (p_data o)) = Ok hi ->
    obj_flux_at mk o r = if (nleb lo r && nleb r hi)%bool then Err NotImplementedError else Ok nnan.
  Proof.
    intros Hk Hlo Hhi. unfold obj_flux_at. rewrite Hlo, Hhi, Hk. reflexivity.
  Qed.

  Lemma total_flux_kind_none (o : petrosian T) r lo hi :
    s_kind (p_set o) = None ->
    pymin (d_r (p_data o)) = Ok lo -> pymax (d_r (p_data o)) = Ok hi ->
    nleb lo r = true -> nleb r hi = true ->
    (read mk o A_r_total_flux = Ok (VNum r) -> read mk o A_total_flux = Err NotImplementedError) /\
    (read mk o A_r_half_light = Ok (VNum r) -> read mk o A_half_flux = Err NotImplementedError).
  Proof.
    intros Hk Hlo Hhi H1 H2. cbn [read]. unfold num. split; intros H.
    - unfold obj_total_flux. destruct (obj_fraction mk o _) as [x|]; [|discriminate].
      cbn [bind] in *. assert (fst x = r) as -> by congruence.
      rewrite (flux_kind_none o r lo hi) by auto. now rewrite H1, H2.
    - unfold obj_half_flux. destruct (obj_fraction mk o _) as [x|]; [|discriminate].
      cbn [bind] in *. assert (fst x = r) as -> by congruence.
      rewrite (flux_kind_none o r lo hi) by auto. now rewrite H1, H2.
  Qed.
End Hist.

(** ** rescaling (C26) *)

Ltac sgn_cases :=
  repeat match goal with
  | |- context [Rltb ?a ?b] => destruct (Rltb_spec a b)
  | |- context [Rleb ?a ?b] => destruct (Rleb_spec a b)
  | |- context [Reqb ?a ?b] => destruct (Reqb_spec a b)
  end.

Section Scale.
  Variable c : R.
  Hypothesis Hc : (0 < c)%R.

  Lemma cpos_lt a : (0 < c * a <-> 0 < a)%R.
  Proof. split; intros; [apply Rmult_lt_reg_l with c; lra|apply Rmult_lt_0_compat; auto]. Qed.
  Lemma cneg_lt a : (c * a < 0 <-> a < 0)%R.
  Proof.
    split; intros.
    - apply Rmult_lt_reg_l with c; lra.
    - replace 0%R with (c * 0)%R by ring. now apply Rmult_lt_compat_l.
  Qed.
  Lemma c_zero a : (c * a = 0 <-> a = 0)%R.
  Proof.
    split; intros H; [|subst; ring]. apply Rmult_integral in H. lra.
  Qed.
  Lemma Rltb_c a b : Rltb (c * a) (c * b) = Rltb a b.
  Proof.
    destruct (Rltb_spec a b) as [H|H].
    - apply Rltb_true. now apply Rmult_lt_compat_l.
    - apply Rltb_false. apply Rmult_le_compat_l; lra.
  Qed.
  Lemma Rleb_c a b : Rleb (c * a) (c * b) = Rleb a b.
  Proof.
    destruct (Rleb_spec a b) as [H|H].
    - apply Rleb_true. apply Rmult_le_compat_l; lra.
    - apply Rleb_false. apply Rmult_lt_compat_l; lra.
  Qed.
  Lemma Rltb_c0 a : Rltb 0 (c * a) = Rltb 0 a.
  Proof. rewrite <- (Rltb_c 0 a). f_equal. ring. Qed.
  Lemma Rltb_c0' a : Rltb (c * a) 0 = Rltb a 0.
  Proof. rewrite <- (Rltb_c a 0). f_equal. ring. Qed.
  Lemma Reqb_c0 a : Reqb (c * a) 0 = Reqb a 0.
  Proof. destruct (Reqb_spec a 0) as [->|H]; [apply Reqb_true; ring|].
    apply Reqb_false. rewrite c_zero. auto. Qed.
  Lemma sgn_c a : xsgn_inf (c * a) = xsgn_inf a.
  Proof. unfold xsgn_inf. now rewrite Rltb_c0, Rltb_c0'. Qed.
  Lemma sgn_pos : xsgn_inf c = PInf.
  Proof. unfold xsgn_inf. now rewrite Rltb_true. Qed.

  Lemma scale_inf : scale c PInf = PInf. Proof. unfold scale; cbn. apply sgn_pos. Qed.
  Lemma scale_ninf : scale c NInf = NInf. Proof. unfold scale; cbn. now rewrite sgn_pos. Qed.
  Lemma scale_nan : scale c NaN = NaN. Proof. reflexivity. Qed.
  Lemma scale_fin a : scale c (Fin a) = Fin (c * a). Proof. reflexivity. Qed.
  Hint Rewrite scale_inf scale_ninf scale_nan scale_fin : sc.

  Lemma sc_add a b : xadd (scale c a) (scale c b) = scale c (xadd a b).
  Proof. destruct a, b; cbn [xadd]; autorewrite with sc; cbn [xadd]; auto. f_equal; ring. Qed.
  Lemma sc_opp a : xopp (scale c a) = scale c (xopp a).
  Proof. destruct a; cbn [xopp]; autorewrite with sc; cbn [xopp]; auto. f_equal; ring. Qed.
  Lemma sc_sub a b : xsub (scale c a) (scale c b) = scale c (xsub a b).
  Proof. unfold xsub. now rewrite sc_opp, sc_add. Qed.
  Lemma sc_sgn a : scale c (xsgn_inf a) = xsgn_inf a.
  Proof. unfold xsgn_inf. destruct (Rltb 0 a); [|destruct (Rltb a 0)]; autorewrite with sc; auto. Qed.
  Lemma sc_divl a b : xdiv (scale c a) b = scale c (xdiv a b).
  Proof.
    destruct a, b; cbn [xdiv]; autorewrite with sc; cbn [xdiv]; auto.
    - destruct (Rltb r 0); autorewrite with sc; auto.
    - destruct (Rltb r 0); autorewrite with sc; auto.
    - f_equal; ring.
    - f_equal; ring.
    - destruct (Reqb r0 0).
      + now rewrite sgn_c, sc_sgn.
      + autorewrite with sc. f_equal. unfold Rdiv. ring.
  Qed.
  Lemma sc_div a b : xdiv (scale c a) (scale c b) = xdiv a b.
  Proof.
    destruct a, b; cbn [xdiv]; autorewrite with sc; cbn [xdiv]; rewrite ?Rltb_c0', ?Reqb_c0, ?sgn_c; auto.
    destruct (Reqb_spec r0 0); auto. f_equal. field. split; auto; lra.
  Qed.
  Lemma sc_abs a : xabs (scale c a) = scale c (xabs a).
  Proof.
    destruct a; cbn [xabs]; autorewrite with sc; cbn [xabs]; auto.
    f_equal. rewrite Rabs_mult. f_equal. apply Rabs_pos_eq. lra.
  Qed.
  Lemma sc_mulr a b : xmul (scale c a) b = scale c (xmul a b).
  Proof.
    destruct a, b; cbn [xmul]; autorewrite with sc; cbn [xmul]; auto; rewrite ?sgn_c, ?sc_sgn; auto;
      rewrite ?sc_opp; rewrite ?sc_sgn; auto.
    - now rewrite <- sc_opp, sc_sgn.
    - now rewrite <- sc_opp, sc_sgn.
    - f_equal; ring.
  Qed.
  Lemma sc_hypot a b : hypot2 (scale c a) (scale c b) = scale c (hypot2 a b).
  Proof.
    assert (S : forall x, xmul (scale c x) (scale c x) = xmul (Fin (c * c)) (xmul x x)).
    { intros [| | |r]; autorewrite with sc; cbn; auto.
      - unfold xsgn_inf. rewrite Rltb_true; auto. nra.
      - unfold xsgn_inf. rewrite Rltb_true; auto. nra.
      - f_equal. ring. }
    assert (Hcc : (0 < c * c)%R) by nra.
    unfold hypot2, sq. cbn [nsqrt nadd nmul XRnum]. rewrite !S.
    assert (P : forall x, xmul x x = NaN \/ xmul x x = PInf \/ exists r, xmul x x = Fin r /\ (0 <= r)%R).
    { intros [| | |r]; cbn; auto. right; right. exists (r * r)%R. split; auto. nra. }
    assert (G : xsgn_inf (c * c) = PInf) by (unfold xsgn_inf; now rewrite Rltb_true).
    destruct (P a) as [->|[->|(r & -> & Hr)]], (P b) as [->|[->|(r' & -> & Hr')]];
      cbn [xmul]; rewrite ?G; cbn [xadd xsqrt]; autorewrite with sc; auto.
    rewrite !Rltb_false by nra. autorewrite with sc. f_equal.
    replace (c * c * r + c * c * r')%R with ((c * c) * (r + r'))%R by ring.
    rewrite sqrt_mult by nra. now rewrite sqrt_square by lra.
  Qed.
  Lemma sc_leb a b : xleb (scale c a) (scale c b) = xleb a b.
  Proof. destruct a, b; autorewrite with sc; cbn [xleb]; auto using Rleb_c. Qed.
  Lemma sc_ltb a b : xltb (scale c a) (scale c b) = xltb a b.
  Proof. destruct a, b; autorewrite with sc; cbn [xltb]; auto using Rltb_c. Qed.
  Lemma sc_isnan a : xisnan (scale c a) = xisnan a.
  Proof. destruct a; autorewrite with sc; auto. Qed.
  Lemma sc_zero : scale c n0 = n0.
  Proof. unfold n0; cbn. autorewrite with sc. f_equal; ring. Qed.

  Notation sc := (map (scale c)).

  (** lists *)
  Lemma map2_ext2 {A B C A' B'} (f : A -> B -> C) (g : A' -> B' -> C) (u : A -> A') (v : B -> B') l m :
    (forall x y, g (u x) (v y) = f x y) -> map2 g (map u l) (map v m) = map2 f l m.
  Proof. intros H. revert m; induction l; intros [|y m]; cbn [map map2]; auto. f_equal; auto. Qed.
  Lemma map2_map {A B C D} (f : A -> B -> C) (h : C -> D) l m :
    map h (map2 f l m) = map2 (fun x y => h (f x y)) l m.
  Proof. revert m; induction l; intros [|y m]; cbn; auto. f_equal; auto. Qed.
  Lemma map2_scl (f : xr -> xr -> xr) l m :
    (forall x y, f (scale c x) y = scale c (f x y)) -> map2 f (sc l) m = sc (map2 f l m).
  Proof. intros H. revert m; induction l; intros [|y m]; cbn [map map2]; auto. f_equal; auto. Qed.
  Lemma map2_scr (f : xr -> xr -> xr) l m :
    (forall x y, f x (scale c y) = scale c (f x y)) -> map2 f l (sc m) = sc (map2 f l m).
  Proof. intros H. revert m; induction l; intros [|y m]; cbn [map map2]; auto. f_equal; auto. Qed.
  Lemma map2_scb (f : xr -> xr -> xr) l m :
    (forall x y, f (scale c x) (scale c y) = scale c (f x y)) -> map2 f (sc l) (sc m) = sc (map2 f l m).
  Proof. intros H. revert m; induction l; intros [|y m]; cbn [map map2]; auto. f_equal; auto. Qed.
  Lemma map2_sc0 (f : xr -> xr -> xr) l m :
    (forall x y, f (scale c x) (scale c y) = f x y) -> map2 f (sc l) (sc m) = map2 f l m.
  Proof. intros H. revert m; induction l; intros [|y m]; cbn [map map2]; auto. f_equal; auto. Qed.
  Lemma tl_sc l : tl (sc l) = sc (tl l). Proof. now destruct l. Qed.
  Lemma diff_sc l : diff (sc l) = sc (diff l).
  Proof.
    induction l as [|x [|y l] IH]; auto.
    change (diff (sc (x :: y :: l))) with (xsub (scale c y) (scale c x) :: diff (sc (y :: l))).
    rewrite IH, sc_sub. reflexivity.
  Qed.
  Lemma zeros_sc (l : list xr) : map (fun _ : xr => n0 : xr) (sc l) = sc (map (fun _ => n0) l).
  Proof. rewrite !map_map. apply map_ext. intros _. now rewrite sc_zero. Qed.

  Lemma I_avg_sc area flux : I_avg area (sc flux) = sc (I_avg area flux).
  Proof. unfold I_avg. rewrite tl_sc. apply map2_scl. intros; apply sc_divl. Qed.
  Lemma I_at_sc area flux : I_at DFloat area (sc flux) = sc (I_at DFloat area flux).
  Proof.
    unfold I_at. rewrite diff_sc. apply map2_scl. intros x y. cbn [store].
    destruct (nltb n0 y); [apply sc_divl|now rewrite sc_zero].
  Qed.

  Lemma cp_scale area flux ae fe :
    calculate_petrosian DFloat area (sc flux) ae (option_map sc fe)
    = calculate_petrosian DFloat area flux ae fe.
  Proof.
    unfold calculate_petrosian. rewrite map_length.
    destruct (Nat.eqb (length area) (length flux)); cbn [assert_]; auto.
    destruct (Nat.ltb 2 (length area)); cbn [assert_]; auto.
    destruct (forallb _ _); cbn [assert_]; auto.
    rewrite I_avg_sc, I_at_sc.
    rewrite (map2_sc0 ndiv (I_at DFloat area flux) (I_avg area flux)) by (intros; apply sc_div).
    destruct (gather _ _) as [petro|e]; cbn [bind]; auto.
    set (fe0 := match fe with None => map (fun _ => n0) flux | Some l => l end).
    assert (Efe : match option_map sc fe with None => map (fun _ => n0) (sc flux) | Some l => l end = sc fe0).
    { unfold fe0. destruct fe; cbn; auto. apply zeros_sc. }
    rewrite Efe.
    assert (Hcore : forall ae0,
      assert_ (Nat.eqb (length ae0) (length area)) (
      assert_ (Nat.eqb (length (sc fe0)) (length flux)) (
      let area_diff_err := map2 hypot2 ae0 (tl ae0) in
      let flux_diff_err := map2 hypot2 (sc fe0) (tl (sc fe0)) in
      let rel_diff := map2 hypot2 (map2 ndiv flux_diff_err (diff (sc flux)))
                                  (map2 ndiv area_diff_err (diff area)) in
      let iat_err := map2 (fun da e => if nltb n0 da then store DFloat e else n0) (diff area)
                       (map2 (fun i s => nmul (nabs i) s) (sc (I_at DFloat area flux)) rel_diff) in
      let rel_avg := map2 hypot2 (map2 ndiv (tl (sc fe0)) (tl (sc flux))) (map2 ndiv (tl ae0) (tl area)) in
      let iavg_err := map2 (fun i s => nmul (nabs i) s) (sc (I_avg area flux)) rel_avg in
      let rel := map2 hypot2 (map2 ndiv iat_err (sc (I_at DFloat area flux)))
                             (map2 ndiv iavg_err (sc (I_avg area flux))) in
      let perr := map2 (fun da e => if nltb n0 da then store DFloat e else n0) (diff area)
                    (map2 (fun p s => nmul (nabs p) s) (tl petro) rel) in
      do petro_err <- gather (nnan :: perr) (ranks area);
          Ok (petro, Some petro_err))) =
      assert_ (Nat.eqb (length ae0) (length area)) (
      assert_ (Nat.eqb (length fe0) (length flux)) (
      let area_diff_err := map2 hypot2 ae0 (tl ae0) in
      let flux_diff_err := map2 hypot2 fe0 (tl fe0) in
      let rel_diff := map2 hypot2 (map2 ndiv flux_diff_err (diff flux))
                                  (map2 ndiv area_diff_err (diff area)) in
      let iat_err := map2 (fun da e => if nltb n0 da then store DFloat e else n0) (diff area)
                       (map2 (fun i s => nmul (nabs i) s) (I_at DFloat area flux) rel_diff) in
      let rel_avg := map2 hypot2 (map2 ndiv (tl fe0) (tl flux)) (map2 ndiv (tl ae0) (tl area)) in
      let iavg_err := map2 (fun i s => nmul (nabs i) s) (I_avg area flux) rel_avg in
      let rel := map2 hypot2 (map2 ndiv iat_err (I_at DFloat area flux))
                             (map2 ndiv iavg_err (I_avg area flux)) in
      let perr := map2 (fun da e => if nltb n0 da then store DFloat e else n0) (diff area)
                    (map2 (fun p s => nmul (nabs p) s) (tl petro) rel) in
      do petro_err <- gather (nnan :: perr) (ranks area);
          Ok (petro, Some petro_err)))).
    { intros ae0. rewrite map_length. destruct (Nat.eqb (length ae0) _); cbn [assert_]; auto.
      destruct (Nat.eqb (length fe0) _); cbn [assert_]; auto. cbv zeta.
      rewrite tl_sc, diff_sc, tl_sc.
      rewrite (map2_scb hypot2) by apply sc_hypot.
      rewrite !(map2_sc0 ndiv) by (intros; apply sc_div).
      rewrite !(map2_scl (fun i s => nmul (nabs i) s))
        by (intros; cbn [nmul nabs XRnum]; rewrite sc_abs; apply sc_mulr).
      rewrite !(map2_scr (fun da e => if nltb n0 da then store DFloat e else n0)).
      2:{ intros. cbn [store]. destruct (nltb n0 x); auto. now rewrite sc_zero. }
      rewrite !(map2_sc0 ndiv) by (intros; apply sc_div). reflexivity. }
    destruct ae as [ae0|], fe as [fe1|]; cbn [option_map]; auto.
  Qed.

  (** search *)
  Lemma find_index_map {A B} (p : B -> bool) (f : A -> B) l :
    find_index p (map f l) = find_index (fun x => p (f x)) l.
  Proof. induction l; cbn; auto. destruct (p (f a)); auto. now rewrite IHl. Qed.
  Lemma find_index_ext {A} (p q : A -> bool) l : (forall x, p x = q x) -> find_index p l = find_index q l.
  Proof. intros H. induction l; cbn; auto. rewrite H, IHl. auto. Qed.
  Lemma argmin_go_sc l : forall b bi i, argmin_go (sc l) (scale c b) bi i = argmin_go l b bi i.
  Proof.
    induction l as [|x l IH]; intros; cbn [map argmin_go]; cbn [nisnan nleb XRnum]; rewrite sc_isnan; auto.
    destruct (xisnan b); auto. rewrite sc_leb. destruct (xleb b x); apply IH.
  Qed.
  Lemma argmin_sc l : argmin (sc l) = argmin l.
  Proof. destruct l; auto. cbn [map argmin]. now rewrite argmin_go_sc. Qed.

  Lemma cvi_sc v l gr : closest_value_index (scale c v) (sc l) gr = closest_value_index v l gr.
  Proof.
    unfold closest_value_index. rewrite find_index_map.
    rewrite (find_index_ext _ (fun x => if gr then nleb v x else nleb x v)).
    2:{ intros x. cbn [nleb XRnum]. destruct gr; apply sc_leb. }
    destruct (find_index _ l) as [i|]; auto.
    rewrite firstn_map, map_map.
    rewrite <- (argmin_sc (map (fun x => nabs (nsub x v)) (firstn (S i) l))), map_map. f_equal. apply map_ext.
    intros x. cbn [nabs nsub XRnum]. now rewrite sc_sub, sc_abs.
  Qed.

  Lemma np_map2_sc (f : xr -> xr -> xr) a b :
    (forall x y, f (scale c x) (scale c y) = scale c (f x y)) ->
    np_map2 f (sc a) (sc b) = match np_map2 f a b with Ok l => Ok (sc l) | Err e => Err e end.
  Proof.
    intros H. unfold np_map2. rewrite !map_length.
    destruct (Nat.eqb (length a) (length b)); [now rewrite map2_scb|].
    destruct a as [|x [|x' a]]; destruct b as [|y [|y' b]]; cbn [map]; auto; cbn [map];
      rewrite ?map_map, ?H; auto; do 3 f_equal; auto;
      match goal with |- map _ _ = _ => apply map_ext; auto | _ => idtac end.
  Qed.

  Variable mk : kind -> list xr -> list xr -> result (xr -> xr).
  Hypothesis Hmk : scale_equivariant mk.

  Lemma interp1d_sc ik xs ys :
    match interp1d mk ik xs ys with
    | Err e => interp1d mk ik xs (sc ys) = Err e
    | Ok f => exists g, interp1d mk ik xs (sc ys) = Ok g /\ forall q, g q = scale_result c (f q)
    end.
  Proof.
    destruct ik as [k|]; [|reflexivity]. unfold interp1d. specialize (Hmk c k xs ys Hc).
    destruct (mk k xs ys) as [f|e]; cbn [bind].
    - destruct Hmk as (g & -> & Hg). cbn [bind].
      destruct (pymin xs) as [lo|]; cbn [bind]; auto. destruct (pymax xs) as [hi|]; cbn [bind]; auto.
      eexists. split; [reflexivity|]. intros q. cbn. destruct (_ || _)%bool; cbn; auto. now rewrite Hg.
    - now rewrite Hmk.
  Qed.

  Lemma mapM_sc (f g : xr -> result xr) l : (forall q, g q = scale_result c (f q)) ->
    mapM g l = match mapM f l with Ok m => Ok (sc m) | Err e => Err e end.
  Proof.
    intros H. induction l as [|x l IH]; cbn; auto. rewrite H, IH.
    destruct (f x); cbn; auto. destruct (mapM f l); cbn; auto.
  Qed.

  Lemma giv_sc xs ys num ik :
    get_interpolated_values mk xs (sc ys) num ik =
    match get_interpolated_values mk xs ys num ik with
    | Ok (g, q) => Ok (g, sc q) | Err e => Err e end.
  Proof.
    destruct ik as [k|]; [|reflexivity]. unfold get_interpolated_values.
    pose proof (interp1d_sc (Some k) xs ys) as H.
    destruct (interp1d mk (Some k) xs ys) as [f|e]; cbn [bind]; [|now rewrite H].
    destruct H as (g & -> & Hg). cbn [bind].
    destruct (pymin xs); cbn [bind]; auto. destruct (pymax xs); cbn [bind]; auto.
    rewrite (mapM_sc f g) by auto. destruct (mapM f _); cbn [bind]; auto.
  Qed.

  Lemma frac_scale fr r flux rp fe pe eps ef ik num :
    fraction_to_r mk fr r (sc flux) rp (option_map sc fe) pe eps ef ik num
    = fraction_to_r mk fr r flux rp fe pe eps ef ik num.
  Proof.
    unfold fraction_to_r. destruct (pymax r) as [rm|]; cbn [bind]; auto.
    destruct (nltb rm _); auto.
    set (k := match ik with None => KCubic | Some k => k end).
    pose proof (interp1d_sc (Some k) r flux) as H.
    destruct (interp1d mk (Some k) r flux) as [f|e]; cbn [bind]; [|now rewrite H].
    destruct H as (g & -> & Hg). cbn [bind]. rewrite Hg.
    destruct (f (nmul rp eps)) as [F|e]; cbn [bind scale_result]; auto.
    destruct (fdiv PyFloat fr ef) as [q|e]; cbn [bind]; auto.
    rewrite giv_sc. destruct (get_interpolated_values mk r flux num ik) as [[gr ql]|e]; cbn [bind fst snd]; auto.
    cbn [nmul XRnum]. rewrite sc_mulr, cvi_sc.
    destruct (pick gr _) as [o|e]; cbn [bind]; auto.
    destruct fe as [fe|]; cbn [option_map]; auto. destruct (nisnan o); auto.
    cbn [nsub nadd XRnum].
    rewrite (np_map2_sc xsub) by (intros; apply sc_sub).
    destruct (np_map2 xsub flux fe) as [fl|e]; cbn [bind]; auto.
    pose proof (interp1d_sc (Some k) r fl) as H1.
    destruct (interp1d mk (Some k) r fl) as [f1|e]; cbn [bind]; [|now rewrite H1].
    destruct H1 as (g1 & -> & Hg1). cbn [bind].
    rewrite (np_map2_sc xadd) by (intros; apply sc_add).
    destruct (np_map2 xadd flux fe) as [fu|e]; cbn [bind]; auto.
    pose proof (interp1d_sc (Some k) r fu) as H2.
    destruct (interp1d mk (Some k) r fu) as [f2|e]; cbn [bind]; [|now rewrite H2].
    destruct H2 as (g2 & -> & Hg2). cbn [bind].
    rewrite Hg1, Hg2.
    destruct (f1 _) as [e1|e]; cbn [bind scale_result]; auto.
    destruct (f2 _) as [e2|e]; cbn [bind scale_result]; auto.
    rewrite !giv_sc.
    rewrite sc_sub. cbn [ndiv XRnum]. rewrite sc_divl, sc_sub, sc_add.
    destruct (get_interpolated_values mk r fl _ _) as [[g3 q3]|e]; cbn [bind fst snd]; auto.
    rewrite cvi_sc. destruct (pick g3 _); cbn [bind]; auto.
    destruct (get_interpolated_values mk r fu _ _) as [[g4 q4]|e]; cbn [bind fst snd]; auto.
    now rewrite cvi_sc.
  Qed.

  (** object level *)
  Lemma new_scale d s : d_dtype d = DFloat ->
    Petrosian_new (scaled_data c d) s =
    match Petrosian_new d s with
    | Ok o => Ok (mkpet (scaled_data c (p_data o)) (p_set o) (p_list o) (p_err o))
    | Err e => Err e
    end.
  Proof.
    intros Hd. unfold Petrosian_new, validate_input_arrays, scaled_data.
    cbn [d_dtype d_r d_area d_flux d_area_err d_flux_err]. rewrite map_length.
    destruct (Nat.ltb 2 (length (d_r d))); cbn [assert_ bind]; auto.
    destruct (Nat.eqb (length (d_r d)) (length (d_flux d))); cbn [assert_ bind]; auto.
    replace (match option_map (map (scale c)) (d_flux_err d) with
             | None => true | Some e => Nat.eqb (length (d_flux d)) (length e) end)
      with (match d_flux_err d with
             | None => true | Some e => Nat.eqb (length (d_flux d)) (length e) end)
      by (destruct (d_flux_err d); cbn; now rewrite ?map_length).
    destruct (match d_flux_err d with None => true | Some e => _ end); cbn [assert_ bind]; auto.
    destruct (match d_area_err d with None => true | Some e => _ end); cbn [assert_ bind]; auto.
    rewrite Hd, cp_scale.
    destruct (calculate_petrosian DFloat _ _ _ _) as [pe|e]; cbn [bind]; auto.
    do 2 f_equal. unfold scaled_data. cbn. now rewrite Hd.
  Qed.

  Definition scaled_obj (o : petrosian xr) : petrosian xr :=
    mkpet (scaled_data c (p_data o)) (p_set o) (p_list o) (p_err o).

  Lemma obj_fraction_scale o f : obj_fraction mk (scaled_obj o) f = obj_fraction mk o f.
  Proof.
    unfold obj_fraction. change (obj_r_petrosian mk (scaled_obj o)) with (obj_r_petrosian mk o).
    change (obj_r_petrosian_err mk (scaled_obj o)) with (obj_r_petrosian_err mk o).
    destruct (obj_r_petrosian mk o); cbn [bind]; auto.
    destruct (obj_r_petrosian_err mk o); cbn [bind]; auto.
    unfold scaled_obj, scaled_data. cbn [p_data p_set d_r d_flux d_flux_err]. apply frac_scale.
  Qed.

  Lemma obj_conc_scale o f1 f2 : obj_concentration mk (scaled_obj o) f1 f2 = obj_concentration mk o f1 f2.
  Proof.
    unfold obj_concentration. change (obj_r_petrosian mk (scaled_obj o)) with (obj_r_petrosian mk o).
    change (obj_r_petrosian_err mk (scaled_obj o)) with (obj_r_petrosian_err mk o).
    destruct (obj_r_petrosian mk o); cbn [bind]; auto.
    destruct (obj_r_petrosian_err mk o); cbn [bind]; auto.
    unfold calculate_concentration_index, scaled_obj, scaled_data.
    cbn [p_data p_set d_r d_flux d_flux_err]. now rewrite !frac_scale.
  Qed.

  Lemma obj_flux_scale o r : obj_flux_at mk (scaled_obj o) r = scale_result c (obj_flux_at mk o r).
  Proof.
    unfold obj_flux_at, scaled_obj, scaled_data. cbn [p_data p_set d_r d_flux].
    destruct (pymin _); cbn [bind scale_result]; auto. destruct (pymax _); cbn [bind scale_result]; auto.
    destruct (_ && _)%bool; [|reflexivity].
    pose proof (interp1d_sc (s_kind (p_set o)) (d_r (p_data o)) (d_flux (p_data o))) as H.
    destruct (interp1d mk _ _ (d_flux (p_data o))) as [f|e]; cbn [bind scale_result]; [|now rewrite H].
    destruct H as (g & -> & Hg). cbn [bind]. apply Hg.
  Qed.

  Lemma obj_total_flux_scale o :
    obj_total_flux mk (scaled_obj o) = scale_result c (obj_total_flux mk o).
  Proof.
    unfold obj_total_flux. rewrite obj_fraction_scale.
    change (s_total_flux_fraction (p_set (scaled_obj o))) with (s_total_flux_fraction (p_set o)).
    destruct (obj_fraction mk o _); cbn [bind scale_result]; auto. apply obj_flux_scale.
  Qed.
  Lemma obj_half_flux_scale o :
    obj_half_flux mk (scaled_obj o) = scale_result c (obj_half_flux mk o).
  Proof.
    unfold obj_half_flux. rewrite obj_fraction_scale.
    destruct (obj_fraction mk o _); cbn [bind scale_result]; auto. apply obj_flux_scale.
  Qed.

  (** the total flux error mixes a flux and a radius *)
  Lemma obj_total_flux_err_scale o (e s : R) (fe : list xr) :
    d_flux_err (p_data o) = Some fe ->
    forall r F,
    obj_fraction mk o (s_total_flux_fraction (p_set o)) = Ok (r, Fin s) ->
    obj_total_flux mk o = Ok (Fin F) ->
    (do f <- interp1d mk (Some KNearest) (d_r (p_data o)) fe; f r) = Ok (Fin e) ->
    obj_total_flux_err mk o = Ok (Fin (sqrt (e^2 + s^2))) /\
    obj_total_flux_err mk (scaled_obj o) = Ok (Fin (sqrt ((c * e)^2 + s^2))) /\
    (obj_total_flux_err mk (scaled_obj o) = scale_result c (obj_total_flux_err mk o) <->
       s = 0%R \/ c = 1%R).
  Proof.
    intros Hfe r F Hr HF He.
    assert (E1 : obj_total_flux_err mk o = Ok (Fin (sqrt (e^2 + s^2)))).
    { unfold obj_total_flux_err. rewrite Hr, Hfe, HF. cbn [bind fst snd nisnan XRnum xisnan].
      destruct (interp1d mk _ _ fe) as [f|]; [|discriminate]. cbn [bind] in *. rewrite He. cbn [bind].
      unfold sq. cbn [nsqrt nadd nmul XRnum xmul xadd]. rewrite xsqrt_fin by nra.
      do 3 f_equal. ring. }
    assert (E2 : obj_total_flux_err mk (scaled_obj o) = Ok (Fin (sqrt ((c * e)^2 + s^2)))).
    { unfold obj_total_flux_err. rewrite obj_fraction_scale, obj_total_flux_scale.
      change (s_total_flux_fraction (p_set (scaled_obj o))) with (s_total_flux_fraction (p_set o)).
      rewrite Hr, HF. cbn [bind scaled_obj p_data scaled_data d_flux_err d_r scale_result].
      rewrite Hfe. cbn [option_map nisnan XRnum]. rewrite sc_isnan. cbn [xisnan].
      pose proof (interp1d_sc (Some KNearest) (d_r (p_data o)) fe) as H.
      destruct (interp1d mk (Some KNearest) _ fe) as [f|]; [|discriminate]. cbn [bind] in *.
      destruct H as (g & -> & Hg). cbn [bind fst snd]. rewrite Hg, He. cbn [bind scale_result].
      rewrite scale_fin.
      unfold sq. cbn [nsqrt nadd nmul XRnum xmul xadd]. rewrite xsqrt_fin by nra.
      do 3 f_equal. ring. }
    split; auto. split; auto. rewrite E1, E2. cbn [scale_result]. rewrite scale_fin.
    assert (Hsq : forall u v, (0 <= u -> 0 <= v -> (sqrt u = c * sqrt v <-> u = c * c * v))%R).
    { intros u v Hu Hv. rewrite <- (sqrt_square c) at 1 by lra.
      rewrite <- sqrt_mult by nra. split.
      - intros H. apply sqrt_inj; nra.
      - intros ->. reflexivity. }
    assert (Q : (sqrt ((c * e) ^ 2 + s ^ 2) = c * sqrt (e ^ 2 + s ^ 2))%R <-> s = 0%R \/ c = 1%R).
    { rewrite Hsq by nra. split.
      - intros H. assert (H' : ((1 - c) * ((1 + c) * (s * s)) = 0)%R) by nra.
        apply Rmult_integral in H'. destruct H' as [H'|H']; [right; lra|].
        apply Rmult_integral in H'. destruct H' as [H'|H']; [lra|]. left.
        apply Rmult_integral in H'. tauto.
      - intros [->| ->]; ring. }
    rewrite <- Q. split; [intros H|intros ->; reflexivity]. congruence.
  Qed.
End Scale.
