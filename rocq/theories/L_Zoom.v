(** A change of the unit of length. *)
From Verif Require Import Base Num Numpy M_Utils M_Petrosian M_Sources S_PetObj S_Zoom L_Numpy L_PetObj.

Lemma xmul_comm a b : xmul a b = xmul b a.
Proof. destruct a, b; cbn; auto. f_equal. ring. Qed.

Section Area.
  Variable c : R.
  Hypothesis Hc : (0 < c)%R.
  Notation sc := (map (scale c)).

  Lemma sc_mull a b : xmul a (scale c b) = scale c (xmul a b).
  Proof. rewrite xmul_comm, (sc_mulr c Hc), xmul_comm. reflexivity. Qed.
  Lemma inv_pos : (0 < / c)%R. Proof. now apply Rinv_0_lt_compat. Qed.
  Lemma sc_divr a b : xdiv a (scale c b) = scale (/ c) (xdiv a b).
  Proof.
    pose proof inv_pos as Hi.
    destruct a as [| | |r], b as [| | |r0]; rewrite ?(scale_inf c Hc), ?(scale_ninf c Hc), ?scale_nan, ?scale_fin; cbn [xdiv];
      rewrite ?scale_nan, ?(Rltb_c0' c Hc), ?(Reqb_c0 c Hc); auto.
    - destruct (Rltb r0 0); now rewrite ?(scale_inf _ Hi), ?(scale_ninf _ Hi).
    - destruct (Rltb r0 0); now rewrite ?(scale_inf _ Hi), ?(scale_ninf _ Hi).
    - rewrite scale_fin. f_equal. ring.
    - rewrite scale_fin. f_equal. ring.
    - destruct (Reqb_spec r0 0) as [E|E].
      + now rewrite (sc_sgn _ Hi).
      + rewrite scale_fin. f_equal. field. split; auto. lra.
  Qed.
  Lemma sc_eqb a b : neqb (scale c a) (scale c b) = neqb a b.
  Proof.
    destruct a, b; rewrite ?(scale_inf c Hc), ?(scale_ninf c Hc), ?scale_nan, ?scale_fin; cbn; auto.
    destruct (Reqb_spec r r0) as [->|H]; [now apply Reqb_true|]. apply Reqb_false. intros E. apply H. nra.
  Qed.
  Lemma sc_eqb0 a : neqb (scale c a) (nofZ 0) = neqb a (nofZ 0).
  Proof. rewrite <- (sc_eqb a (nofZ 0)). f_equal. symmetry. apply (sc_zero c). Qed.

  Lemma ranks_from_sc l : forall x k, ranks_from (scale c x) k (sc l) = ranks_from x k l.
  Proof. induction l as [|y l IH]; intros x k; cbn [map ranks_from]; auto. rewrite sc_eqb. f_equal. apply IH. Qed.
  Lemma ranks_sc l : ranks (sc l) = ranks l.
  Proof. destruct l; cbn [map ranks]; auto. f_equal. apply ranks_from_sc. Qed.
  Lemma pos_sc a : nltb n0 (scale c a) = nltb n0 a.
  Proof. rewrite <- (sc_zero c) at 1. apply (sc_ltb c Hc). Qed.
  Lemma nonneg_sc a : nleb n0 (scale c a) = nleb n0 a.
  Proof. rewrite <- (sc_zero c) at 1. apply (sc_leb c Hc). Qed.
  Lemma forallb_nonneg l : forallb (fun x => nleb n0 x) (sc l) = forallb (fun x => nleb n0 x) l.
  Proof. induction l; cbn [map forallb]; auto. now rewrite nonneg_sc, IHl. Qed.

  (** the profile does not see the unit of area *)
  Lemma I_avg_area area flux : I_avg (sc area) flux = map (scale (/ c)) (I_avg area flux).
  Proof.
    unfold I_avg. rewrite tl_sc. generalize (tl flux), (tl area). intros l. induction l as [|x l IH]; intros [|y m]; cbn [map map2]; auto.
    f_equal; auto. apply sc_divr.
  Qed.
  Lemma I_at_area area flux : I_at DFloat (sc area) flux = map (scale (/ c)) (I_at DFloat area flux).
  Proof.
    unfold I_at. rewrite (diff_sc c Hc). generalize (diff flux), (diff area). intros l. induction l as [|x l IH]; intros [|y m]; cbn [map map2]; auto.
    f_equal; auto. rewrite pos_sc. cbn [store]. destruct (nltb n0 y); [apply sc_divr|]. symmetry. apply sc_zero.
  Qed.
  Lemma gate_area l m : map2 (fun da e => if nltb n0 da then store DFloat e else n0 : xr) (sc l) m
    = map2 (fun da e => if nltb n0 da then store DFloat e else n0) l m.
  Proof. revert m; induction l as [|x l IH]; intros [|y m]; cbn [map map2]; auto. now rewrite pos_sc, IH. Qed.

  Lemma cp_area area flux ae fe :
    calculate_petrosian DFloat (sc area) flux (option_map sc ae) fe
    = calculate_petrosian DFloat area flux ae fe.
  Proof.
    pose proof inv_pos as Hi.
    unfold calculate_petrosian. rewrite map_length, (diff_sc c Hc), forallb_nonneg, ranks_sc, I_avg_area, I_at_area.
    destruct (Nat.eqb (length area) (length flux)); cbn [assert_]; auto.
    destruct (Nat.ltb 2 (length area)); cbn [assert_]; auto.
    destruct (forallb _ _); cbn [assert_]; auto.
    cbv zeta.
    rewrite (map2_sc0 (/ c) ndiv (I_at DFloat area flux) (I_avg area flux)) by (intros; apply (sc_div _ Hi)).
    destruct (gather _ _) as [petro|e]; cbn [bind]; auto.
    set (ae0 := match ae with None => map (fun _ => n0) area | Some l => l end).
    assert (Eae : match option_map sc ae with None => map (fun _ => n0) (sc area) | Some l => l end = sc ae0).
    { unfold ae0. destruct ae; cbn; auto. apply zeros_sc. }
    rewrite Eae. generalize dependent ae0. intros ae0 _.
    assert (Q : forall fe0 : list xr,
      map2 hypot2 (map2 ndiv (map2 hypot2 fe0 (tl fe0)) (diff flux)) (map2 ndiv (map2 hypot2 (sc ae0) (tl (sc ae0))) (sc (diff area)))
      = map2 hypot2 (map2 ndiv (map2 hypot2 fe0 (tl fe0)) (diff flux)) (map2 ndiv (map2 hypot2 ae0 (tl ae0)) (diff area))).
    { intros fe0. f_equal. rewrite tl_sc, (map2_scb c hypot2) by (apply (sc_hypot c Hc)).
      apply map2_sc0. intros; apply (sc_div c Hc). }
    assert (Q2 : map2 ndiv (tl (sc ae0)) (tl (sc area)) = map2 ndiv (tl ae0) (tl area)).
    { rewrite !tl_sc. apply map2_sc0. intros; apply (sc_div c Hc). }
    assert (Hcore : forall fe0 : list xr,
      assert_ (Nat.eqb (length (sc ae0)) (length area)) (
      assert_ (Nat.eqb (length fe0) (length flux)) (
      let area_diff_err := map2 hypot2 (sc ae0) (tl (sc ae0)) in
      let flux_diff_err := map2 hypot2 fe0 (tl fe0) in
      let rel_diff := map2 hypot2 (map2 ndiv flux_diff_err (diff flux))
                                  (map2 ndiv area_diff_err (sc (diff area))) in
      let iat_err := map2 (fun da e => if nltb n0 da then store DFloat e else n0) (sc (diff area))
                       (map2 (fun i s => nmul (nabs i) s) (map (scale (/ c)) (I_at DFloat area flux)) rel_diff) in
      let rel_avg := map2 hypot2 (map2 ndiv (tl fe0) (tl flux)) (map2 ndiv (tl (sc ae0)) (tl (sc area))) in
      let iavg_err := map2 (fun i s => nmul (nabs i) s) (map (scale (/ c)) (I_avg area flux)) rel_avg in
      let rel := map2 hypot2 (map2 ndiv iat_err (map (scale (/ c)) (I_at DFloat area flux)))
                             (map2 ndiv iavg_err (map (scale (/ c)) (I_avg area flux))) in
      let perr := map2 (fun da e => if nltb n0 da then store DFloat e else n0) (sc (diff area))
                    (map2 (fun p s => nmul (nabs p) s) (tl petro) rel) in
      do petro_err <- gather (nnan :: perr) (ranks area);
          Ok (petro, Some petro_err))) =
      assert_ (Nat.eqb (length ae0) (length area)) (
      assert_ (Nat.eqb (length fe0) (length flux)) (
      let area_diff_err := map2 hypot2 ae0 (tl ae0) in
      let flux_diff_err := map2 hypot2 fe0 (tl fe0) in
      let rel_diff := map2 hypot2 (map2 ndiv flux_diff_err (diff flux))
                                  (map2 ndiv area_diff_err (diff area)) in
      let iat_err := map2 (fun da e => if nltb n0 da then store DFloat e else n0) (diff area)
                       (map2 (fun i s => nmul (nabs i) s) (I_at DFloat area flux) rel_diff) in
      let rel_avg := map2 hypot2 (map2 ndiv (tl fe0) (tl flux)) (map2 ndiv (tl ae0) (tl area)) in
      let iavg_err := map2 (fun i s => nmul (nabs i) s) (I_avg area flux) rel_avg in
      let rel := map2 hypot2 (map2 ndiv iat_err (I_at DFloat area flux))
                             (map2 ndiv iavg_err (I_avg area flux)) in
      let perr := map2 (fun da e => if nltb n0 da then store DFloat e else n0) (diff area)
                    (map2 (fun p s => nmul (nabs p) s) (tl petro) rel) in
      do petro_err <- gather (nnan :: perr) (ranks area);
          Ok (petro, Some petro_err)))).
    { intros fe0. rewrite map_length. destruct (Nat.eqb (length ae0) _); cbn [assert_]; auto.
      destruct (Nat.eqb (length fe0) _); cbn [assert_]; auto. cbv zeta.
      rewrite Q, Q2, !gate_area.
      rewrite !(map2_scl (/ c) (fun i s => nmul (nabs i) s))
        by (intros; cbn [nmul nabs XRnum]; rewrite (sc_abs _ Hi); apply (sc_mulr _ Hi)).
      rewrite !(map2_scr (/ c) (fun da e => if nltb n0 da then store DFloat e else n0)).
      2:{ intros. cbn [store]. destruct (nltb n0 x); auto. now rewrite sc_zero. }
      rewrite !(map2_sc0 (/ c) ndiv) by (intros; apply (sc_div _ Hi)). reflexivity. }
    destruct ae as [ae1|], fe as [fe1|]; cbn [option_map]; auto; apply Hcore.
  Qed.

End Area.

Section Stretch.
  Variable c : R.
  Hypothesis Hc : (0 < c)%R.
  Notation sc := (map (scale c)).
  (** radii *)
  Lemma pymax_sc l : pymax (sc l) = match pymax l with Ok x => Ok (scale c x) | Err e => Err e end.
  Proof.
    destruct l as [|x l]; auto. cbn [map pymax]. f_equal. unfold pymax_from. revert x.
    induction l as [|y l IH]; intros x; cbn [map fold_left]; auto. cbn [nltb XRnum]. rewrite (sc_ltb c Hc).
    destruct (xltb x y); apply IH.
  Qed.
  Lemma pymin_sc l : pymin (sc l) = match pymin l with Ok x => Ok (scale c x) | Err e => Err e end.
  Proof.
    destruct l as [|x l]; auto. cbn [map pymin]. f_equal. unfold pymin_from. revert x.
    induction l as [|y l IH]; intros x; cbn [map fold_left]; auto. cbn [nltb XRnum]. rewrite (sc_ltb c Hc).
    destruct (xltb y x); apply IH.
  Qed.
  Lemma linspace_sc a b n : linspace (scale c a) (scale c b) n = sc (linspace a b n).
  Proof.
    unfold linspace. destruct n as [|[|n]]; auto.
    - cbn [map]. cbn [nadd nsub nmul XRnum]. now rewrite (sc_sub c Hc), (sc_mull c Hc), (sc_add c Hc).
    - unfold tabulate. rewrite map_map. apply map_ext. intros k. destruct (Nat.eqb k _); auto.
      cbn [nadd nsub nmul ndiv XRnum]. rewrite (sc_sub c Hc), (sc_divl c Hc).
      change (xdiv (xsub b a) (nofnat (S n))) with (ndiv (nsub b a) (nofnat (S n))). rewrite (sc_eqb0 c Hc).
      destruct (neqb _ _); now rewrite (sc_mull c Hc), (sc_add c Hc).
  Qed.
  Lemma set0_sc l : set0 n0 (sc l) = match set0 n0 l with Ok m => Ok (sc m) | Err e => Err e end.
  Proof. destruct l; cbn [map set0]; auto. now rewrite sc_zero. Qed.
  Lemma index_sc l i : index (sc l) i = scale_result c (index l i).
  Proof. unfold index. rewrite nth_error_map. destruct (nth_error l i); reflexivity. Qed.
  Lemma pick_sc l i : pick (sc l) i = scale_result c (pick l i).
  Proof. destruct i; cbn [pick]; [apply index_sc|reflexivity]. Qed.

  Variable mk : kind -> list xr -> list xr -> result (xr -> xr).
  Hypothesis Hmk : stretch_equivariant mk.

  Lemma interp1d_st ik xs ys :
    match interp1d mk ik xs ys with
    | Err e => interp1d mk ik (sc xs) ys = Err e
    | Ok f => exists g, interp1d mk ik (sc xs) ys = Ok g /\ forall q, g (scale c q) = f q
    end.
  Proof.
    destruct ik as [k|]; [|reflexivity]. unfold interp1d. specialize (Hmk c k xs ys Hc).
    destruct (mk k xs ys) as [f|e]; cbn [bind].
    - destruct Hmk as (g & -> & Hg). cbn [bind]. rewrite pymin_sc, pymax_sc.
      destruct (pymin xs) as [lo|]; cbn [bind]; auto. destruct (pymax xs) as [hi|]; cbn [bind]; auto.
      eexists. split; [reflexivity|]. intros q. cbv beta. cbn [nltb XRnum]. rewrite !(sc_ltb c Hc), Hg. reflexivity.
    - now rewrite Hmk.
  Qed.
  Lemma mapM_st (f g : xr -> result xr) l : (forall q, g (scale c q) = f q) -> mapM g (sc l) = mapM f l.
  Proof. intros H. induction l as [|x l IH]; cbn [map mapM]; auto. now rewrite H, IH. Qed.
  Lemma giv_st xs ys n ik :
    get_interpolated_values mk (sc xs) ys n ik =
    match get_interpolated_values mk xs ys n ik with Ok (g, q) => Ok (sc g, q) | Err e => Err e end.
  Proof.
    destruct ik as [k|]; [|reflexivity]. unfold get_interpolated_values. rewrite map_length.
    pose proof (interp1d_st (Some k) xs ys) as H.
    destruct (interp1d mk (Some k) xs ys) as [f|e]; cbn [bind]; [|now rewrite H].
    destruct H as (g & -> & Hg). cbn [bind]. rewrite pymin_sc, pymax_sc.
    destruct (pymin xs); cbn [bind]; auto. destruct (pymax xs); cbn [bind]; auto.
    rewrite linspace_sc, (mapM_st f g) by auto. destruct (mapM f _); cbn [bind]; auto.
  Qed.

  Definition scale_pair (m : result (xr * xr)) : result (xr * xr) :=
    match m with Ok (a, b) => Ok (scale c a, scale c b) | Err e => Err e end.

  Lemma petro_r_st r p e eta ik n :
    calculate_petrosian_r mk (sc r) p e eta ik n = scale_pair (calculate_petrosian_r mk r p e eta ik n).
  Proof.
    unfold calculate_petrosian_r. rewrite set0_sc. destruct (set0 n0 r) as [r'|er]; cbn [bind scale_pair]; auto.
    destruct (set0 n1 p) as [p'|er]; cbn [bind scale_pair]; auto.
    rewrite giv_st. destruct (get_interpolated_values mk r' p' n ik) as [[g q]|er]; cbn [bind fst snd scale_pair]; auto.
    rewrite pick_sc. destruct (pick g _) as [a|er]; cbn [bind scale_result scale_pair]; auto.
    destruct e as [e|]; [|reflexivity]. cbn [nisnan XRnum]. rewrite (sc_isnan c Hc). destruct (xisnan a); [reflexivity|].
    destruct (set0 n0 e) as [e'|er]; cbn [bind scale_pair]; auto.
    destruct (np_map2 nadd p' e') as [pu|er]; cbn [bind scale_pair]; auto.
    rewrite giv_st. destruct (get_interpolated_values mk r' pu n ik) as [[g2 q2]|er]; cbn [bind fst snd scale_pair]; auto.
    rewrite pick_sc. destruct (pick g2 _) as [b|er]; cbn [bind scale_result scale_pair]; auto.
    destruct (np_map2 nsub p' e') as [pl|er]; cbn [bind scale_pair]; auto.
    rewrite giv_st. destruct (get_interpolated_values mk r' pl n ik) as [[g3 q3]|er]; cbn [bind fst snd scale_pair]; auto.
    rewrite pick_sc. destruct (pick g3 _) as [d|er]; cbn [bind scale_result scale_pair]; auto.
    cbn [nsub ndiv XRnum]. now rewrite (sc_sub c Hc), (sc_divl c Hc).
  Qed.

  Lemma frac_st fr r flux rp fe pe eps ef ik n :
    fraction_to_r mk fr (sc r) flux (scale c rp) fe (option_map (scale c) pe) eps ef ik n
    = scale_pair (fraction_to_r mk fr r flux rp fe pe eps ef ik n).
  Proof.
    unfold fraction_to_r. rewrite pymax_sc. destruct (pymax r) as [rm|e]; cbn [bind scale_pair]; auto.
    cbn [nmul nltb XRnum]. rewrite (sc_mulr c Hc), (sc_ltb c Hc). set (x := xmul rp eps).
    destruct (xltb rm x); [reflexivity|].
    set (k := match ik with None => KCubic | Some k => k end).
    pose proof (interp1d_st (Some k) r flux) as H.
    destruct (interp1d mk (Some k) r flux) as [f|e]; cbn [bind scale_pair]; [|now rewrite H].
    destruct H as (g & -> & Hg). cbn [bind]. rewrite Hg.
    destruct (f x) as [F|e]; cbn [bind scale_pair]; auto.
    destruct (fdiv PyFloat fr ef) as [q|e]; cbn [bind scale_pair]; auto.
    rewrite giv_st. destruct (get_interpolated_values mk r flux n ik) as [[gr ql]|e]; cbn [bind fst snd scale_pair]; auto.
    rewrite pick_sc. destruct (pick gr _) as [o|e]; cbn [bind scale_result scale_pair]; auto.
    destruct fe as [fe|]; [|reflexivity]. cbn [nisnan XRnum]. rewrite (sc_isnan c Hc). destruct (xisnan o); [reflexivity|].
    destruct (np_map2 nsub flux fe) as [fl|e]; cbn [bind scale_pair]; auto.
    pose proof (interp1d_st (Some k) r fl) as H1.
    destruct (interp1d mk (Some k) r fl) as [f1|e]; cbn [bind scale_pair]; [|now rewrite H1].
    destruct H1 as (g1 & -> & Hg1). cbn [bind].
    destruct (np_map2 nadd flux fe) as [fu|e]; cbn [bind scale_pair]; auto.
    pose proof (interp1d_st (Some k) r fu) as H2.
    destruct (interp1d mk (Some k) r fu) as [f2|e]; cbn [bind scale_pair]; [|now rewrite H2].
    destruct H2 as (g2 & -> & Hg2). cbn [bind].
    set (re := match pe with None => n0 | Some y => if xisnan y then n0 else y end).
    replace (match option_map (scale c) pe with None => n0 | Some y => if xisnan y then n0 else y end) with (scale c re).
    2:{ unfold re. destruct pe as [y|]; cbn [option_map]; [|apply sc_zero]. rewrite (sc_isnan c Hc). destruct (xisnan y); [apply sc_zero|reflexivity]. }
    cbn [nsub nadd XRnum]. rewrite (sc_sub c Hc), (sc_add c Hc), Hg1, Hg2.
    destruct (f1 _) as [e1|e]; cbn [bind scale_pair]; auto.
    destruct (f2 _) as [e2|e]; cbn [bind scale_pair]; auto.
    rewrite giv_st. destruct (get_interpolated_values mk r fl _ _) as [[g3 q3]|e]; cbn [bind fst snd scale_pair]; auto.
    rewrite pick_sc. destruct (pick g3 _); cbn [bind scale_result scale_pair]; auto.
    rewrite giv_st. destruct (get_interpolated_values mk r fu _ _) as [[g4 q4]|e]; cbn [bind fst snd scale_pair]; auto.
    rewrite pick_sc. destruct (pick g4 _); cbn [bind scale_result scale_pair]; auto.
    cbn [ndiv XRnum]. now rewrite (sc_sub c Hc), (sc_divl c Hc).
  Qed.

  (** objects *)
  Variable ka : R.
  Hypothesis Hka : (0 < ka)%R.
  Definition zoomed_obj (o : petrosian xr) : petrosian xr :=
    mkpet (zoomed_data c ka (p_data o)) (p_set o) (p_list o) (p_err o).

  Lemma petro_obj o : obj_petro_r mk (zoomed_obj o) = scale_pair (obj_petro_r mk o).
  Proof. unfold obj_petro_r, zoomed_obj, zoomed_data. cbn [p_data p_set p_list p_err d_r]. apply petro_r_st. Qed.
  Lemma r_petrosian_obj o : obj_r_petrosian mk (zoomed_obj o) = scale_result c (obj_r_petrosian mk o).
  Proof. unfold obj_r_petrosian. rewrite petro_obj. destruct (obj_petro_r mk o) as [[a b]|]; reflexivity. Qed.
  Lemma r_petrosian_err_obj o : obj_r_petrosian_err mk (zoomed_obj o) = scale_result c (obj_r_petrosian_err mk o).
  Proof. unfold obj_r_petrosian_err. rewrite petro_obj. destruct (obj_petro_r mk o) as [[a b]|]; reflexivity. Qed.
  Lemma fraction_obj o f : obj_fraction mk (zoomed_obj o) f = scale_pair (obj_fraction mk o f).
  Proof.
    unfold obj_fraction. rewrite r_petrosian_obj, r_petrosian_err_obj.
    destruct (obj_r_petrosian mk o); cbn [bind scale_result scale_pair]; auto.
    destruct (obj_r_petrosian_err mk o); cbn [bind scale_result scale_pair]; auto.
    unfold zoomed_obj, zoomed_data. cbn [p_data p_set d_r d_flux d_flux_err].
    exact (frac_st f (d_r (p_data o)) _ _ _ (Some _) _ _ _ _).
  Qed.
  Lemma concentration_obj o f1 f2 : obj_concentration mk (zoomed_obj o) f1 f2 =
    match obj_concentration mk o f1 f2 with Ok (a, b, x) => Ok (scale c a, scale c b, x) | Err e => Err e end.
  Proof.
    unfold obj_concentration. rewrite r_petrosian_obj, r_petrosian_err_obj.
    destruct (obj_r_petrosian mk o) as [rp|]; cbn [bind scale_result]; auto.
    destruct (obj_r_petrosian_err mk o) as [re|]; cbn [bind scale_result]; auto.
    unfold calculate_concentration_index, zoomed_obj, zoomed_data. cbn [p_data p_set d_r d_flux d_flux_err].
    change (Some (scale c re)) with (option_map (scale c) (Some re)). rewrite !frac_st.
    destruct (fraction_to_r mk f1 _ _ _ _ _ _ _ _ _) as [[a ae]|]; cbn [bind scale_pair]; auto.
    destruct (fraction_to_r mk f2 _ _ _ _ _ _ _ _ _) as [[b be]|]; cbn [bind scale_pair fst snd]; auto.
    cbn [nisnan XRnum]. rewrite !(sc_isnan c Hc). destruct (xisnan a || xisnan b)%bool; [reflexivity|].
    cbn [ndiv XRnum]. now rewrite (sc_div c Hc).
  Qed.
  Lemma flux_obj o r : obj_flux_at mk (zoomed_obj o) (scale c r) = obj_flux_at mk o r.
  Proof.
    unfold obj_flux_at, zoomed_obj, zoomed_data. cbn [p_data p_set d_r d_flux]. rewrite pymin_sc, pymax_sc.
    destruct (pymin _); cbn [bind]; auto. destruct (pymax _); cbn [bind]; auto.
    cbn [nleb XRnum]. rewrite !(sc_leb c Hc). destruct (_ && _)%bool; [|reflexivity].
    pose proof (interp1d_st (s_kind (p_set o)) (d_r (p_data o)) (d_flux (p_data o))) as H.
    destruct (interp1d mk _ (d_r (p_data o)) (d_flux (p_data o))) as [f|e]; cbn [bind]; [|now rewrite H].
    destruct H as (g & -> & Hg). cbn [bind]. apply Hg.
  Qed.
  Lemma new_zoom d s : d_dtype d = DFloat ->
    Petrosian_new (zoomed_data c ka d) s = match Petrosian_new d s with Ok o => Ok (zoomed_obj o) | Err e => Err e end.
  Proof.
    intros Hd. unfold Petrosian_new, validate_input_arrays.
    cbn [zoomed_data d_dtype d_r d_area d_flux d_area_err d_flux_err]. rewrite !map_length.
    destruct (Nat.ltb 2 (length (d_r d))); cbn [assert_ bind]; auto.
    destruct (Nat.eqb (length (d_r d)) (length (d_flux d))); cbn [assert_ bind]; auto.
    destruct (match d_flux_err d with None => true | Some e => _ end); cbn [assert_ bind]; auto.
    replace (match option_map (map (scale ka)) (d_area_err d) with
             | None => true | Some e => Nat.eqb (length (d_area d)) (length e) end)
      with (match d_area_err d with
             | None => true | Some e => Nat.eqb (length (d_area d)) (length e) end)
      by (destruct (d_area_err d); cbn; now rewrite ?map_length).
    destruct (match d_area_err d with None => true | Some e => _ end); cbn [assert_ bind]; auto.
    rewrite Hd, (cp_area ka Hka).
    destruct (calculate_petrosian DFloat _ _ _ _) as [pe|e]; cbn [bind]; auto.
  Qed.
End Stretch.

(** C102 *)
Theorem zoom_spec mk c k d s : stretch_equivariant mk -> (0 < c)%R -> (0 < k)%R -> d_dtype d = DFloat ->
  match Petrosian_new d s with
  | Err e => Petrosian_new (zoomed_data c k d) s = Err e
  | Ok o => exists o', Petrosian_new (zoomed_data c k d) s = Ok o' /\
      (forall a, is_length a -> read mk o' a = scale_val c (read mk o a)) /\
      (forall a, is_unitless a -> read mk o' a = read mk o a) /\
      forall f1 f2, read mk o' (A_concentration f1 f2) =
        match read mk o (A_concentration f1 f2) with
        | Ok (VTriple r1 r2 x) => Ok (VTriple (scale c r1) (scale c r2) x)
        | v => v
        end
  end.
Proof.
  intros Hmk Hc Hk Hd. rewrite (new_zoom c k Hk d s Hd).
  destruct (Petrosian_new d s) as [o|e]; auto. exists (zoomed_obj c k o). split; auto.
  assert (F : forall f, obj_fraction mk (zoomed_obj c k o) f = scale_pair c (obj_fraction mk o f)) by (intros; now apply fraction_obj).
  assert (X : forall f, (do r <- obj_fraction mk (zoomed_obj c k o) f; obj_flux_at mk (zoomed_obj c k o) (fst r))
     = (do r <- obj_fraction mk o f; obj_flux_at mk o (fst r))).
  { intros f. rewrite F. destruct (obj_fraction mk o f) as [[a b]|]; cbn [scale_pair bind fst]; auto. now apply flux_obj. }
  split; [|split].
  - intros a Ha. destruct a; try contradiction Ha; cbn [read]; unfold num; rewrite ?F; change (p_set (zoomed_obj c k o)) with (p_set o);
      try (match goal with |- context [scale_pair c ?m] => destruct m as [[? ?]|] end; reflexivity).
    + rewrite r_petrosian_obj by auto. destruct (obj_r_petrosian mk o); reflexivity.
    + rewrite r_petrosian_err_obj by auto. destruct (obj_r_petrosian_err mk o); reflexivity.
    + unfold obj_r_epsilon. rewrite r_petrosian_obj by auto. destruct (obj_r_petrosian mk o); cbn [scale_result bind scale_val]; auto.
      cbn [p_set zoomed_obj nmul XRnum]. now rewrite (sc_mulr c Hc).
  - intros a Ha. destruct a; try contradiction Ha; cbn [read]; unfold num; try reflexivity.
    + unfold obj_r_epsilon_in_range, obj_r_epsilon. rewrite r_petrosian_obj by auto.
      cbn [zoomed_obj zoomed_data p_data p_set d_r]. rewrite (pymin_sc c Hc), (pymax_sc c Hc).
      destruct (pymin _); cbn [bind]; auto. destruct (obj_r_petrosian mk o); cbn [bind scale_result]; auto.
      destruct (pymax _); cbn [bind]; auto. cbn [nmul nleb XRnum]. now rewrite (sc_mulr c Hc), !(sc_leb c Hc).
    + unfold obj_total_flux. cbn [p_set zoomed_obj]. now rewrite X.
    + unfold obj_half_flux. now rewrite X.
    + rewrite concentration_obj by auto. destruct (obj_concentration mk o _ _) as [[[? ?] ?]|]; reflexivity.
    + rewrite concentration_obj by auto. destruct (obj_concentration mk o _ _) as [[[? ?] ?]|]; reflexivity.
  - intros f1 f2. cbn [read]. rewrite concentration_obj by auto. destruct (obj_concentration mk o f1 f2) as [[[? ?] ?]|]; reflexivity.
Qed.

Lemma scale_inv c x : (0 < c)%R -> scale c (scale (/ c) x) = x.
Proof.
  intros Hc. assert (Hi : (0 < / c)%R) by now apply Rinv_0_lt_compat.
  destruct x; rewrite ?(scale_inf _ Hi), ?(scale_ninf _ Hi), ?scale_nan, ?scale_fin, ?(scale_inf _ Hc), ?(scale_ninf _ Hc); auto.
  f_equal. field. lra.
Qed.
Lemma to_arcsec_zoom c r p u : (0 < c)%R -> to_arcsec (scale c r) (square_wcs (p / c) u) = to_arcsec r (square_wcs p u).
Proof.
  intros Hc. unfold to_arcsec, pixel_to_angular, square_wcs. cbn [scale0 scale1 cunit nisnan XRnum]. rewrite (sc_isnan c Hc).
  destruct (xisnan r); [reflexivity|]. cbn [negb].
  assert (E : forall x, xallclose (Fin x) (Fin x) = true) by (intros; unfold xallclose; cbn [xeqb]; now rewrite Reqb_true).
  rewrite !E. cbn [assert_ bind qval]. unfold q_to. cbn [qval qunit].
  replace (Fin (p / c)) with (scale (/ c) (Fin p)) by (rewrite scale_fin; f_equal; unfold Rdiv; ring).
  assert (Hi : (0 < / c)%R) by now apply Rinv_0_lt_compat.
  rewrite (sc_mulr _ Hi), (sc_mulr _ Hc), (sc_mull _ Hi). now rewrite scale_inv.
Qed.
Theorem zoom_arcsec mk c k d s p u o o' : stretch_equivariant mk -> (0 < c)%R -> (0 < k)%R -> d_dtype d = DFloat ->
  Petrosian_new d s = Ok o -> Petrosian_new (zoomed_data c k d) s = Ok o' ->
  r_half_light_arcsec mk o' (square_wcs (p / c) u) = r_half_light_arcsec mk o (square_wcs p u) /\
  r_total_flux_arcsec mk o' (square_wcs (p / c) u) = r_total_flux_arcsec mk o (square_wcs p u).
Proof.
  intros Hmk Hc Hk Hd E E'. rewrite (new_zoom c k Hk d s Hd), E in E'. assert (o' = zoomed_obj c k o) as -> by congruence.
  unfold r_half_light_arcsec, r_total_flux_arcsec. rewrite !fraction_obj by auto. cbn [p_set zoomed_obj].
  split; (destruct (obj_fraction mk o _) as [[a b]|]; cbn [scale_pair bind fst]; [|reflexivity]; now apply to_arcsec_zoom).
Qed.
