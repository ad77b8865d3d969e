(** Proofs about the heap model. *)
From Verif Require Import Base Num Numpy M_Utils M_Petrosian M_Heap S_Heap.

Section Heap.
  Context {T : Type} {N : Num T}.
  Variable mk : kind -> list T -> list T -> result (T -> T).
  Implicit Types h : heap (T := T).

  Lemma get_update h l v l' :
    l < length h -> get (update h l v) l' = if Nat.eqb l l' then v else get h l'.
  Proof.
    unfold get. revert l l'. induction h as [|x h IH]; intros [|l] [|l'] H; cbn in *; try lia; auto.
    apply IH. lia.
  Qed.
  Lemma length_update h l v : length (update h l v) = length h.
  Proof. revert l. induction h; intros [|l]; cbn; auto. Qed.
  Lemma get_app h x l : l < length h -> get (h ++ x) l = get h l.
  Proof. intros H. unfold get. now rewrite app_nth1. Qed.
  Lemma get_new h v : get (h ++ [v]) (length h) = v.
  Proof. unfold get. rewrite app_nth2 by lia. now rewrite Nat.sub_diag. Qed.

  Lemma keeps_refl h : keeps h h. Proof. split; auto. Qed.
  Lemma keeps_trans (a b c : heap (T := T)) : keeps a b -> keeps b c -> keeps a c.
  Proof. intros [H1 H2] [H3 H4]. split; [lia|]. intros l Hl. rewrite H4 by lia. auto. Qed.
  Lemma keeps_app h x : keeps h (h ++ x).
  Proof. split; [rewrite app_length; lia|]. intros. now apply get_app. Qed.
  Lemma keeps_update h h' l v : keeps h h' -> length h <= l < length h' -> keeps h (update h' l v).
  Proof.
    intros [H1 H2] Hl. split; [now rewrite length_update|].
    intros k Hk. rewrite get_update by lia. destruct (Nat.eqb_spec l k); [lia|auto].
  Qed.

  Lemma run_lift {A B} (m : result A) (f : A -> io B) h :
    bindio (lift m) f h = match m with Ok a => f a h | Err e => (Err e, h) end.
  Proof. reflexivity. Qed.

  Lemma r_run r p e eta ik num h :
    r < length h -> p < length h -> valid h e ->
    exists h', h_calculate_petrosian_r mk r p e eta ik num h
        = (calculate_petrosian_r mk (get h r) (get h p) (opt_get h e) eta ik num, h') /\ keeps h h'.
  Proof.
    intros Hr Hp He. unfold h_calculate_petrosian_r.
    unfold bindio at 1, np_array at 1. unfold bindio at 1, np_array at 1.
    set (h1 := h ++ [nth r h []]). set (h2 := h1 ++ [nth p h1 []]).
    assert (L1 : length h1 = S (length h)) by (unfold h1; rewrite app_length; cbn; lia).
    assert (L2 : length h2 = S (S (length h))) by (unfold h2; rewrite app_length; cbn; lia).
    assert (K1 : keeps h h1) by apply keeps_app.
    assert (K2 : keeps h h2) by (eapply keeps_trans; [exact K1|apply keeps_app]).
    assert (G1 : get h2 (length h) = get h r).
    { unfold h2. rewrite get_app by lia. unfold h1. apply get_new. }
    assert (G2 : get h2 (length h1) = get h p).
    { unfold h2. rewrite get_new. change (nth p h1 []) with (get h1 p). now apply K1. }
    assert (Hopt : exists pe h3, np_array_opt e h2 = (Ok pe, h3) /\ keeps h2 h3 /\
        match pe with None => e = None
        | Some l => l = length h2 /\ length h3 = S (length h2) /\ exists l0, e = Some l0 /\ get h3 l = get h l0 end).
    { destruct e as [l0|].
      - cbn. exists (Some (length h2)), (h2 ++ [nth l0 h2 []]). split; [reflexivity|].
        split; [apply keeps_app|]. split; auto. split; [rewrite app_length; cbn; lia|].
        exists l0. split; auto. rewrite get_new. apply K2. exact He.
      - exists None, h2. repeat split; auto. }
    destruct Hopt as (pe & h3 & E3 & K3 & Hpe). unfold bindio at 1. rewrite E3.
    assert (K3' : keeps h h3) by (eapply keeps_trans; eauto).
    assert (L3 : length h2 <= length h3) by apply K3.
    assert (G1' : get h3 (length h) = get h r) by (rewrite <- G1; apply K3; lia).
    assert (G2' : get h3 (length h1) = get h p) by (rewrite <- G2; apply K3; lia).
    unfold calculate_petrosian_r.
    unfold bindio at 1, setitem0 at 1. change (nth (length h) h3 []) with (get h3 (length h)).
    rewrite G1'. destruct (get h r) as [|x0 xs]; [exists h3; auto|]. cbn [set0 bind].
    set (h4 := update h3 (length h) (n0 :: xs)).
    assert (L4 : length h4 = length h3) by apply length_update.
    assert (K4 : keeps h h4) by (apply keeps_update; auto; lia).
    assert (G4 : get h4 (length h1) = get h p).
    { unfold h4. rewrite get_update by lia. destruct (Nat.eqb_spec (length h) (length h1)); [lia|auto]. }
    unfold bindio at 1, setitem0 at 1. change (nth (length h1) h4 []) with (get h4 (length h1)).
    rewrite G4. destruct (get h p) as [|y0 ys]; [exists h4; auto|]. cbn [set0 bind].
    set (h5 := update h4 (length h1) (n1 :: ys)).
    assert (L5 : length h5 = length h4) by apply length_update.
    assert (K5 : keeps h h5) by (apply keeps_update; auto; lia).
    assert (G5r : get h5 (length h) = n0 :: xs).
    { unfold h5. rewrite get_update by lia. destruct (Nat.eqb_spec (length h1) (length h)); [lia|].
      unfold h4. rewrite get_update by lia. now rewrite Nat.eqb_refl. }
    assert (G5p : get h5 (length h1) = n1 :: ys).
    { unfold h5. rewrite get_update by lia. now rewrite Nat.eqb_refl. }
    unfold bindio at 1, load at 1. change (nth (length h) h5 []) with (get h5 (length h)). rewrite G5r.
    unfold bindio at 1, load at 1. change (nth (length h1) h5 []) with (get h5 (length h1)). rewrite G5p.
    rewrite run_lift. destruct (get_interpolated_values mk (n0 :: xs) (n1 :: ys) num ik) as [rp|]; cbn [bind];
      [|exists h5; auto].
    rewrite run_lift. destruct (pick _ _) as [rpet|]; cbn [bind]; [|exists h5; auto].
    destruct pe as [l|].
    2:{ subst e. cbn. exists h5; auto. }
    destruct Hpe as (-> & L3' & l0 & -> & Ge). cbn [opt_get option_map].
    assert (Ge5 : get h5 (length h2) = get h l0).
    { unfold h5. rewrite get_update by lia. destruct (Nat.eqb_spec (length h1) (length h2)); [lia|].
      unfold h4. rewrite get_update by lia. destruct (Nat.eqb_spec (length h) (length h2)); [lia|auto]. }
    destruct (nisnan rpet); [exists h5; auto|].
    unfold bindio at 1, setitem0 at 1. change (nth (length h2) h5 []) with (get h5 (length h2)).
    rewrite Ge5. destruct (get h l0) as [|e0 es]; [exists h5; auto|]. cbn [set0 bind].
    set (h6 := update h5 (length h2) (n0 :: es)).
    assert (K6 : keeps h h6) by (apply keeps_update; auto; lia).
    assert (G6r : get h6 (length h) = n0 :: xs).
    { unfold h6. rewrite get_update by lia. destruct (Nat.eqb_spec (length h2) (length h)); [lia|auto]. }
    assert (G6p : get h6 (length h1) = n1 :: ys).
    { unfold h6. rewrite get_update by lia. destruct (Nat.eqb_spec (length h2) (length h1)); [lia|auto]. }
    assert (G6e : get h6 (length h2) = n0 :: es).
    { unfold h6. rewrite get_update by lia. now rewrite Nat.eqb_refl. }
    exists h6. split; auto.
    unfold bindio at 1, load at 1. change (nth (length h) h6 []) with (get h6 (length h)). rewrite G6r.
    unfold bindio at 1, load at 1. change (nth (length h1) h6 []) with (get h6 (length h1)). rewrite G6p.
    unfold bindio at 1, load at 1. change (nth (length h2) h6 []) with (get h6 (length h2)). rewrite G6e.
    rewrite !run_lift. destruct (np_map2 nadd _ _); cbn [bind]; auto.
    rewrite run_lift. destruct (get_interpolated_values _ _ _ _ _); cbn [bind]; auto.
    rewrite run_lift. destruct (pick _ _); cbn [bind]; auto.
    rewrite run_lift. destruct (np_map2 nsub _ _); cbn [bind]; auto.
    rewrite run_lift. destruct (get_interpolated_values _ _ _ _ _); cbn [bind]; auto.
    rewrite run_lift. destruct (pick _ _); cbn [bind]; auto.
  Qed.

  (** ** the constructor *)
  Lemma arr_run l h :
    np_array l h = (Ok (length h), h ++ [get h l]).
  Proof. reflexivity. Qed.

  Lemma arr_opt_run e h : valid h e ->
    exists e' h', np_array_opt e h = (Ok e', h') /\ keeps h h' /\
      opt_get h' e' = opt_get h e /\ (forall l, e' = Some l -> length h <= l < length h').
  Proof.
    destruct e as [l|]; intros H.
    - exists (Some (length h)), (h ++ [get h l]). split; [reflexivity|].
      split; [apply keeps_app|]. cbn [opt_get option_map]. rewrite get_new. split; auto.
      intros l0 E. injection E as <-. rewrite app_length. cbn. lia.
    - exists None, h. repeat split; auto; discriminate.
  Qed.

  Lemma opt_keeps h h' e : keeps h h' -> valid h e -> opt_get h' e = opt_get h e /\ valid h' e.
  Proof. intros [H1 H2] He. destruct e; cbn in *; [|auto]. rewrite H2 by auto. split; auto. lia. Qed.

  Lemma load_opt_run e h : load_opt e h = (Ok (opt_get h e), h).
  Proof. destruct e; reflexivity. Qed.

  Lemma new_run d r a f ae fe s h :
    r < length h -> a < length h -> f < length h -> valid h ae -> valid h fe ->
    let data := mkdata d (get h r) (get h a) (get h f) (opt_get h ae) (opt_get h fe) in
    exists h', keeps h h' /\
    match Petrosian_new data s with
    | Err e => h_Petrosian_new d r a f ae fe s h = (Err e, h')
    | Ok p => exists o, h_Petrosian_new d r a f ae fe s h = (Ok o, h') /\
        view h' o = p /\ forall l, own o l -> length h <= l < length h'
    end.
  Proof.
    intros Hr Ha Hf Hae Hfe data.
    destruct (h_Petrosian_new d r a f ae fe s h) as [res hh] eqn:EX.
    unfold h_Petrosian_new in EX. unfold bindio at 1 in EX. rewrite arr_run in EX. set (h1 := h ++ [get h r]) in *.
    assert (L1 : length h1 = S (length h)) by (unfold h1; rewrite app_length; cbn; lia).
    assert (K1 : keeps h h1) by apply keeps_app.
    unfold bindio at 1 in EX. rewrite arr_run in EX. set (h2 := h1 ++ [get h1 a]) in *.
    assert (L2 : length h2 = S (length h1)) by (unfold h2; rewrite app_length; cbn; lia).
    assert (K12 : keeps h1 h2) by apply keeps_app.
    unfold bindio at 1 in EX. rewrite arr_run in EX. set (h3 := h2 ++ [get h2 f]) in *.
    assert (L3 : length h3 = S (length h2)) by (unfold h3; rewrite app_length; cbn; lia).
    assert (K23 : keeps h2 h3) by apply keeps_app.
    assert (K2 : keeps h h2) by (eapply keeps_trans; eauto).
    assert (K3 : keeps h h3) by (eapply keeps_trans; eauto).
    destruct (opt_keeps h h3 ae K3 Hae) as [Eae Vae].
    destruct (arr_opt_run ae h3 Vae) as (ae' & h4 & E4 & K34 & G4 & O4).
    unfold bindio at 1 in EX. rewrite E4 in EX.
    assert (K4 : keeps h h4) by (eapply keeps_trans; eauto).
    destruct (opt_keeps h h4 fe K4 Hfe) as [Efe Vfe].
    destruct (arr_opt_run fe h4 Vfe) as (fe' & h5 & E5 & K45 & G5 & O5).
    unfold bindio at 1 in EX. rewrite E5 in EX.
    assert (K35 : keeps h3 h5) by (eapply keeps_trans; eauto).
    assert (K5 : keeps h h5) by (eapply keeps_trans; eauto).
    assert (Gr : get h5 (length h) = get h r).
    { rewrite (proj2 K35) by lia. rewrite (proj2 K23) by lia. rewrite (proj2 K12) by lia.
      unfold h1. apply get_new. }
    assert (Ga : get h5 (length h1) = get h a).
    { rewrite (proj2 K35) by lia. rewrite (proj2 K23) by lia. unfold h2. rewrite get_new. now apply K1. }
    assert (Gf : get h5 (length h2) = get h f).
    { rewrite (proj2 K35) by lia. unfold h3. rewrite get_new. now apply K2. }
    assert (Gae : opt_get h5 ae' = opt_get h ae).
    { rewrite <- Eae, <- G4. apply opt_keeps; auto. destruct ae' as [l|]; cbn; auto.
      destruct (O4 l eq_refl). lia. }
    assert (Gfe : opt_get h5 fe' = opt_get h fe) by (rewrite G5; auto).
    unfold bindio at 1, load at 1 in EX. change (nth (length h) h5 []) with (get h5 (length h)) in EX. rewrite Gr in EX.
    unfold bindio at 1, load at 1 in EX. change (nth (length h1) h5 []) with (get h5 (length h1)) in EX. rewrite Ga in EX.
    unfold bindio at 1, load at 1 in EX. change (nth (length h2) h5 []) with (get h5 (length h2)) in EX. rewrite Gf in EX.
    unfold bindio at 1 in EX. rewrite load_opt_run, Gae in EX. unfold bindio at 1 in EX. rewrite load_opt_run, Gfe in EX.
    rewrite run_lift in EX. fold data in EX.
    destruct (Petrosian_new data s) as [p|e] eqn:Ep; [|injection EX as <- <-; exists h5; auto].
    assert (Hp : p_data p = data /\ p_set p = s).
    { unfold Petrosian_new in Ep. apply bind_Ok in Ep. destruct Ep as (u & _ & Ep).
      apply bind_Ok in Ep. destruct Ep as (pe & _ & Ep). injection Ep as <-. auto. }
    unfold bindio at 1, np_new at 1 in EX. set (h6 := h5 ++ [p_list p]) in *.
    assert (L6 : length h6 = S (length h5)) by (unfold h6; rewrite app_length; cbn; lia).
    assert (K56 : keeps h5 h6) by apply keeps_app.
    assert (Hpe : exists pe h7, (match p_err p with None => ret None
        | Some e => bindio (np_new e) (fun l => ret (Some l)) end) h6 = (Ok pe, h7) /\
        keeps h6 h7 /\ opt_get h7 pe = p_err p /\ (forall l, pe = Some l -> length h6 <= l < length h7)).
    { destruct (p_err p) as [e|].
      - exists (Some (length h6)), (h6 ++ [e]). split; [reflexivity|]. split; [apply keeps_app|].
        cbn [opt_get option_map]. rewrite get_new. split; auto. intros l E. injection E as <-.
        rewrite app_length. cbn. lia.
      - exists None, h6. repeat split; auto; discriminate. }
    destruct Hpe as (pe & h7 & E7 & K67 & G7 & O7).
    unfold bindio at 1 in EX. rewrite E7 in EX.
    assert (K57 : keeps h5 h7) by (eapply keeps_trans; eauto).
    assert (K7 : keeps h h7) by (eapply keeps_trans; eauto).
    pose proof (proj1 K34). pose proof (proj1 K45). pose proof (proj1 K56). pose proof (proj1 K67).
    injection EX as <- <-. exists h7. split; auto. eexists. split; [reflexivity|]. split.
    - unfold view. cbn [h_dtype h_r h_area h_flux h_area_err h_flux_err h_set h_list h_perr].
      rewrite (proj2 K57 (length h)), (proj2 K57 (length h1)), (proj2 K57 (length h2)) by lia.
      rewrite Gr, Ga, Gf.
      change (option_map (get h7) ?x) with (opt_get h7 x).
      assert (Vae5 : valid h5 ae') by (destruct ae' as [l|]; cbn; auto; destruct (O4 l eq_refl); lia).
      assert (Vfe5 : valid h5 fe') by (destruct fe' as [l|]; cbn; auto; destruct (O5 l eq_refl); lia).
      destruct (opt_keeps h5 h7 ae' K57 Vae5) as [-> _].
      destruct (opt_keeps h5 h7 fe' K57 Vfe5) as [-> _].
      rewrite Gae, Gfe, G7. rewrite (proj2 K67 (length h5)) by lia.
      unfold h6. rewrite get_new. fold data. destruct Hp as [<- <-]. destruct p; reflexivity.
    - intros l Hl. unfold own in Hl. cbn in Hl.
      destruct Hl as [->|[->|[->|[Hl|[Hl|[->|Hl]]]]]]; try lia.
      + destruct (O4 l Hl). lia.
      + destruct (O5 l Hl). lia.
      + destruct (O7 l Hl). lia.
  Qed.

  (** an object only sees its own arrays *)
  Lemma view_frame h h' (o : hpetrosian T) :
    (forall l, own o l -> get h' l = get h l) -> view h' o = view h o.
  Proof.
    intros H. unfold view, own in *.
    rewrite !H by tauto.
    repeat match goal with |- context [option_map (get ?x) ?e] =>
      lazymatch x with h' =>
        replace (option_map (get h') e) with (option_map (get h) e)
          by (destruct e eqn:?; cbn; [rewrite H by tauto|]; reflexivity) end end.
    reflexivity.
  Qed.

  (** after construction, whatever happens to arrays that existed before, the object reads the same *)
  Lemma new_isolated {NL : NumLog T} d r a f ae fe s h o h' h'' at_ :
    r < length h -> a < length h -> f < length h -> valid h ae -> valid h fe ->
    h_Petrosian_new d r a f ae fe s h = (Ok o, h') ->
    (forall l, length h <= l -> get h'' l = get h' l) ->
    read mk (view h'' o) at_ = read mk (view h' o) at_.
  Proof.
    intros Hr Ha Hf Hae Hfe H Hh.
    destruct (new_run d r a f ae fe s h Hr Ha Hf Hae Hfe) as (h0 & _ & Hm).
    destruct (Petrosian_new _ s) as [p|e]; [|congruence].
    destruct Hm as (o' & E & _ & Hown). rewrite H in E. injection E as -> ->.
    rewrite (view_frame h0 h'' o'); auto. intros l Hl. apply Hh. apply Hown. exact Hl.
  Qed.

  Lemma getters (o : hpetrosian T) h :
    (h_get_r_list o h = (Ok (h_r o), h) /\ own o (h_r o)) /\
    (h_get_area_list o h = (Ok (h_area o), h) /\ own o (h_area o)) /\
    (h_get_flux_list o h = (Ok (h_flux o), h) /\ own o (h_flux o)).
  Proof. unfold own. repeat split; tauto. Qed.
End Heap.
