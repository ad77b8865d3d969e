(** Proofs about the drawing code: plot_cog. *)
From Coq Require Import String.
From Verif Require Import Base Num Numpy M_Utils M_Photometry M_Petrosian M_Correction M_PSF M_Fitting M_Plot S_Plot L_Plot.
Local Open Scope list_scope.

Section Generic.
  Context {T : Type} {N : Num T} {NL : NumLog T}.
  Variable mk : kind -> list T -> list T -> result (T -> T).
  Ltac norm := rewrite <- ?app_assoc; cbn [List.app].

  (** ** plot_cog *)
  Lemma read_half o x : read mk o A_r_half_light = Ok (VNum x) <-> obj_r_half_light mk o = Ok x.
  Proof.
    cbn [read]. unfold num, obj_r_half_light. destruct (obj_fraction mk o M_Petrosian.half) as [r|]; cbn; [|split; intros X; discriminate X].
    split; intros X; injection X; intros ->; reflexivity.
  Qed.
  Lemma read_half_flux o x : read mk o A_half_flux = Ok (VNum x) <-> obj_half_flux mk o = Ok x.
  Proof.
    cbn [read]. unfold num. destruct (obj_half_flux mk o) as [r|]; cbn; [|split; intros X; discriminate X].
    split; intros X; injection X; intros ->; reflexivity.
  Qed.
  Lemma read_total o x : read mk o A_r_total_flux = Ok (VNum x) <-> obj_r_total_flux mk o = Ok x.
  Proof.
    cbn [read]. unfold num, obj_r_total_flux. destruct (obj_fraction mk o _) as [r|]; cbn; [|split; intros X; discriminate X].
    split; intros X; injection X; intros ->; reflexivity.
  Qed.
  Lemma read_total_flux o x : read mk o A_total_flux = Ok (VNum x) <-> obj_total_flux mk o = Ok x.
  Proof.
    cbn [read]. unfold num. destruct (obj_total_flux mk o) as [r|]; cbn; [|split; intros X; discriminate X].
    split; intros X; injection X; intros ->; reflexivity.
  Qed.
  Lemma percent_whole o z : percent o = Ok z <-> whole_percent o z.
  Proof.
    unfold percent, whole_percent, int_of. destruct (ntrunc _); split; intros X; try discriminate X; injection X; intros ->; reflexivity.
  Qed.

  Lemma marks_inv o rh hf rt tf : obj_r_half_light mk o = Ok rh -> obj_half_flux mk o = Ok hf ->
    obj_r_total_flux mk o = Ok rt -> obj_total_flux mk o = Ok tf ->
    (forall x y, half_point mk o x y <-> (nisnan rh = false /\ nisnan hf = false) /\ x = rh /\ y = hf) /\
    (forall x y, total_point mk o x y <-> (nisnan rt = false /\ nisnan tf = false) /\ x = rt /\ y = tf).
  Proof.
    intros H1 H2 H3 H4. unfold half_point, total_point, measured.
    split; intros x y.
    - pose proof (read_half o x) as A. pose proof (read_half_flux o y) as C. rewrite H1 in A. rewrite H2 in C.
      split.
      + intros [[X ?] [Y ?]]. apply A in X. apply C in Y. injection X as <-. injection Y as <-. auto.
      + intros [[? ?] [-> ->]]. split; (split; [first [apply A|apply C]; reflexivity|assumption]).
    - pose proof (read_total o x) as A. pose proof (read_total_flux o y) as C. rewrite H3 in A. rewrite H4 in C.
      split.
      + intros [[X ?] [Y ?]]. apply A in X. apply C in Y. injection X as <-. injection Y as <-. auto.
      + intros [[? ?] [-> ->]]. split; (split; [first [apply A|apply C]; reflexivity|assumption]).
  Qed.

  (** optional calls *)
  Definition opt {A} (b : bool) (l : list A) : list A := if b then l else [].
  Lemma in_opt {A} (b : bool) (l : list A) x : In x (opt b l) <-> b = true /\ In x l.
  Proof. destruct b; cbn; intuition congruence. Qed.

  Lemma cog_trace o plot_r title unit funit ax ea lg s a s' : built o ->
    plot_cog mk o plot_r title unit funit ax ea lg s = (Ok a, s') ->
    let u := unit_text unit in
    exists fill marks,
      s' = mkcanvas (cv_cur s) (cv_next s) (cv_trace s ++
        ([(a, Errorbar (d_r (p_data o)) (d_flux (p_data o)) (d_flux_err (p_data o)))] ++ fill ++ marks ++
         [(a, Title title); (a, XLabel (radius_axis unit)); (a, YLabel (flux_label funit));
          (cv_cur s, Ticks true); (a, XLim n0 None); (a, YLim n0 None)] ++ opt lg [(a, Legend)])) /\
      a = on ax s /\
      (forall y, In y fill <-> shaded ea /\ exists e, d_flux_err (p_data o) = Some e /\
         y = (a, Fill (d_r (p_data o)) (map2 nsub (d_flux (p_data o)) e) (map2 nadd (d_flux (p_data o)) e))) /\
      (forall y, In y marks <-> plot_r = true /\
         ((exists r f, half_point mk o r f /\ In y [(a, VLine r (L_half r u)); (a, HLine f); (a, Point r f)]) \/
          (exists r f z, total_point mk o r f /\ whole_percent o z /\
             In y [(a, VLine r (L_total z r u)); (a, HLine f); (a, Point r f)]))).
  Proof.
    intros B. apply built_inv in B. destruct B as (B0 & _ & _ & B1 & B2).
    unfold plot_cog. rewrite unit_label.
    unfold dbind at 1. rewrite axes_of.
    generalize (on ax s) as b. intros b.
    unfold errorbar, dbind at 1.
    destruct (match d_flux_err (p_data o) with None => false | Some e => negative e end); [discriminate|].
    unfold put at 1. unfold dbind at 1.
    assert (Hf : forall s0, exists r, when (shade ea o) (fill_between b (d_r (p_data o)) (d_flux (p_data o)) (d_flux_err (p_data o))) s0 = r /\
      match r with
      | (Ok _, s1) => exists fill, s1 = mkcanvas (cv_cur s0) (cv_next s0) (cv_trace s0 ++ fill) /\
         (forall y, In y fill <-> shaded ea /\ exists e, d_flux_err (p_data o) = Some e /\
         y = (b, Fill (d_r (p_data o)) (map2 nsub (d_flux (p_data o)) e) (map2 nadd (d_flux (p_data o)) e)))
      | (Err _, _) => True
      end).
    { intros s0. eexists. split; [reflexivity|]. unfold when. destruct (shade ea o) eqn:Es.
      - pose proof (proj1 (shade_spec ea o) Es) as [Hs _]. unfold fill_between.
        destruct (d_flux_err (p_data o)) as [e|] eqn:Ee; [|exact I].
        specialize (B1 e eq_refl).
        rewrite !np_map2_same by congruence. cbn.
        eexists. split; [reflexivity|]. intros y. cbn. split.
        + intros [<-|[]]. eauto.
        + intros [_ (e' & [= <-] & ->)]. auto.
      - cbn. exists []. rewrite app_nil_r. split; [destruct s0; reflexivity|].
        intros y. cbn. split; [tauto|]. intros [Hs (e & Ee & _)].
        assert (shade ea o = true) by (apply shade_spec; split; [exact Hs|]; intros E; apply B2 in E; destruct E; congruence).
        congruence. }
    match goal with |- context[when (shade ea o) ?m ?s0] => destruct (Hf s0) as (r & Er & Hr); rewrite Er; clear Er Hf end.
    destruct r as [[[]|] s1]; [|discriminate]. destruct Hr as (fill & -> & Hfill).
    cbn [cv_cur cv_next cv_trace].
    unfold dbind at 1.
    set (m := when plot_r _). 
    assert (Hm : forall s0 s1, m s0 = (Ok tt, s1) -> exists marks, s1 = mkcanvas (cv_cur s0) (cv_next s0) (cv_trace s0 ++ marks) /\
       (forall y, In y marks <-> plot_r = true /\
         ((exists r f, half_point mk o r f /\ In y [(b, VLine r (L_half r (unit_text unit))); (b, HLine f); (b, Point r f)]) \/
          (exists r f z, total_point mk o r f /\ whole_percent o z /\
             In y [(b, VLine r (L_total z r (unit_text unit))); (b, HLine f); (b, Point r f)])))).
    { intros s0 s1. unfold m, when. destruct plot_r.
      2: { unfold dret. intros [= <-]. exists []. rewrite app_nil_r. split; [destruct s0; reflexivity|].
           intros y. split; [intros []|intros [H _]; discriminate H]. }
      unfold dbind, dlift.
      destruct (obj_r_half_light mk o) as [rh|] eqn:E1; [|discriminate].
      destruct (obj_half_flux mk o) as [hf|] eqn:E2; [|discriminate].
      assert (H1 : forall s2, (if negb (nisnan rh) && negb (nisnan hf)
          then cog_mark b rh hf (L_half rh (unit_text unit)) else dret tt) s2 =
          (Ok tt, mkcanvas (cv_cur s2) (cv_next s2) (cv_trace s2 ++ opt (negb (nisnan rh) && negb (nisnan hf))
             [(b, VLine rh (L_half rh (unit_text unit))); (b, HLine hf); (b, Point rh hf)]))).
      { intros s2. destruct (negb (nisnan rh) && negb (nisnan hf)); cbn [opt]; [|rewrite app_nil_r; destruct s2; reflexivity].
        unfold cog_mark, dbind, put. cbn [cv_cur cv_next cv_trace]. norm. reflexivity. }
      rewrite H1. clear H1.
      destruct (obj_r_total_flux mk o) as [rt|] eqn:E3; [|discriminate].
      destruct (obj_total_flux mk o) as [tf|] eqn:E4; [|discriminate].
      pose proof (marks_inv o rh hf rt tf E1 E2 E3 E4) as [M1 M2].
      assert (Hh : forall y, In y (opt (negb (nisnan rh) && negb (nisnan hf))
             [(b, VLine rh (L_half rh (unit_text unit))); (b, HLine hf); (b, Point rh hf)]) <->
             exists r f, half_point mk o r f /\ In y [(b, VLine r (L_half r (unit_text unit))); (b, HLine f); (b, Point r f)]).
      { intros y. rewrite in_opt, andb_true_iff, !negb_true_iff. split.
        - intros [H H']. exists rh, hf. split; [apply M1; auto|exact H'].
        - intros (r & f & H & H'). apply M1 in H. destruct H as (H & -> & ->). auto. }
      assert (Ht : forall y, (exists r f z, total_point mk o r f /\ whole_percent o z /\
             In y [(b, VLine r (L_total z r (unit_text unit))); (b, HLine f); (b, Point r f)]) <->
             (nisnan rt = false /\ nisnan tf = false) /\ exists z, percent o = Ok z /\
             In y [(b, VLine rt (L_total z rt (unit_text unit))); (b, HLine tf); (b, Point rt tf)]).
      { intros y. split.
        - intros (r & f & z & H & Hz & H'). apply M2 in H. destruct H as (H & -> & ->).
          split; [exact H|]. exists z. split; [apply percent_whole; exact Hz|exact H'].
        - intros (H & z & Hz & H'). exists rt, tf, z. split; [apply M2; auto|]. split; [apply percent_whole; exact Hz|exact H']. }
      cbn [cv_cur cv_next cv_trace].
      destruct (negb (nisnan rt) && negb (nisnan tf)) eqn:N2.
      - apply andb_true_iff in N2. rewrite !negb_true_iff in N2.
        destruct (percent o) as [z|] eqn:Ep; [|discriminate].
        unfold cog_mark, dbind, put. cbn [cv_cur cv_next cv_trace]. intros [= <-]. eexists. split; [norm; reflexivity|].
        intros y. rewrite in_app_iff, Hh, Ht. split.
        + intros [H|H]; [auto|]. split; [reflexivity|]. right. split; [exact N2|]. exists z. split; [reflexivity|exact H].
        + intros [_ [H|[_ (z' & [= <-] & H)]]]; auto.
      - unfold dret. intros [= <-]. eexists. split; [reflexivity|].
        intros y. rewrite Hh, Ht. split; [auto|].
        intros [_ [H|[[Ha Hb] _]]]; [exact H|]. rewrite Ha, Hb in N2. discriminate N2. }
    destruct (m _) as [[[]|] s1] eqn:Em; [|discriminate].
    apply Hm in Em. destruct Em as (marks & -> & Hmarks). clear m Hm.
    intros H. exists fill, marks.
    unfold dbind, put, mpl_tick_frame, gca, when, dret, dbind, put in H. cbn [cv_cur cv_next cv_trace] in H.
    assert (b = a /\ s' = mkcanvas (cv_cur s) (cv_next s) (cv_trace s ++
        ([(b, Errorbar (d_r (p_data o)) (d_flux (p_data o)) (d_flux_err (p_data o)))] ++ fill ++ marks ++
         [(b, Title title); (b, XLabel (radius_axis unit)); (b, YLabel (flux_label funit));
          (cv_cur s, Ticks true); (b, XLim n0 None); (b, YLim n0 None)] ++ opt lg [(b, Legend)]))) as [<- ->].
    { destruct lg; injection H as <- <-; (split; [reflexivity|]); f_equal; norm; reflexivity. }
    auto.
  Qed.

  Ltac cases_in H :=
    cbn [List.app In] in H;
    repeat match type of H with
           | _ \/ _ => destruct H as [H|H]
           end;
    try contradiction; try discriminate H.

  Lemma cog_drawn o plot_r title unit funit ax ea lg s a s' : built o ->
    plot_cog mk o plot_r title unit funit ax ea lg s = (Ok a, s') ->
    exists d, emitted s s' d /\ a = on ax s /\ cv_cur s' = cv_cur s /\
      (forall b c, In (b, c) d -> b = a \/ (b = cv_cur s /\ c = Ticks true)) /\
      (forall b m, In (b, Ticks m) d <-> b = cv_cur s /\ m = true) /\
      (forall x y e, In (a, Errorbar x y e) d <->
         x = d_r (p_data o) /\ y = d_flux (p_data o) /\ e = d_flux_err (p_data o)) /\
      (forall x lo hi, In (a, Fill x lo hi) d <-> shaded ea /\ exists e, d_flux_err (p_data o) = Some e /\
         x = d_r (p_data o) /\ lo = map2 nsub (d_flux (p_data o)) e /\ hi = map2 nadd (d_flux (p_data o)) e) /\
      (forall x l, In (a, VLine x l) d <-> plot_r = true /\
         ((exists y, half_point mk o x y) /\ l = L_half x (unit_text unit) \/
          (exists y, total_point mk o x y) /\ exists z, whole_percent o z /\ l = L_total z x (unit_text unit))) /\
      (forall y, In (a, HLine y) d <-> plot_r = true /\
         ((exists x, half_point mk o x y) \/ (exists x z, total_point mk o x y /\ whole_percent o z))) /\
      (forall x y, In (a, Point x y) d <-> plot_r = true /\
         (half_point mk o x y \/ exists z, total_point mk o x y /\ whole_percent o z)) /\
      (forall t, In (a, XLabel t) d <-> t = radius_axis unit) /\
      (forall t, In (a, Title t) d <-> t = title) /\
      (In (a, Legend) d <-> lg = true).
  Proof.
    intros B H. destruct (cog_trace _ _ _ _ _ _ _ _ _ _ _ B H) as (fill & marks & -> & Ea & Hf & Hm). clear H.
    eexists. split; [reflexivity|]. split; [exact Ea|]. split; [reflexivity|]. clear Ea.
    assert (Hfc : forall c, In c fill -> exists x lo hi, c = (a, Fill x lo hi)).
    { intros c Hc. apply Hf in Hc. destruct Hc as (_ & e & _ & ->). eauto. }
    assert (Hmc : forall c, In c marks -> (exists x l, c = (a, VLine x l)) \/ (exists y, c = (a, HLine y)) \/ (exists x y, c = (a, Point x y))).
    { intros c Hc. apply Hm in Hc. destruct Hc as (_ & [(r & f & _ & Hc)|(r & f & z & _ & _ & Hc)]); cases_in Hc; subst; eauto 10. }
    assert (R : forall c, In c ([(a, Errorbar (d_r (p_data o)) (d_flux (p_data o)) (d_flux_err (p_data o)))] ++ fill ++ marks ++
         [(a, Title title); (a, XLabel (radius_axis unit)); (a, YLabel (flux_label funit));
          (cv_cur s, Ticks true); (a, XLim n0 None); (a, YLim n0 None)] ++ opt lg [(a, Legend)]) <->
       (a, Errorbar (d_r (p_data o)) (d_flux (p_data o)) (d_flux_err (p_data o))) = c \/ In c fill \/ In c marks \/
       (a, Title title) = c \/ (a, XLabel (radius_axis unit)) = c \/ (a, YLabel (flux_label funit)) = c \/
       (cv_cur s, Ticks true) = c \/ (a, XLim n0 None) = c \/ (a, YLim n0 None) = c \/ lg = true /\ (a, Legend) = c).
    { intros c. rewrite !in_app_iff, in_opt. cbn [In]. tauto. }
    split.
    { intros b c H. apply R in H. repeat (destruct H as [H|H]); try (injection H as <- <-; auto).
      - apply Hfc in H. destruct H as (x & lo & hi & [= -> _]). auto.
      - apply Hmc in H. destruct H as [(x & l & [= -> _])|[(y & [= -> _])|(x & y & [= -> _])]]; auto.
      - destruct H as [_ [= <- _]]. auto. }
    split.
    { intros b m. split.
      - intros H; apply R in H; repeat (destruct H as [H|H]); try discriminate H.
        + apply Hfc in H; destruct H as (? & ? & ? & H); discriminate H.
        + apply Hmc in H; destruct H as [(? & ? & H)|[(? & H)|(? & ? & H)]]; discriminate H.
        + injection H as <- <-. auto.
        + destruct H as [_ H]; discriminate H.
      - intros [-> ->]. apply R. tauto. }
    split.
    { intros x y e. split.
      - intros H; apply R in H; repeat (destruct H as [H|H]); try discriminate H.
        + injection H as <- <- <-. auto.
        + apply Hfc in H; destruct H as (? & ? & ? & H); discriminate H.
        + apply Hmc in H; destruct H as [(? & ? & H)|[(? & H)|(? & ? & H)]]; discriminate H.
        + destruct H as [_ H]; discriminate H.
      - intros (-> & -> & ->). apply R. tauto. }
    split.
    { intros x lo hi. split.
      - intros H; apply R in H; repeat (destruct H as [H|H]); try discriminate H.
        + apply Hf in H. destruct H as [H (e & E & [= -> -> ->])]. split; [exact H|]. exists e. auto.
        + apply Hmc in H; destruct H as [(? & ? & H)|[(? & H)|(? & ? & H)]]; discriminate H.
        + destruct H as [_ H]; discriminate H.
      - intros (H & e & E & -> & -> & ->). apply R. right; left. apply Hf. eauto. }
    split.
    { intros x l. split.
      - intros H; apply R in H; repeat (destruct H as [H|H]); try discriminate H.
        + apply Hfc in H; destruct H as (? & ? & ? & H); discriminate H.
        + apply Hm in H. destruct H as [Hp [(r & f & Hh & H)|(r & f & z & Hh & Hz & H)]]; cases_in H; injection H as <- <-; (split; [exact Hp|]); [left|right]; eauto.
        + destruct H as [_ H]; discriminate H.
      - intros [Hp H]. apply R. right; right; left. apply Hm. split; [exact Hp|].
        destruct H as [[[y Hh] ->]|[[y Hh] (z & Hz & ->)]]; [left; exists x, y|right; exists x, y, z]; cbn; auto 10. }
    split.
    { intros y. split.
      - intros H; apply R in H; repeat (destruct H as [H|H]); try discriminate H.
        + apply Hfc in H; destruct H as (? & ? & ? & H); discriminate H.
        + apply Hm in H. destruct H as [Hp [(r & f & Hh & H)|(r & f & z & Hh & Hz & H)]]; cases_in H; injection H as <-; (split; [exact Hp|]); [left|right]; eauto.
        + destruct H as [_ H]; discriminate H.
      - intros [Hp H]. apply R. right; right; left. apply Hm. split; [exact Hp|].
        destruct H as [[x Hh]|(x & z & Hh & Hz)]; [left; exists x, y|right; exists x, y, z]; cbn; auto 10. }
    split.
    { intros x y. split.
      - intros H; apply R in H; repeat (destruct H as [H|H]); try discriminate H.
        + apply Hfc in H; destruct H as (? & ? & ? & H); discriminate H.
        + apply Hm in H. destruct H as [Hp [(r & f & Hh & H)|(r & f & z & Hh & Hz & H)]]; cases_in H; injection H as <- <-; (split; [exact Hp|]); [left|right]; eauto.
        + destruct H as [_ H]; discriminate H.
      - intros [Hp H]. apply R. right; right; left. apply Hm. split; [exact Hp|].
        destruct H as [Hh|(z & Hh & Hz)]; [left; exists x, y|right; exists x, y, z]; cbn; auto 10. }
    split.
    { intros t. split.
      - intros H; apply R in H; repeat (destruct H as [H|H]); try discriminate H.
        + apply Hfc in H; destruct H as (? & ? & ? & H); discriminate H.
        + apply Hmc in H; destruct H as [(? & ? & H)|[(? & H)|(? & ? & H)]]; discriminate H.
        + injection H as <-. auto.
        + destruct H as [_ H]; discriminate H.
      - intros ->. apply R. tauto. }
    split.
    { intros t. split.
      - intros H; apply R in H; repeat (destruct H as [H|H]); try discriminate H.
        + apply Hfc in H; destruct H as (? & ? & ? & H); discriminate H.
        + apply Hmc in H; destruct H as [(? & ? & H)|[(? & H)|(? & ? & H)]]; discriminate H.
        + injection H as <-. auto.
        + destruct H as [_ H]; discriminate H.
      - intros ->. apply R. tauto. }
    split.
    - intros H; apply R in H; repeat (destruct H as [H|H]); try discriminate H.
      + apply Hfc in H; destruct H as (? & ? & ? & H); discriminate H.
      + apply Hmc in H; destruct H as [(? & ? & H)|[(? & H)|(? & ? & H)]]; discriminate H.
      + destruct H as [H _]; exact H.
    - intros H. apply R. tauto.
  Qed.
End Generic.
