(** Proofs about the drawing code: outcomes of plot and plot_cog, percentages, imshow. *)
From Coq Require Import String.
From Verif Require Import Base Num Numpy M_Utils M_Photometry M_Petrosian M_Correction M_PSF M_Fitting M_Plot S_Plot L_Plot L_Plot2.
Local Open Scope list_scope.

(** the errors of the profile are never negative *)
Lemma nonneg_prod p a : xltb (xmul (xabs p) (xsqrt a)) (Fin 0) = false.
Proof.
  assert (H : forall r, (0 <= r)%R -> Rltb r 0 = false) by (intros r Hr; apply Rltb_false; lra).
  assert (K : forall r, (0 <= r)%R -> xltb (xsgn_inf r) (Fin 0) = false).
  { intros r Hr. unfold xsgn_inf. destruct (Rltb 0 r); [reflexivity|]. rewrite H by exact Hr. reflexivity. }
  destruct p as [| | |p], a as [| | |a]; cbn; try reflexivity.
  1,2,4: destruct (Rltb a 0); [reflexivity|].
  - apply K, sqrt_pos.
  - apply K, sqrt_pos.
  - cbn. apply H. apply Rmult_le_pos; [apply Rabs_pos|apply sqrt_pos].
  - apply K, Rabs_pos.
Qed.

Lemma negative_none (e : list xr) : (forall x, In x e -> xltb x (Fin 0) = false) -> negative e = false.
Proof.
  intros H. unfold negative. induction e as [|x e IH]; [reflexivity|]. cbn.
  rewrite (H x) by (left; reflexivity). apply IH. intros y Hy. apply H. right. exact Hy.
Qed.

Lemma in_map2 {A B C} (f : A -> B -> C) l m y : In y (map2 f l m) -> exists a b, In a l /\ In b m /\ y = f a b.
Proof.
  revert m. induction l as [|a l IH]; intros [|b m]; cbn; try tauto.
  intros [<-|H]; [exists a, b; auto|].
  apply IH in H. destruct H as (a' & b' & H1 & H2 & H3). exists a', b'. auto.
Qed.

Lemma in_gather (a : list xr) idx l y : gather a idx = Ok l -> In y l -> In y a.
Proof.
  unfold gather. revert l. induction idx as [|i idx IH]; intros l; cbn.
  - intros [= <-] [].
  - destruct (nth_error a i) as [x|] eqn:E; [|discriminate]. cbn.
    destruct (mapM _ idx) as [l'|]; [|discriminate]. cbn. intros [= <-] [<-|H].
    + apply nth_error_In in E. exact E.
    + eapply IH; [reflexivity|exact H].
Qed.

Lemma built_err_nonneg (o : petrosian xr) e : built o -> p_err o = Some e -> negative e = false.
Proof.
  intros (d & st & o0 & H & _ & _ & ->). revert H.
  unfold Petrosian_new, bind.
  destruct (validate_input_arrays d); [|discriminate].
  destruct (calculate_petrosian _ _ _ _ _) as [pe|] eqn:E; [|discriminate].
  intros [= <-]. cbn. intros He. revert E. unfold calculate_petrosian, assert_, bind.
  destruct (Nat.eqb _ _); [|discriminate].
  destruct (Nat.ltb _ _); [|discriminate].
  destruct (forallb _ _); [|discriminate].
  destruct (gather _ (ranks (d_area d))) as [petro|]; [|discriminate].
  destruct (d_area_err d) as [ae|], (d_flux_err d) as [fe|].
  4: { intros [= <-]. discriminate He. }
  all: destruct (Nat.eqb _ _); [|discriminate].
  all: destruct (Nat.eqb _ _); [|discriminate].
  all: destruct (d_dtype d); [|discriminate].
  all: match goal with |- context[gather ?a ?b] => destruct (gather a b) as [l|] eqn:Eg; [|discriminate] end.
  all: intros [= <-]; cbn in He; injection He as <-.
  all: apply negative_none; intros x Hx; apply (in_gather _ _ _ _ Eg) in Hx; destruct Hx as [<-|Hx]; [reflexivity|].
  all: apply in_map2 in Hx; destruct Hx as (da & y & _ & Hy & ->).
  all: destruct (nltb n0 da); [|cbn; apply Rltb_false; lra].
  all: apply in_map2 in Hy; destruct Hy as (p0 & q & _ & Hq & ->).
  all: apply in_map2 in Hq; destruct Hq as (v & w & _ & _ & ->).
  all: cbn [store]; unfold hypot2; apply nonneg_prod.
Qed.

Section Outcome.
  Variable mk : kind -> list xr -> list xr -> result (xr -> xr).

  (** plot() raises exactly when a radius cannot be computed or its error is negative *)
  Lemma plot_outcome o plot_r title unit ax ea lg s : built o ->
    match obj_r_petrosian mk o, obj_r_petrosian_err mk o with
    | Ok rp, Ok re =>
        fst (plot mk o plot_r title unit ax ea lg s) =
        (if plot_r && negb (nisnan rp) && nltb re n0 then Err ValueError else Ok (on ax s))
    | Err e, _ | Ok _, Err e => fst (plot mk o plot_r title unit ax ea lg s) = Err e
    end.
  Proof.
    intros B. pose proof (built_err_nonneg o) as P. apply built_inv in B as B'. destruct B' as (_ & B1 & B2 & _ & _).
    assert (E0 : match p_err o with None => false | Some e => negative e end = false).
    { destruct (p_err o) as [e|]; [apply P; auto|reflexivity]. }
    assert (F : forall b s0, exists s1, (if shade ea o then fill_between b (d_r (p_data o)) (p_list o) (p_err o) else dret tt) s0 = (Ok tt, s1) /\ cv_cur s1 = cv_cur s0).
    { intros b s0. destruct (shade ea o) eqn:Es; [|exists s0; split; reflexivity].
      apply shade_spec in Es. destruct Es as [_ Es]. unfold has_errors in Es.
      destruct (p_err o) as [e|]; [|congruence]. specialize (B2 e eq_refl).
      unfold fill_between. rewrite !np_map2_same by congruence. cbn. eexists. split; reflexivity. }
    set (T := plot mk o plot_r title unit ax ea lg s).
    assert (HT : exists s1, cv_cur s1 = cv_cur s /\ T =
      (draw! rp := dlift (obj_r_petrosian mk o) in
       draw! re := dlift (obj_r_petrosian_err mk o) in
       when plot_r
         (put (on ax s) (HLine (s_eta (p_set o))) ;;
          when (negb (nisnan rp))
            (put (on ax s) (VLine rp (L_rp (s_eta (p_set o)) rp (unit_text unit))) ;;
             (if negb (nisnan re) then point_err (on ax s) rp (s_eta (p_set o)) re else put (on ax s) (Point rp (s_eta (p_set o)))))) ;;
       put (on ax s) (HLine n0) ;;
       put (on ax s) (Title title) ;;
       put (on ax s) (XLabel (radius_label (unit_text unit))) ;;
       put (on ax s) (YLabel "Petrosian Index $\eta(r)$") ;;
       mpl_tick_frame None true ;;
       put (on ax s) (XLim n0 None) ;;
       when lg (put (on ax s) Legend) ;;
       dret (on ax s)) s1).
    { unfold T, plot. unfold dbind at 1. rewrite axes_of.
      unfold errorbar. rewrite E0. unfold dbind at 1. unfold put at 1.
      unfold dbind at 1. unfold when at 1.
      match goal with |- context[(if shade ea o then _ else _) ?s0] => destruct (F (on ax s) s0) as (s1 & E1 & E2); rewrite E1 end.
      exists s1. split; [exact E2|reflexivity]. }
    destruct HT as (s1 & E1 & ->).
    unfold dbind at 1. unfold dlift at 1.
    destruct (obj_r_petrosian mk o) as [rp|e]; [|reflexivity].
    unfold dbind at 1. unfold dlift at 1.
    destruct (obj_r_petrosian_err mk o) as [re|e]; [|reflexivity].
    unfold point_err, negative. cbn [existsb]. rewrite orb_false_r.
    destruct plot_r; [|destruct lg; reflexivity].
    destruct (nisnan rp); [destruct lg; reflexivity|].
    destruct re as [| | |re]; [destruct lg; reflexivity|destruct lg; reflexivity|reflexivity|].
    cbn. destruct (Rltb re 0); [reflexivity|]. destruct lg; reflexivity.
  Qed.

  (** ** plot_cog *)
  Lemma cog_outcome o plot_r title unit funit ax ea lg s : built o -> (plot_r = true -> cog_ok mk o) ->
    (forall e, d_flux_err (p_data o) = Some e -> negative e = true ->
       plot_cog mk o plot_r title unit funit ax ea lg s = (Err ValueError, s)) /\
    (forall e, d_flux_err (p_data o) = Some e -> negative e = false ->
       fst (plot_cog mk o plot_r title unit funit ax ea lg s) = Ok (on ax s)) /\
    (d_flux_err (p_data o) = None -> d_area_err (p_data o) <> None -> shaded ea ->
       fst (plot_cog mk o plot_r title unit funit ax ea lg s) = Err TypeError) /\
    (d_flux_err (p_data o) = None -> d_area_err (p_data o) = None \/ ~ shaded ea ->
       fst (plot_cog mk o plot_r title unit funit ax ea lg s) = Ok (on ax s)).
  Proof.
    intros B Hc. apply built_inv in B. destruct B as (B0 & _ & _ & B1 & B2).
    assert (Tail : forall s1, cv_cur s1 = cv_cur s -> fst ((when plot_r
      (draw! rh := dlift (obj_r_half_light mk o) in
       draw! hf := dlift (obj_half_flux mk o) in
       when (negb (nisnan rh) && negb (nisnan hf)) (cog_mark (on ax s) rh hf (L_half rh (unit_text unit))) ;;
       draw! rt := dlift (obj_r_total_flux mk o) in
       draw! tf := dlift (obj_total_flux mk o) in
       when (negb (nisnan rt) && negb (nisnan tf))
         (draw! pc := dlift (percent o) in cog_mark (on ax s) rt tf (L_total pc rt (unit_text unit)))) ;;
     put (on ax s) (Title title) ;;
     put (on ax s) (XLabel (radius_label (unit_text unit))) ;;
     put (on ax s) (YLabel (flux_label funit)) ;;
     mpl_tick_frame None true ;;
     put (on ax s) (XLim n0 None) ;;
     put (on ax s) (YLim n0 None) ;;
     when lg (put (on ax s) Legend) ;;
     dret (on ax s)) s1) = Ok (on ax s)).
    { intros s1 _. unfold dbind at 1.
      match goal with |- context[when plot_r ?m s1] => assert (Hm : exists s2, when plot_r m s1 = (Ok tt, s2)) end.
      { destruct plot_r; [|eexists; reflexivity].
        destruct (Hc eq_refl) as (rh & hf & rt & tf & z & H1 & H2 & H3 & H4 & H5).
        apply read_half in H1. apply read_half_flux in H2. apply read_total in H3. apply read_total_flux in H4.
        apply percent_whole in H5.
        rewrite H1, H2, H3, H4, H5.
        unfold when, dbind, dlift.
        destruct (negb (nisnan rh) && negb (nisnan hf)), (negb (nisnan rt) && negb (nisnan tf)); eexists; reflexivity. }
      destruct Hm as (s2 & ->). destruct lg; reflexivity. }
    match type of Tail with forall s1, _ -> fst (?m s1) = _ => set (tail := m) in Tail end.
    assert (Hd : plot_cog mk o plot_r title unit funit ax ea lg s =
      (errorbar (on ax s) (d_r (p_data o)) (d_flux (p_data o)) (d_flux_err (p_data o)) ;;
       when (shade ea o) (fill_between (on ax s) (d_r (p_data o)) (d_flux (p_data o)) (d_flux_err (p_data o))) ;;
       tail) s).
    { unfold plot_cog. unfold dbind at 1. rewrite axes_of. reflexivity. }
    rewrite Hd. clear Hd. clearbody tail.
    assert (Sh : d_flux_err (p_data o) <> None \/ d_area_err (p_data o) <> None -> has_errors o).
    { intros H E. apply B2 in E. destruct E; intuition congruence. }
    repeat split.
    - intros e He Hn. unfold dbind, errorbar. rewrite He, Hn. reflexivity.
    - intros e He Hn. unfold errorbar. rewrite He, Hn. unfold dbind, put.
      unfold when. destruct (shade ea o).
      + unfold fill_between, dbind, dlift. rewrite !np_map2_same by (rewrite (B1 e He); congruence).
        cbn [cv_cur cv_next cv_trace put]. unfold put. apply Tail. reflexivity.
      + apply Tail. reflexivity.
    - intros He Ha Hs. unfold errorbar. rewrite He. unfold dbind, put, when.
      rewrite (proj2 (shade_spec ea o)) by (split; [exact Hs|apply Sh; auto]). reflexivity.
    - intros He Ha. unfold errorbar. rewrite He. unfold dbind, put, when.
      destruct (shade ea o) eqn:Es; [|apply Tail; reflexivity].
      apply shade_spec in Es. destruct Es as [Hs Hh].
      destruct Ha as [Ha|Ha]; [|contradiction]. exfalso. apply Hh. apply B2. auto.
  Qed.
End Outcome.

(** ** percentages *)
Lemma percent_floor (o : petrosian xr) f : s_total_flux_fraction (p_set o) = Fin f -> (0 <= f)%R ->
  whole_percent o (Int_part (f * 100)).
Proof.
  intros E H. unfold whole_percent. rewrite E. cbn. f_equal. unfold Rtrunc.
  rewrite (proj2 (Rleb_iff 0 (f * 100))) by lra. reflexivity.
Qed.

Lemma percent_table : forallb (fun n => let k := Z.of_nat n in
    match @ntrunc f64 _ (nmul (nlit k 100) (nofZ 100)) with
    | Some z => Z.eqb z (if existsb (Z.eqb k) odd_percents then k - 1 else k)
    | None => false
    end) (seq 1 99) = true.
Proof. vm_compute. reflexivity. Qed.

Lemma percent_f64 (o : petrosian f64) k : (1 <= k <= 99)%Z -> s_total_flux_fraction (p_set o) = nlit k 100 ->
  whole_percent o (if existsb (Z.eqb k) odd_percents then k - 1 else k)%Z.
Proof.
  intros Hk E. unfold whole_percent. rewrite E.
  pose proof percent_table as H. rewrite forallb_forall in H.
  specialize (H (Z.to_nat k)). cbv beta zeta in H. rewrite Z2Nat.id in H by lia.
  match type of H with _ -> match ?m with _ => _ end = true => destruct m as [z|] end.
  - f_equal. apply Z.eqb_eq. apply H. apply in_seq. lia.
  - discriminate H. apply in_seq. lia.
Qed.

(** ** loops *)
Section Loops.
  Context {T : Type} {N : Num T}.
  Lemma each_emits {A} (f : A -> draw (T:=T) unit) (g : A -> list (axes * cmd)) l c s s' :
    (forall x s0 s1, In x l -> cv_cur s0 = c -> f x s0 = (Ok tt, s1) -> s1 = mkcanvas c (cv_next s0) (cv_trace s0 ++ g x)) ->
    cv_cur s = c -> for_each l f s = (Ok tt, s') -> s' = mkcanvas c (cv_next s) (cv_trace s ++ flat_map g l).
  Proof.
    revert s. induction l as [|x l IH]; intros s Hf Hc; cbn [for_each flat_map].
    - unfold dret. intros [= <-]. rewrite app_nil_r. subst c. destruct s; reflexivity.
    - unfold dbind. destruct (f x s) as [[[]|] s1] eqn:E; [|discriminate].
      apply Hf in E; [|left; reflexivity|exact Hc]. subst s1. intros H. apply IH in H.
      + rewrite H. cbn. rewrite app_assoc. reflexivity.
      + intros y s2 s3 Hy. apply Hf. right; exact Hy.
      + reflexivity.
  Qed.

  Lemma each_ok {A} (f : A -> draw (T:=T) unit) l s :
    (forall x s0, In x l -> exists s1, f x s0 = (Ok tt, s1)) -> exists s', for_each l f s = (Ok tt, s').
  Proof.
    revert s. induction l as [|x l IH]; intros s Hf; cbn [for_each]; [eexists; reflexivity|].
    unfold dbind. destruct (Hf x s (or_introl eq_refl)) as (s1 & ->). apply IH.
    intros y s0 Hy. apply Hf. right; exact Hy.
  Qed.
End Loops.

(** ** imshow *)
Section Imshow.
  Context {T : Type} {N : Num T} {NL : NumLog T}.
  Variable mk : kind -> list T -> list T -> result (T -> T).

  Lemma read_frac o f x : read mk o (A_fraction_to_r f) = Ok (VNum x) <-> exists e, obj_fraction mk o f = Ok (x, e).
  Proof.
    cbn [read]. unfold num. destruct (obj_fraction mk o f) as [[r e]|]; cbn.
    - split; [intros X; injection X as ->; eauto|intros [e' X]; injection X as -> ->; reflexivity].
    - split; [intros X; discriminate X|intros [e' X]; discriminate X].
  Qed.

  Lemma imshow_drawn k o pos elong theta s s' :
    imshow mk k o pos elong theta s = (Ok tt, s') ->
    exists d, emitted s s' d /\ cv_cur s' = cv_cur s /\
      (forall a c, In (a, c) d -> a = cv_cur s) /\
      (forall ap l, In (cv_cur s, Ellipse ap l) d <-> exists name r, l = L_name name /\ named_radius mk o name r /\
         nisnan r = false /\ nltb n0 r = true /\ radial_elliptical_aperture k pos r elong theta = Ok ap) /\
      (forall x y, In (cv_cur s, Point x y) d <-> (x, y) = pos).
  Proof.
    unfold imshow. unfold dbind at 1. unfold dlift at 1.
    destruct (obj_r_half_light mk o) as [rh|] eqn:E1; [|discriminate].
    unfold dbind at 1. unfold dlift at 1.
    destruct (obj_r_total_flux mk o) as [rt|] eqn:E2; [|discriminate].
    unfold dbind at 1. unfold dlift at 1.
    destruct (obj_fraction mk o (nlit 1 5)) as [r20|] eqn:E3; [|discriminate].
    unfold dbind at 1. unfold dlift at 1.
    destruct (obj_fraction mk o (nlit 4 5)) as [r80|] eqn:E4; [|discriminate].
    set (l := [_; _; _; _]).
    assert (Hl : forall name r, In (name, r) l <-> named_radius mk o name r).
    { intros name r. unfold named_radius. rewrite read_half, read_total, !read_frac, E1, E2, E3, E4.
      unfold l. cbn [In]. split.
      - intros H. destruct H as [H|[H|[H|[H|[]]]]]; injection H as <- <-; [left|right; left|right; right; left|right; right; right];
          (split; [reflexivity|]); try reflexivity; eexists; apply f_equal; apply surjective_pairing.
      - intros [[-> H]|[[-> H]|[[-> [e H]]|[-> [e H]]]]]; injection H as ->; cbn; auto 10. }
    clearbody l.
    unfold dbind at 1.
    match goal with |- context[for_each l ?f s] => destruct (for_each l f s) as [[[]|] s1] eqn:Ef; [|discriminate] end.
    pose (g := fun lr : string * T => match radial_elliptical_aperture k pos (snd lr) elong theta with
               | Ok a => L_Plot2.opt (negb (nisnan (snd lr)) && nltb n0 (snd lr)) [(cv_cur s, Ellipse a (L_name (fst lr)))]
               | Err _ => [] end).
    apply (each_emits _ g l (cv_cur s)) in Ef; [|clear|reflexivity].
    2: { intros [name r] s0 s1 _ Hc. unfold g. cbn [fst snd]. unfold when, dbind, dlift, gca, put.
         destruct (negb (nisnan r) && nltb n0 r).
         - destruct (radial_elliptical_aperture k pos r elong theta); [|discriminate].
           intros [= <-]. rewrite Hc. reflexivity.
         - unfold dret. intros [= <-]. rewrite <- Hc. destruct (radial_elliptical_aperture _ _ _ _ _); cbn; rewrite app_nil_r; destruct s0; reflexivity. }
    subst s1. unfold dbind, gca, put. cbn [cv_cur cv_next cv_trace].
    intros [= <-]. exists (flat_map g l ++ [(cv_cur s, Point (fst pos) (snd pos))]).
    split; [unfold emitted; cbn; rewrite app_assoc; reflexivity|]. split; [reflexivity|].
    assert (G : forall c, In c (flat_map g l) <-> exists name r ap, In (name, r) l /\ nisnan r = false /\ nltb n0 r = true /\
        radial_elliptical_aperture k pos r elong theta = Ok ap /\ c = (cv_cur s, Ellipse ap (L_name name))).
    { intros c. rewrite in_flat_map. split.
      - intros ([name r] & Hin & H). unfold g in H. cbn [fst snd] in H.
        destruct (radial_elliptical_aperture k pos r elong theta) as [ap|] eqn:Ea; [|destruct H].
        apply L_Plot2.in_opt in H. destruct H as [H [<-|[]]]. apply andb_true_iff in H. rewrite negb_true_iff in H.
        exists name, r, ap. tauto.
      - intros (name & r & ap & Hin & H1 & H2 & H3 & ->). exists (name, r). split; [exact Hin|].
        unfold g. cbn [fst snd]. rewrite H3. apply L_Plot2.in_opt. rewrite H1, H2. cbn. auto. }
    repeat split.
    - intros a c H. apply in_app_iff in H. destruct H as [H|[H|[]]]; [|congruence].
      apply G in H. destruct H as (? & ? & ? & _ & _ & _ & _ & H). congruence.
    - intros H. apply in_app_iff in H. destruct H as [H|[H|[]]]; [|discriminate H].
      apply G in H. destruct H as (name & r & ap' & H1 & H2 & H3 & H4 & H). injection H as -> ->.
      exists name, r. rewrite <- Hl. auto.
    - intros (name & r & -> & H1 & H2 & H3 & H4). apply in_app_iff. left. apply G. exists name, r, ap. rewrite Hl. auto.
    - intros H. apply in_app_iff in H. destruct H as [H|[H|[]]].
      + apply G in H. destruct H as (? & ? & ? & _ & _ & _ & _ & H). discriminate H.
      + injection H as <- <-. destruct pos; reflexivity.
    - intros <-. apply in_app_iff. right. left. reflexivity.
  Qed.
End Imshow.

Lemma aperture_pos k (pos : xr * xr) r e theta : xltb (Fin 0) r = true -> (0 < e)%R ->
  radial_elliptical_aperture k pos r (Fin e) theta = Ok (mkap (fst pos) (snd pos) r (xdiv r (Fin e)) theta).
Proof.
  intros Hr He. unfold radial_elliptical_aperture, fdiv.
  assert (Hz : xeqb (Fin e) (Fin 0) = false). { cbn. destruct (Reqb_spec e 0); [lra|reflexivity]. }
  assert (Hq : xleb r (Fin 0) = false /\ xleb (xdiv r (Fin e)) (Fin 0) = false).
  { destruct r as [| | |r]; cbn in Hr; try discriminate.
    - cbn. rewrite Rltb_false by lra. auto.
    - apply Rltb_iff in Hr. cbn. destruct (Reqb_spec e 0); [lra|].
      assert (0 < r / e)%R by (apply Rdiv_lt_0_compat; lra).
      split; cbn; [destruct (Rleb_spec r 0); [lra|reflexivity]|destruct (Rleb_spec (r / e) 0); [lra|reflexivity]]. }
  destruct Hq as [H1 H2].
  unfold EllipticalAperture.
  destruct k; cbn [bind].
  - cbn [neqb XRnum]. change (@n0 xr _) with (Fin 0). rewrite Hz. cbn [bind nleb ndiv XRnum]. change (@n0 xr _) with (Fin 0).
    rewrite H1, H2. reflexivity.
  - cbn [nleb ndiv XRnum]. change (@n0 xr _) with (Fin 0). rewrite H1, H2. reflexivity.
Qed.

(** with a positive elongation nothing else can go wrong *)
Lemma imshow_total mk k (o : petrosian xr) pos e theta s : (0 < e)%R ->
  (exists rh rt ra rb, read mk o A_r_half_light = Ok (VNum rh) /\ read mk o A_r_total_flux = Ok (VNum rt) /\
     read mk o (A_fraction_to_r (nlit 1 5)) = Ok (VNum ra) /\ read mk o (A_fraction_to_r (nlit 4 5)) = Ok (VNum rb)) ->
  exists s' d, imshow mk k o pos (Fin e) theta s = (Ok tt, s') /\ emitted s s' d /\
    (forall ap l, In (cv_cur s, Ellipse ap l) d <-> exists name r, l = L_name name /\ named_radius mk o name r /\
       xltb (Fin 0) r = true /\ ap = mkap (fst pos) (snd pos) r (xdiv r (Fin e)) theta).
Proof.
  intros He (rh & rt & ra & rb & H1 & H2 & H3 & H4).
  assert (exists s', imshow mk k o pos (Fin e) theta s = (Ok tt, s')) as [s' Hs].
  { apply read_half in H1. apply read_total in H2. apply read_frac in H3, H4. destruct H3 as [ea H3], H4 as [eb H4].
    unfold imshow, dlift. rewrite H1, H2, H3, H4. unfold dbind at 1 2 3 4. cbn [fst].
    unfold dbind at 1.
    match goal with |- context[for_each ?l ?f s] => destruct (each_ok f l s) as [s1 E] end.
    - intros [name r] s0 _. cbn [fst snd]. unfold when.
      destruct (negb (nisnan r) && nltb n0 r) eqn:Ec; [|eexists; reflexivity].
      apply andb_true_iff in Ec. destruct Ec as [_ Ec].
      rewrite aperture_pos by assumption. eexists. reflexivity.
    - rewrite E. eexists. reflexivity. }
  destruct (imshow_drawn mk k o pos (Fin e) theta s s' Hs) as (d & Hd & _ & _ & Hl & _).
  exists s', d. split; [exact Hs|]. split; [exact Hd|]. intros ap l. rewrite Hl. clear - He. split.
  - intros (name & r & -> & Hn & _ & Hr & Ha). exists name, r. change (xltb (Fin 0) r = true) in Hr.
    rewrite aperture_pos in Ha by assumption. injection Ha as <-. auto.
  - intros (name & r & -> & Hn & Hr & ->). exists name, r. split; [reflexivity|]. split; [exact Hn|].
    split; [destruct r; try discriminate Hr; reflexivity|]. split; [exact Hr|]. apply aperture_pos; assumption.
Qed.
