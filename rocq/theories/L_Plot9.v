(** Proofs about the drawing code, in terms of the attributes of the object. *)
From Coq Require Import String.
From Verif Require Import Base Num Numpy M_Utils M_Photometry M_Petrosian M_Correction M_PSF M_Fitting M_Plot S_Correction S_Plot.
From Verif Require Import L_Numpy L_Photometry L_Correction L_Plot L_Plot2 L_Plot3 L_Plot4 L_Plot5 L_Plot6 L_Plot7 L_Plot8.
Local Open Scope list_scope.

Section Attributes.
  Context {T : Type} {N : Num T} {NL : NumLog T}.
  Variable mk : kind -> list T -> list T -> result (T -> T).
  Lemma read_rp o x : obj_r_petrosian mk o = Ok x <-> read mk o A_r_petrosian = Ok (VNum x).
  Proof. cbn [read]. unfold num. destruct (obj_r_petrosian mk o); cbn; split; intros H; try discriminate H; injection H as ->; reflexivity. Qed.
  Lemma read_rp_err o x : obj_r_petrosian_err mk o = Ok x <-> read mk o A_r_petrosian_err = Ok (VNum x).
  Proof. cbn [read]. unfold num. destruct (obj_r_petrosian_err mk o); cbn; split; intros H; try discriminate H; injection H as ->; reflexivity. Qed.
  Lemma read_rp_fail o e : obj_r_petrosian mk o = Err e <-> read mk o A_r_petrosian = Err e.
  Proof. cbn [read]. unfold num. destruct (obj_r_petrosian mk o); cbn; split; intros H; try discriminate H; injection H as ->; reflexivity. Qed.
  Lemma read_rp_err_fail o e : obj_r_petrosian_err mk o = Err e <-> read mk o A_r_petrosian_err = Err e.
  Proof. cbn [read]. unfold num. destruct (obj_r_petrosian_err mk o); cbn; split; intros H; try discriminate H; injection H as ->; reflexivity. Qed.

  (** plot_radii *)
  Lemma radii_drawn o ax unit s s' : plot_radii mk o ax unit s = (Ok tt, s') ->
    exists d, emitted s s' d /\ cv_cur s' = cv_cur s /\
      (forall a c, In (a, c) d -> a = ax /\ exists x l, c = VLine x l) /\
      (forall x l, In (ax, VLine x l) d <->
         measured mk o A_r_petrosian x /\ l = L_rp (s_eta (p_set o)) x (unit_text unit) \/
         (exists z, measured mk o A_r_total_flux x /\ whole_percent o z /\ l = L_total z x (unit_text unit)) \/
         measured mk o A_r_half_light x /\ l = L_half x (unit_text unit)).
  Proof.
    unfold plot_radii. cbv zeta.
    destruct (obj_r_petrosian mk o) as [rp|] eqn:R1; [|intros X; discriminate X]. rewrite bind_ok.
    intros H.
    assert (S1 : exists d1, when (negb (nisnan rp)) (put ax (VLine rp (L_rp (s_eta (p_set o)) rp (unit_text unit)))) s = (Ok tt, adds s d1) /\
      forall a c, In (a, c) d1 <-> nisnan rp = false /\ a = ax /\ c = VLine rp (L_rp (s_eta (p_set o)) rp (unit_text unit))).
    { destruct (nisnan rp); cbn [negb when].
      - exists []. unfold dret. rewrite adds_nil. split; [reflexivity|]. cbn. intuition discriminate.
      - eexists. split; [rewrite put_last, add_adds; reflexivity|]. cbn. intros a c. split.
        + intros [E|[]]. injection E as <- <-. auto.
        + intros (_ & -> & ->). auto. }
    destruct S1 as (d1 & S1 & D1). rewrite (bind_run _ _ _ _ _ S1) in H.
    destruct (obj_r_total_flux mk o) as [rt|] eqn:R2; [|discriminate H]. rewrite bind_ok in H.
    assert (S2 : exists d2, when (negb (nisnan rt)) (draw! pc := dlift (percent o) in put ax (VLine rt (L_total pc rt (unit_text unit)))) (adds s d1) = (Ok tt, adds s (d1 ++ d2)) /\
      forall a c, In (a, c) d2 <-> nisnan rt = false /\ a = ax /\ exists z, whole_percent o z /\ c = VLine rt (L_total z rt (unit_text unit))).
    { destruct (nisnan rt); cbn [negb when] in *.
      - exists []. unfold dret. rewrite app_nil_r. split; [reflexivity|]. cbn. intuition discriminate.
      - destruct (percent o) as [z|] eqn:P.
        2:{ rewrite bind_err in H || (unfold dbind, dlift in H); discriminate H. }
        eexists. split; [rewrite bind_ok, put_last, add_adds, adds_adds; reflexivity|]. cbn. intros a c.
        assert (W : forall y, whole_percent o y <-> y = z).
        { intros y. rewrite <- percent_whole. rewrite P. split; [intros E; injection E; auto|intros ->; reflexivity]. }
        split.
        + intros [E|[]]. injection E as <- <-. do 2 (split; auto). exists z. split; [now apply W|reflexivity].
        + intros (_ & -> & y & Wy & ->). apply W in Wy. subst. auto. }
    destruct S2 as (d2 & S2 & D2). rewrite (bind_run _ _ _ _ _ S2) in H.
    destruct (obj_r_half_light mk o) as [rh|] eqn:R3; [|discriminate H]. rewrite bind_ok in H.
    assert (S3 : exists d3, when (negb (nisnan rh)) (put ax (VLine rh (L_half rh (unit_text unit)))) (adds s (d1 ++ d2)) = (Ok tt, adds s (d1 ++ d2 ++ d3)) /\
      forall a c, In (a, c) d3 <-> nisnan rh = false /\ a = ax /\ c = VLine rh (L_half rh (unit_text unit))).
    { destruct (nisnan rh); cbn [negb when].
      - exists []. unfold dret. rewrite app_nil_r. split; [reflexivity|]. cbn. intuition discriminate.
      - eexists. split; [rewrite put_last, add_adds, adds_adds, <- app_assoc; reflexivity|]. cbn. intros a c. split.
        + intros [E|[]]. injection E as <- <-. auto.
        + intros (_ & -> & ->). auto. }
    destruct S3 as (d3 & S3 & D3). rewrite S3 in H. injection H as <-.
    exists (d1 ++ d2 ++ d3). split; [reflexivity|]. split; [reflexivity|].
    assert (M1 : forall x, measured mk o A_r_petrosian x <-> x = rp /\ nisnan rp = false).
    { intros x. unfold measured. rewrite <- read_rp, R1. split; [intros [E F]; injection E as <-; auto|intros [-> F]; auto]. }
    assert (M2 : forall x, measured mk o A_r_total_flux x <-> x = rt /\ nisnan rt = false).
    { intros x. unfold measured. rewrite read_total. rewrite R2. split; [intros [E F]; injection E as <-; auto|intros [-> F]; auto]. }
    assert (M3 : forall x, measured mk o A_r_half_light x <-> x = rh /\ nisnan rh = false).
    { intros x. unfold measured. rewrite read_half, R3. split; [intros [E F]; injection E as <-; auto|intros [-> F]; auto]. }
    split.
    - intros a c. rewrite !in_app_iff, D1, D2, D3. intros [(_ & -> & ->)|[(_ & -> & z & _ & ->)|(_ & -> & ->)]]; eauto.
    - intros x l. rewrite !in_app_iff, D1, D2, D3, M1, M3. split.
      + intros [(F & _ & E)|[(F & _ & z & W & E)|(F & _ & E)]]; injection E as -> ->.
        * left. auto.
        * right. left. exists z. rewrite M2. auto.
        * right. right. auto.
      + intros [((-> & F) & ->)|[(z & M & W & ->)|((-> & F) & ->)]].
        * left. auto.
        * apply M2 in M. destruct M as [-> F]. right. left. split; auto. split; auto. exists z. auto.
        * right. right. auto.
  Qed.
End Attributes.
