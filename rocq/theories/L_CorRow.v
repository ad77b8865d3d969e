(** Proofs about the rows of the correction grid. *)
From Coq Require Import String Permutation Sorting.Sorted.
From Verif Require Import Base Num Numpy M_Utils L_Numpy M_Petrosian S_Petrosian L_Photometry
  M_Correction S_Correction S_CorRow L_Correction L_Correction2 L_Correction3 L_Correction4.
Local Open Scope list_scope.
Local Open Scope R_scope.

(** ** np.unique *)
Section Unique.
  Definition lex (a b : xr * nat) : Prop :=
    exists x y, fst a = Fin x /\ fst b = Fin y /\ (x < y \/ (x = y /\ (snd a < snd b)%nat)).
  Definition isfin (a : xr * nat) : Prop := exists x, fst a = Fin x.

  Lemma insert_in x (l : list (xr * nat)) q : In q (insert_ix x l) <-> q = x \/ In q l.
  Proof.
    induction l as [|y l IH]; cbn [insert_ix].
    - cbn. intuition.
    - destruct (nleb _ _); cbn; [intuition|]. rewrite IH. intuition.
  Qed.

  Lemma insert_lex x l : isfin x -> Forall (fun y => isfin y /\ (snd x < snd y)%nat) l -> StronglySorted lex l -> StronglySorted lex (insert_ix x l).
  Proof.
    intros (v & Hv) F S. revert F. induction S as [|y l S IH Hy]; intros F; cbn [insert_ix].
    - repeat constructor.
    - inversion F as [|? ? ((w & Hw) & Lt) F']; subst. rewrite Hv, Hw. cbn [nleb XRnum xleb].
      destruct (Rleb_spec v w) as [K|K].
      + constructor; [constructor; auto|]. assert (A : lex x y) by (exists v, w; split; [auto|split; [auto|]]; destruct (Req_dec v w); [right; split; auto|left; lra]).
        constructor; auto. rewrite Forall_forall in *. intros z Hz. destruct (Hy z Hz) as (w' & z' & E1 & E2 & C).
        rewrite Hw in E1. injection E1 as <-. exists v, z'. repeat split; auto.
        destruct C as [C|[-> C]]; [left; lra|]. destruct (Req_dec v z'); [right; split; auto; lia|left; lra].
      + constructor; [apply IH; auto|]. rewrite Forall_forall in *. intros z Hz. apply insert_in in Hz as [->|Hz]; auto.
        exists w, v. split; auto. split; auto. left. lra.
  Qed.

  Lemma sort_ok (L : list R) b : let s := fold_right insert_ix [] (combine (map Fin L) (seq b (List.length L))) in
    StronglySorted lex s /\ forall x j, In (x, j) s <-> exists v, x = Fin v /\ (b <= j)%nat /\ nth_error L (j - b) = Some v.
  Proof.
    revert b. induction L as [|v L IH]; intros b; cbn [map List.length seq combine fold_right].
    - split; [constructor|]. intros x j. split; [intros []|]. intros (w & _ & _ & K). destruct (j - b)%nat; discriminate.
    - destruct (IH (S b)) as (S1 & S2). split.
      + apply insert_lex; auto. { now exists v. }
        apply Forall_forall. intros [x j] Hq. apply S2 in Hq as (w & -> & Hj & _). split; [now exists w|]. cbn. lia.
      + intros x j. rewrite insert_in, S2. split.
        * intros [E|(w & -> & Hj & K)].
          -- injection E as -> ->. exists v. rewrite Nat.sub_diag. auto.
          -- exists w. repeat split; auto; [lia|]. replace (j - b)%nat with (S (j - S b)) by lia. exact K.
        * intros (w & -> & Hj & K). destruct (Nat.eq_dec j b) as [->|N].
          -- left. rewrite Nat.sub_diag in K. injection K as <-. reflexivity.
          -- right. exists w. repeat split; auto; [lia|]. replace (j - b)%nat with (S (j - S b)) in K by lia. exact K.
  Qed.

  Definition vlt (a b : xr * nat) : Prop := exists x y, fst a = Fin x /\ fst b = Fin y /\ x < y.

  Lemma runs_ok l : StronglySorted lex l -> forall prev, (forall v, prev = Some v -> exists x, v = Fin x /\ forall q, In q l -> exists y, fst q = Fin y /\ x <= y) ->
    Forall isfin l ->
    let out := first_of_runs prev l in
    StronglySorted vlt out /\ (forall q, In q out -> In q l) /\
    (forall v q, prev = Some v -> In q out -> exists x y, v = Fin x /\ fst q = Fin y /\ x < y) /\
    (forall q, In q l -> prev = Some (fst q) \/ exists p, In p out /\ fst p = fst q /\ (snd p <= snd q)%nat).
  Proof.
    induction 1 as [|a l S IH Ha]; intros prev HP HF; cbn [first_of_runs].
    - repeat split; cbn; try constructor; tauto.
    - inversion HF as [|? ? (x & Hx) HF']; subst. rewrite Forall_forall in Ha, HF'.
      assert (NEXT : forall v, Some (fst a) = Some v -> exists x, v = Fin x /\ forall q, In q l -> exists y, fst q = Fin y /\ x <= y).
      { intros v [= <-]. exists x. split; auto. intros q Hq. destruct (Ha q Hq) as (x' & y & E1 & E2 & C). rewrite Hx in E1. injection E1 as <-.
        exists y. split; auto. destruct C as [C|[-> _]]; lra. }
      assert (TAKE : let out := a :: first_of_runs (Some (fst a)) l in
        StronglySorted vlt out /\ (forall q, In q out -> In q (a :: l)) /\ (forall q, In q (a :: l) -> exists p, In p out /\ fst p = fst q /\ (snd p <= snd q)%nat) /\
        (forall q, In q out -> exists y, fst q = Fin y /\ x <= y)).
      { destruct (IH (Some (fst a)) NEXT) as (A1 & A2 & A3 & A4); [now apply Forall_forall|]. cbn zeta. split; [|split; [|split]].
        - constructor; auto. apply Forall_forall. intros q Hq. destruct (A3 _ q eq_refl Hq) as (u & w & E1 & E2 & C). exists u, w. auto.
        - intros q [<-|Hq]; [now left|right; auto].
        - intros q [<-|Hq]; [exists a; split; [now left|auto]|].
          destruct (A4 q Hq) as [E|(p & P1 & P2 & P3)]; [|exists p; split; [now right|auto]].
          injection E as E. exists a. split; [now left|]. split; auto. destruct (Ha q Hq) as (u & w & E1 & E2 & C).
          rewrite E1, E2 in E. injection E as ->. destruct C as [C|[_ C]]; [lra|lia].
        - intros q [<-|Hq]; [exists x; split; auto; lra|]. destruct (A3 _ q eq_refl Hq) as (u & w & E1 & E2 & C).
          rewrite Hx in E1. injection E1 as <-. exists w. split; auto. lra. }
      destruct prev as [v|].
      + destruct (HP v eq_refl) as (z & -> & Hz). rewrite Hx. cbn [neqb XRnum xeqb]. destruct (Reqb_spec z x) as [->|N].
        * destruct (IH (Some (Fin x))) as (A1 & A2 & A3 & A4).
          { intros v [= <-]. exists x. split; auto. intros q Hq. apply Hz. now right. } { now apply Forall_forall. }
          split; [exact A1|]. split; [intros q Hq; right; auto|]. split; [intros v q E Hq; exact (A3 v q E Hq)|].
          intros q [<-|Hq]; [left; now rewrite Hx|auto].
        * destruct TAKE as (T1 & T2 & T3 & T4). rewrite <- Hx. split; [exact T1|]. split; [exact T2|]. split; [|intros q Hq; right; auto].
          intros v q [= <-] Hq. exists z. destruct (T4 q Hq) as (y & Ey & Ly). exists y. repeat split; auto.
          destruct (Hz a (or_introl eq_refl)) as (x' & Ex & Lx). rewrite Hx in Ex. injection Ex as <-. lra.
      + destruct TAKE as (T1 & T2 & T3 & T4). split; [exact T1|]. split; [exact T2|]. split; [discriminate|]. intros q Hq. right. auto.
  Qed.

  Lemma sorted_at (l : list (xr * nat)) : StronglySorted vlt l -> Forall isfin l -> exists X J,
    l = combine (map Fin X) J /\ List.length J = List.length X /\ increasing X.
  Proof.
    induction 1 as [|[v j] l S IH H]; intros F.
    - exists [], []. repeat split. intros i Hi. cbn in Hi. lia.
    - inversion F as [|? ? (x & Hx) F']; subst. cbn in Hx. subst v. destruct (IH F') as (X & J & -> & LJ & I).
      exists (x :: X), (j :: J). split; [reflexivity|]. split; [cbn; lia|]. intros [|i] Hi.
      + destruct X as [|y X]; [cbn in Hi; lia|]. destruct J as [|j' J]; [discriminate|]. unfold at_. cbn.
        inversion H as [|? ? (a & b & E1 & E2 & C) _]; subst. cbn in E1, E2. injection E1 as <-. injection E2 as <-. exact C.
      + cbn in Hi. unfold at_. cbn. apply I. lia.
  Qed.

  Lemma nth_combine {A B} (l : list A) (m : list B) k a b : List.length m = List.length l -> (k < List.length l)%nat ->
    nth_error (combine l m) k = Some (nth k l a, nth k m b).
  Proof.
    revert m k. induction l as [|x l IH]; intros [|y m] [|k] H K; cbn in *; try lia; auto. apply IH; lia.
  Qed.

  Theorem unique_ok (L : list R) : exists X J, unique_index (map Fin L) = combine (map Fin X) J /\ distinct_of L X J.
  Proof.
    unfold unique_index, sort_ix. rewrite map_length.
    destruct (sort_ok L 0) as (S1 & S2). set (s := fold_right insert_ix [] (combine (map Fin L) (seq 0 (List.length L)))) in *.
    assert (FS : Forall isfin s) by (apply Forall_forall; intros [x j] Hq; apply S2 in Hq as (v & -> & _); now exists v).
    destruct (runs_ok s S1 None ltac:(discriminate) FS) as (R1 & R2 & _ & R4). set (out := first_of_runs None s) in *.
    assert (FO : Forall isfin out) by (rewrite Forall_forall in *; auto).
    destruct (sorted_at out R1 FO) as (X & J & EO & LJ & I). exists X, J. split; auto. split; auto. split; auto.
    assert (AT : forall k, (k < List.length X)%nat -> In (Fin (at_ X k), nth k J 0%nat) out).
    { intros k Hk. apply (nth_error_In _ k). rewrite EO. rewrite (nth_combine _ _ k (Fin 0) 0%nat); rewrite ?map_length; auto. now rewrite map_nth. }
    assert (TA : forall v j, In (Fin v, j) out -> exists k, (k < List.length X)%nat /\ at_ X k = v /\ nth k J 0%nat = j).
    { intros v j Hq. rewrite EO in Hq. apply In_nth_error in Hq as (k & Hk).
      assert (Lk : (k < List.length X)%nat). { assert (K : (k < List.length (combine (map Fin X) J))%nat) by (apply nth_error_Some; congruence). rewrite combine_length, map_length in K. lia. }
      exists k. rewrite (nth_combine _ _ k (Fin 0) 0%nat) in Hk; rewrite ?map_length; auto. rewrite map_nth in Hk. injection Hk as E1 E2. auto. }
    split.
    - intros x. split.
      + intros Hx. apply (In_nth _ _ 0) in Hx as (k & Hk & E). pose proof (R2 _ (AT k Hk)) as K. apply S2 in K as (v & Ev & _ & Hn).
        injection Ev as Ev. unfold at_ in Ev. rewrite E in Ev. subst v. eapply nth_error_In; eauto.
      + intros Hx. apply In_nth_error in Hx as (j & Hj).
        assert (Hs : In (Fin x, j) s) by (apply S2; exists x; rewrite Nat.sub_0_r; repeat split; auto; lia).
        destruct (R4 _ Hs) as [K|([v i] & P1 & P2 & _)]; [discriminate|]. cbn in P2. subst v. destruct (TA _ _ P1) as (k & Hk & <- & _). now apply nth_In.
    - intros k Hk j. pose proof (R2 _ (AT k Hk)) as K. fold j in K. apply S2 in K as (v & Ev & _ & Hn). injection Ev as <-.
      rewrite Nat.sub_0_r in Hn. split; auto. intros i Hi Hn'.
      assert (Hs : In (Fin (at_ X k), i) s) by (apply S2; exists (at_ X k); rewrite Nat.sub_0_r; repeat split; auto; lia).
      destruct (R4 _ Hs) as [K|([v m] & P1 & P2 & P3)]; [discriminate|]. cbn in P2, P3. subst v.
      destruct (TA _ _ P1) as (k' & Hk' & E1 & E2).
      assert (k' = k); [|subst; unfold j in Hi; lia].
      assert (MONO : forall a b, (a < b)%nat -> (b < List.length X)%nat -> at_ X a < at_ X b).
      { intros a b Hab. induction Hab as [|b Hab IHb]; intros Hb; [apply I; lia|]. specialize (IHb ltac:(lia)). specialize (I b ltac:(lia)). lra. }
      destruct (lt_eq_lt_dec k' k) as [[Q|Q]|Q]; auto; [pose proof (MONO _ _ Q Hk)|pose proof (MONO _ _ Q Hk')]; lra.
  Qed.
End Unique.

(** ** the entries of a row *)
Section Row.
  Variable mk : kind -> list xr -> list xr -> result (xr -> xr).
  Variable sersic_total : xr -> xr -> xr.
  Variable sersic_radius : xr -> xr -> xr -> xr.
  Variable simulate : xr -> xr -> list Z -> Z -> Z -> result (list xr * list xr).

  Lemma lit a b : (IZR b <> 0) -> nlit a b = Fin (IZR a / IZR b).
  Proof. intros H. unfold nlit. cbn. destruct (Reqb_spec (IZR b) 0); [contradiction|reflexivity]. Qed.

  Lemma mul1 (x : xr) : nmul x n1 = x.
  Proof. destruct x; cbn; auto; [| |f_equal; lra]; unfold xsgn_inf; rewrite Rltb_true by lra; reflexivity. Qed.

  Theorem row_contents r_eff n row :
    generate_row mk sersic_total sersic_radius simulate r_eff n = Ok row ->
    exists radii size x0 flux area p rp f rt r80 q,
      simulate r_eff n radii size x0 = Ok (flux, area) /\
      (* the input model *)
      (let total := nmul (sersic_total r_eff n) (Fin (99/100)) in
       entry row "n" n /\ entry row "r_eff" r_eff /\ entry row "sersic_L_inf" (sersic_total r_eff n) /\
       entry row "sersic_r_20" (sersic_radius r_eff n (nmul total (Fin (1/5)))) /\
       entry row "sersic_r_80" (sersic_radius r_eff n (nmul total (Fin (4/5)))) /\
       entry row "sersic_r_99" (sersic_radius r_eff n total) /\
       f total = Ok rt /\ f (nmul total (Fin (4/5))) = Ok r80) /\
      (* Petrosian radii of the image *)
      (pet radii area flux (Fin (1/5)) (Fin 2) = Ok p /\ obj_r_petrosian mk p = Ok rp) /\
      (forall eta name, eta_col eta name -> exists o x,
         pet radii area flux eta (Fin 2) = Ok o /\ obj_r_petrosian mk o = Ok x /\ entry row name x) /\
      (forall eta name x, (eta = Fin (1/2) /\ name = "p0502"%string) \/ (eta = Fin (3/10) /\ name = "p0302"%string) ->
         forall o, pet radii area flux eta (Fin 2) = Ok o -> obj_r_petrosian mk o = Ok x ->
         entry row name (nmul (Fin 5) (nlog10 (ndiv rp x)))) /\
      (* with epsilon = 2 *)
      (entry row "u_epsilon" (Fin 2) /\
       (exists x, has_fraction mk p (Fin (1/2)) x /\ entry row "u_r_50" x /\ entry row "u_epsilon_50" (ndiv x rp)) /\
       (exists x, has_fraction mk p (Fin (4/5)) x /\ entry row "u_r_80" x /\ entry row "u_epsilon_80" (ndiv x rp)) /\
       (exists x, has_fraction mk p (Fin (1/5)) x /\ entry row "u_r_20" x) /\
       (exists x, has_fraction mk p (Fin (99/100)) x /\ entry row "u_r_99" x) /\
       (exists x, has_concentration mk p (Fin (1/5)) (Fin (4/5)) x /\ entry row "u_c2080" x) /\
       (exists x, has_concentration mk p (Fin (1/2)) (Fin (9/10)) x /\ entry row "u_c5090" x)) /\
      (* the corrected epsilon *)
      (forall L, flux = map Fin L -> exists X J, distinct_of L X J /\
         interp1d mk (Some KLinear) (map Fin X) (map (fun j => nth j (map nofZ radii) NaN) J) = Ok f) /\
      entry row "c_epsilon" (ndiv rt rp) /\ entry row "c_epsilon_80" (ndiv r80 rp) /\
      pet radii area flux (Fin (1/5)) (ndiv rt rp) = Ok q /\
      (* with the corrected epsilon *)
      (exists x, has_fraction mk q (Fin (1/2)) x /\ entry row "c_r_50" x /\ entry row "c_epsilon_50" (ndiv x rp)) /\
      (exists x, has_fraction mk q (Fin (4/5)) x /\ entry row "c_r_80" x) /\
      (exists x, has_fraction mk q (Fin (1/5)) x /\ entry row "c_r_20" x) /\
      (exists x, has_fraction mk q (Fin (99/100)) x /\ entry row "c_r_99" x) /\
      (exists x, has_concentration mk q (Fin (1/5)) (Fin (4/5)) x /\ entry row "c_c2080" x) /\
      (exists x, has_concentration mk q (Fin (1/2)) (Fin (9/10)) x /\ entry row "c_c5090" x).
  Proof.
    unfold generate_row. rewrite !mul1. unfold half. rewrite !lit by lra.
    change (5%Z =? 0)%Z with false. intros H.
    apply bind_Ok in H. destruct H as (m & Hm & H).
    apply bind_Ok in H. destruct H as ([[radii size] x0] & Hg & H). cbn [fst snd] in H.
    apply bind_Ok in H. destruct H as ([flux area] & Hs & H). cbn [fst snd] in H.
    apply bind_Ok in H. destruct H as (p & Hp & H).
    apply bind_Ok in H. destruct H as (c & Hc & H).
    destruct (_ || _)%bool; [discriminate|].
    apply bind_Ok in H. destruct H as (f & Hf & H).
    apply bind_Ok in H. destruct H as (mt & Hmt & H).
    apply bind_Ok in H. destruct H as (m80 & Hm80 & H).
    apply bind_Ok in H. destruct H as (rp & Hrp & H).
    apply bind_Ok in H. destruct H as (pl & Hpl & H).
    apply bind_Ok in H. destruct H as (p02 & H02 & H).
    apply bind_Ok in H. destruct H as (p03 & H03 & H).
    apply bind_Ok in H. destruct H as (p04 & H04 & H).
    apply bind_Ok in H. destruct H as (p05 & H05 & H).
    unfold assert_ in H. destruct (neqb _ _); [|discriminate].
    apply bind_Ok in H. destruct H as (u50 & Hu50 & H).
    apply bind_Ok in H. destruct H as (u20 & Hu20 & H).
    apply bind_Ok in H. destruct H as (u80 & Hu80 & H).
    apply bind_Ok in H. destruct H as (c50 & Hc50 & H).
    apply bind_Ok in H. destruct H as (c20 & Hc20 & H).
    apply bind_Ok in H. destruct H as (c80 & Hc80 & H).
    apply bind_Ok in H. destruct H as (u99 & Hu99 & H).
    apply bind_Ok in H. destruct H as (ua & Hua & H).
    apply bind_Ok in H. destruct H as (ub & Hub & H).
    apply bind_Ok in H. destruct H as (c99 & Hc99 & H).
    apply bind_Ok in H. destruct H as (ca & Hca & H).
    apply bind_Ok in H. destruct H as (cb & Hcb & H).
    injection H as <-.
    assert (DS : default_settings = mkset (Fin (1/5)) (Fin 2) (Fin (99/100)) (Fin (99/100)) cubic num5000).
    { unfold default_settings. rewrite !lit by lra. reflexivity. }
    rewrite DS in Hp.
    assert (NEW : forall eta e, pet radii area flux eta e = Ok (mkpet (mkdata DFloat (map nofZ radii) area flux None None)
      (mkset eta e (Fin (99/100)) (Fin (99/100)) cubic num5000) (fst pl) (snd pl))).
    { intros eta e. unfold pet. unfold Petrosian_new in *. apply bind_Ok in Hp. destruct Hp as (v & Hv & _). rewrite Hv. cbn [bind d_dtype d_area d_flux d_area_err d_flux_err].
      rewrite Hpl. reflexivity. }
    assert (PE : p = mkpet (mkdata DFloat (map nofZ radii) area flux None None) (mkset (Fin (1/5)) (Fin 2) (Fin (99/100)) (Fin (99/100)) cubic num5000) (fst pl) (snd pl)).
    { pose proof (NEW (Fin (1/5)) (Fin 2)) as K. unfold pet in K. rewrite Hp in K. now injection K as ->. }
    assert (SN : snd pl = None).
    { unfold calculate_petrosian, assert_ in Hpl. destruct (Nat.eqb _ _); [|discriminate]. destruct (Nat.ltb _ _); [|discriminate].
      destruct (forallb _ _); [|discriminate]. apply bind_Ok in Hpl. destruct Hpl as (g & _ & Hpl). injection Hpl as <-. reflexivity. }
    assert (RP : forall eta e x, (do y <- calculate_petrosian_r mk (map nofZ radii) (fst pl) None eta cubic num5000; Ok (fst y)) = Ok x ->
       exists o, pet radii area flux eta e = Ok o /\ obj_r_petrosian mk o = Ok x).
    { intros eta e x K. rewrite NEW. eexists. split; [reflexivity|]. unfold obj_r_petrosian, obj_petro_r. cbn [p_data p_list p_err p_set d_r s_eta s_kind s_num]. rewrite SN. exact K. }
    assert (E2 : rp = p02).
    { destruct (RP _ (Fin 2) _ H02) as (o & O1 & O2). unfold pet in O1. rewrite Hp in O1. injection O1 as <-. rewrite Hrp in O2. now injection O2 as ->. }
    subst p02.
    assert (FR : forall o a x, (do y <- obj_fraction mk o a; Ok (fst y)) = Ok x -> has_fraction mk o a x).
    { intros o a x K. apply bind_Ok in K. destruct K as ([y e] & K & E). injection E as <-. now exists e. }
    assert (CO : forall o a b x, (do y <- obj_concentration mk o a b; Ok (snd y)) = Ok x -> has_concentration mk o a b x).
    { intros o a b x K. apply bind_Ok in K. destruct K as ([[y z] e] & K & E). injection E as <-. now exists y, z. }
    exists radii, size, x0, flux, area, p, rp, f, mt, m80, (do_assign p (Set_epsilon (ndiv mt rp))).
    split; [exact Hs|].
    split; [cbn zeta; repeat split; auto|].
    split; [split; [exact Hp|exact Hrp]|].
    split.
    { intros eta name [[-> ->]|[[-> ->]|[[-> ->]|[-> ->]]]]; [pose proof H02 as K|pose proof H03 as K|pose proof H04 as K|pose proof H05 as K];
      destruct (RP _ (Fin 2) _ K) as (o & O1 & O2); exists o; eexists; (split; [exact O1|split; [exact O2|reflexivity]]). }
    split.
    { intros eta name x [[-> ->]|[-> ->]] o O1 O2.
      - destruct (RP _ (Fin 2) _ H05) as (o' & O1' & O2'). rewrite O1 in O1'. injection O1' as <-. rewrite O2 in O2'. injection O2' as ->. reflexivity.
      - destruct (RP _ (Fin 2) _ H03) as (o' & O1' & O2'). rewrite O1 in O1'. injection O1' as <-. rewrite O2 in O2'. injection O2' as ->. reflexivity. }
    split.
    { split; [rewrite PE; reflexivity|].
      split; [exists u50; split; [auto|split; reflexivity]|].
      split; [exists u80; split; [auto|split; reflexivity]|].
      split; [exists u20; split; [auto|reflexivity]|].
      split; [exists u99; split; [auto|reflexivity]|].
      split; [exists ua; split; [auto|reflexivity]|].
      exists ub; split; [auto|reflexivity]. }
    split.
    { intros L ->. destruct (unique_ok L) as (X & J & EU & D). exists X, J. split; auto. rewrite EU in Hf. rewrite <- Hf. destruct D as (LJ & _).
      assert (C1 : forall (A : list xr) (B : list nat), List.length B = List.length A -> map fst (combine A B) = A /\ map snd (combine A B) = B).
      { clear. induction A as [|a A IH]; intros [|b B] H; cbn in *; try lia; auto. destruct (IH B) as [-> ->]; auto. }
      destruct (C1 (map Fin X) J) as [M1 M2]; [now rewrite map_length|]. rewrite M1. f_equal.
      transitivity (map (fun j => nth j (map nofZ radii) NaN) (map snd (combine (map Fin X) J))); [now rewrite M2|]. rewrite map_map. reflexivity. }
    split; [reflexivity|]. split; [reflexivity|].
    split; [rewrite NEW, PE; reflexivity|].
    split; [exists c50; split; [auto|split; reflexivity]|].
    split; [exists c80; split; [auto|reflexivity]|].
    split; [exists c20; split; [auto|reflexivity]|].
    split; [exists c99; split; [auto|reflexivity]|].
    split; [exists ca; split; [auto|reflexivity]|].
    exists cb; split; [auto|reflexivity].
  Qed.
End Row.
