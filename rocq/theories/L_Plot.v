(** Proofs about the drawing code. *)
From Coq Require Import String.
From Verif Require Import Base Num Numpy M_Utils M_Photometry M_Petrosian M_Correction M_PSF M_Fitting M_Plot S_Plot.
From Verif Require L_Petrosian.
Local Open Scope list_scope.

Section Generic.
  Context {T : Type} {N : Num T} {NL : NumLog T}.
  Variable mk : kind -> list T -> list T -> result (T -> T).

  Lemma unit_label u : radius_label (unit_text u) = radius_axis u.
  Proof.
    unfold radius_label, radius_axis, unit_text, nonempty, bracket.
    destruct u as [u|]; [|reflexivity].
    destruct (String.eqb u ""); reflexivity.
  Qed.

  Lemma shade_spec a o : shade (T:=T) a o = true <-> shaded a /\ has_errors o.
  Proof.
    unfold shade, shaded, has_errors. destruct a as [a|]; [|split; [discriminate|intros [[x [E _]] _]; discriminate E]].
    destruct (p_err o) as [e|].
    - split; [intros H; split; [exists a; auto|discriminate]|intros [[x [[= <-] H]] _]; exact H].
    - split; [discriminate|intros [_ H]; congruence].
  Qed.

  Ltac norm := rewrite <- ?app_assoc; cbn [List.app].
  (** membership in an explicit list of calls *)
  Ltac split_in H :=
    cbn [In] in H;
    repeat (destruct H as [H|H]); try contradiction; try discriminate H;
    try (injection H; clear H; intros; subst).
  Ltac in_now := cbn [In]; repeat first [left; reflexivity | right]; fail.
  Ltac in_easy := cbn [In]; first [left; reflexivity | right; in_easy].
  Ltac mem :=
    split;
    [ let H := fresh in intros H; split_in H; repeat split; auto; try congruence; try (left; reflexivity); try (right; split; reflexivity)
    | intros; repeat match goal with H : _ /\ _ |- _ => destruct H | H : _ \/ _ |- _ => destruct H end; subst;
      try congruence; try in_easy ].

  Lemma axes_of (ax : option axes) (s0 : canvas) :
    (match ax with None => gca (T:=T) | Some b => dret b end) s0 = (Ok (on ax s0), s0).
  Proof. destruct ax; reflexivity. Qed.

  (** ** objects *)
  Lemma mapM_length {A B} (f : A -> result B) l l' : mapM f l = Ok l' -> List.length l' = List.length l.
  Proof.
    revert l'. induction l as [|x l IH]; intros l'; cbn.
    - intros [= <-]; reflexivity.
    - destruct (f x); [|discriminate]. cbn. destruct (mapM f l); [|discriminate].
      cbn. intros [= <-]. cbn. f_equal. apply IH. reflexivity.
  Qed.

  Lemma new_inv d st o0 : Petrosian_new d st = Ok o0 ->
    p_data o0 = d /\
    List.length (d_flux d) = List.length (d_r d) /\
    List.length (p_list o0) = List.length (d_r d) /\
    (forall e, p_err o0 = Some e -> List.length e = List.length (d_r d)) /\
    (forall e, d_flux_err d = Some e -> List.length e = List.length (d_r d)) /\
    (p_err o0 = None <-> d_area_err d = None /\ d_flux_err d = None).
  Proof.
    unfold Petrosian_new, validate_input_arrays, assert_, bind.
    destruct (Nat.ltb 2 (List.length (d_r d))); [|discriminate].
    destruct (Nat.eqb (List.length (d_r d)) (List.length (d_flux d))) eqn:E1; [|discriminate].
    apply Nat.eqb_eq in E1.
    destruct (match d_flux_err d with None => true | Some e => Nat.eqb (List.length (d_flux d)) (List.length e) end) eqn:E2; [|discriminate].
    destruct (match d_area_err d with None => true | Some e => Nat.eqb (List.length (d_area d)) (List.length e) end); [|discriminate].
    assert (Hfe : forall e, d_flux_err d = Some e -> List.length e = List.length (d_r d)).
    { intros e He. rewrite He in E2. apply Nat.eqb_eq in E2. congruence. }
    unfold calculate_petrosian, assert_, bind.
    destruct (Nat.eqb (List.length (d_area d)) (List.length (d_flux d))) eqn:E3; [|discriminate].
    apply Nat.eqb_eq in E3.
    destruct (Nat.ltb 2 (List.length (d_area d))); [|discriminate].
    destruct (forallb (fun x => nleb n0 x) (diff (d_area d))); [|discriminate].
    destruct (gather (nnan :: map2 ndiv (I_at (d_dtype d) (d_area d) (d_flux d)) (I_avg (d_area d) (d_flux d))) (ranks (d_area d))) as [petro|] eqn:Eg; [|discriminate].
    assert (Hp : List.length petro = List.length (d_r d)).
    { apply mapM_length in Eg. rewrite L_Petrosian.length_ranks in Eg. congruence. }
    destruct (d_area_err d) as [ae|] eqn:Ea, (d_flux_err d) as [fe|] eqn:Ef.
    4: { intros [= <-]. cbn. repeat split; auto; try discriminate. }
    all: destruct (Nat.eqb _ (List.length (d_area d))); [|discriminate].
    all: destruct (Nat.eqb _ (List.length (d_flux d))); [|discriminate].
    all: destruct (d_dtype d); [|discriminate].
    all: match goal with |- context[gather ?a ?b] => destruct (gather a b) as [pe|] eqn:Eg2; [|discriminate] end.
    all: intros [= <-]; cbn; split; [reflexivity|]; split; [auto|]; split; [exact Hp|].
    all: split; [intros e [= <-]; apply mapM_length in Eg2; rewrite L_Petrosian.length_ranks in Eg2; congruence|].
    all: split; [intros e He; first [discriminate He|apply Hfe; exact He]|].
    all: split; [discriminate|intros [? ?]; discriminate].
  Qed.

  Lemma built_inv o : built o ->
    List.length (d_flux (p_data o)) = List.length (d_r (p_data o)) /\
    List.length (p_list o) = List.length (d_r (p_data o)) /\
    (forall e, p_err o = Some e -> List.length e = List.length (d_r (p_data o))) /\
    (forall e, d_flux_err (p_data o) = Some e -> List.length e = List.length (d_r (p_data o))) /\
    (p_err o = None <-> d_area_err (p_data o) = None /\ d_flux_err (p_data o) = None).
  Proof.
    intros (d & st & o0 & H & Hd & Hl & He). apply new_inv in H.
    destruct H as (Ed & H). rewrite Hl, He, Hd, Ed. exact H.
  Qed.

  Lemma np_map2_same f (a b : list T) : List.length b = List.length a -> np_map2 f a b = Ok (map2 f a b).
  Proof. intros H. unfold np_map2. rewrite H, Nat.eqb_refl. reflexivity. Qed.

  Lemma plot_drawn o plot_r title unit ax ea lg s a s' : built o ->
    plot mk o plot_r title unit ax ea lg s = (Ok a, s') ->
    let eta := s_eta (p_set o) in
    exists rp re d,
      obj_r_petrosian mk o = Ok rp /\ obj_r_petrosian_err mk o = Ok re /\ emitted s s' d /\
      a = on ax s /\ cv_cur s' = cv_cur s /\
      (forall b c, In (b, c) d -> b = a \/ (b = cv_cur s /\ c = Ticks true)) /\
      (forall b m, In (b, Ticks m) d <-> b = cv_cur s /\ m = true) /\
      (forall x y e, In (a, Errorbar x y e) d <-> x = d_r (p_data o) /\ y = p_list o /\ e = p_err o) /\
      (forall x l, In (a, VLine x l) d <->
         plot_r = true /\ nisnan rp = false /\ x = rp /\ l = L_rp eta rp (unit_text unit)) /\
      (forall y, In (a, HLine y) d <-> y = n0 \/ plot_r = true /\ y = eta) /\
      (forall x y e, In (a, PointErr x y e) d <->
         plot_r = true /\ nisnan rp = false /\ nisnan re = false /\ x = rp /\ y = eta /\ e = re) /\
      (forall x y, In (a, Point x y) d <->
         plot_r = true /\ nisnan rp = false /\ nisnan re = true /\ x = rp /\ y = eta) /\
      (forall x lo hi, In (a, Fill x lo hi) d <-> shaded ea /\ exists e, p_err o = Some e /\
         x = d_r (p_data o) /\ lo = map2 nsub (p_list o) e /\ hi = map2 nadd (p_list o) e) /\
      (forall t, In (a, XLabel t) d <-> t = radius_axis unit) /\
      (forall t, In (a, Title t) d <-> t = title) /\
      (In (a, Legend) d <-> lg = true).
  Proof.
    intros B. apply built_inv in B. destruct B as (_ & B1 & B2 & _ & _).
    unfold plot. rewrite unit_label.
    assert (Hs : forall (x lo hi : list T), (shaded ea /\ exists e, p_err o = Some e /\
         x = d_r (p_data o) /\ lo = map2 nsub (p_list o) e /\ hi = map2 nadd (p_list o) e) <->
         shade ea o = true /\ exists e, p_err o = Some e /\
         x = d_r (p_data o) /\ lo = map2 nsub (p_list o) e /\ hi = map2 nadd (p_list o) e).
    { intros x lo hi. rewrite shade_spec. unfold has_errors. split; intros H.
      - destruct H as [H (e & E & H')]. split; [split; [exact H|congruence]|]. eauto.
      - destruct H as [[H _] H']. auto. }
    setoid_rewrite Hs. clear Hs.
    unfold dbind at 1. rewrite axes_of.
    generalize (on ax s) as b. intros b.
    unfold errorbar, fill_between, point_err, dbind, dlift, put, when, mpl_tick_frame, gca, dret.
    destruct (match p_err o with None => false | Some e => negative e end); [discriminate|].
    cbn [cv_cur cv_next cv_trace].
    destruct (shade ea o) eqn:Es.
    1: destruct (p_err o) as [e|] eqn:Ee; [|discriminate].
    1: specialize (B2 e eq_refl).
    1: rewrite !np_map2_same by congruence.
    all: cbn [cv_cur cv_next cv_trace].
    all: destruct (obj_r_petrosian mk o) as [rp|]; [|discriminate].
    all: destruct (obj_r_petrosian_err mk o) as [re|]; [|discriminate].
    all: destruct plot_r; [destruct (nisnan rp) eqn:En; [|destruct (nisnan re) eqn:Er; [|destruct (negative [re]) eqn:Eg]]|].
    all: destruct lg; cbn; try discriminate.
    all: intros [= <- <-]; exists rp, re; eexists; split; [reflexivity|split; [reflexivity|]].
    all: split; [unfold emitted; cbn [cv_trace]; norm; reflexivity|].
    all: split; [reflexivity|split; [reflexivity|]].
    all: split; [intros ? ? H; split_in H; auto|].
    all: repeat (split; [intros; mem|]).
    all: try mem.
    all: try (eexists; repeat split; reflexivity).
    all: try (destruct H0 as (e0 & [= <-] & -> & -> & ->); in_easy).
  Qed.
End Generic.
