(** Proofs about the correction grid: ranges, epsilon, copies, generation. *)
From Coq Require Import String Classical Permutation Sorted.
From Verif Require Import Base Num Numpy M_Utils L_Numpy M_Petrosian S_Petrosian L_Photometry
  M_Heap S_PetObj L_PetObj M_Correction M_CorHeap S_Correction L_Correction.
Local Open Scope list_scope.

(** ** ranges (C28) *)

Lemma any_nan_fin l : any_nan (map Fin l) = false.
Proof. induction l; auto. Qed.

Lemma in_range_fin l v : l <> [] ->
  exists b, in_range (map Fin l) v = Ok b /\ (b = true <-> between l v).
Proof.
  intros Hl. unfold in_range, npmin, npmax.
  destruct (pymin_fin l Hl) as (lo & -> & Hlo1 & Hlo2). destruct (pymax_fin l Hl) as (hi & -> & Hhi1 & Hhi2).
  cbn [bind]. rewrite !any_nan_fin. eexists. split; [reflexivity|].
  rewrite andb_true_iff. unfold between. split.
  - intros [H1 H2]. destruct v as [| | |v]; cbn in H1, H2; try discriminate.
    apply Rleb_iff in H1. apply Rleb_iff in H2.
    destruct (In_nth l lo 0%R Hlo1) as (i & Hi & Ei). destruct (In_nth l hi 0%R Hhi1) as (j & Hj & Ej).
    exists v, i, j. unfold at_. rewrite Ei, Ej. auto.
  - intros (v' & i & j & -> & Hi & Hj & H1 & H2). cbn.
    pose proof (Hlo2 _ (at_in l i Hi)). pose proof (Hhi2 _ (at_in l j Hj)).
    rewrite !Rleb_true by lra. auto.
Qed.

Section Range.
  Variables (t : table xr) (e : bool) (c : correction xr) (X Y Z : list R).
  Hypothesis Hc : PetrosianCorrection_new (GTable t) e = Ok c.
  Hypothesis HX : column t "p02" = Ok (map Fin X).
  Hypothesis HY : column t "u_r_50" = Ok (map Fin Y).
  Hypothesis HZ : column t "u_c2080" = Ok (map Fin Z).
  Hypothesis Hrows : t_rows t <> [].

  Lemma nonempty_cols : X <> [] /\ Y <> [] /\ Z <> [].
  Proof.
    destruct (lens t X Y Z HX HY HZ) as (H1 & H2 & H3).
    destruct (t_rows t); [congruence|]. repeat split; intros ->; discriminate.
  Qed.

  Lemma dr_length x0 y0 z0 : List.length (dr c x0 y0 z0) = List.length (t_rows t).
  Proof.
    destruct (cols t e c X Y Z Hc HX HY HZ) as (_ & _ & Ex & Ey & Ez).
    destruct (lens t X Y Z HX HY HZ) as (H1 & H2 & H3).
    unfold dr. rewrite Ex, Ey, Ez, !length_map2, !map_length. lia.
  Qed.

  Lemma argmin_some x0 y0 z0 : exists k, argmin (dr c x0 y0 z0) = Some k /\ k < List.length (t_rows t).
  Proof.
    destruct (argmin (dr c x0 y0 z0)) as [k|] eqn:E.
    - exists k. split; auto. rewrite <- (dr_length x0 y0 z0). now apply argmin_bound.
    - apply argmin_None in E. pose proof (dr_length x0 y0 z0) as H. rewrite E in H.
      destruct (t_rows t); [congruence|discriminate].
  Qed.

  Lemma enforced x0 y0 z0 : e = true ->
    (between X x0 /\ between Y y0 /\ between Z z0 ->
       exists k, closest_row c x0 y0 z0 = Ok k /\ k < List.length (t_rows t)) /\
    (~ (between X x0 /\ between Y y0 /\ between Z z0) -> closest_row c x0 y0 z0 = Err AssertionError).
  Proof.
    intros Et. destruct (cols t e c X Y Z Hc HX HY HZ) as (_ & Ee & Ex & Ey & Ez). rewrite Et in Ee.
    destruct nonempty_cols as (NX & NY & NZ).
    destruct (argmin_some x0 y0 z0) as (k & Ek & Hk).
    unfold closest_row. rewrite Ee, Ek. unfold validate_input. rewrite Ex, Ey, Ez.
    destruct (in_range_fin X x0 NX) as (bx & -> & Bx). destruct (in_range_fin Y y0 NY) as (by_ & -> & By).
    destruct (in_range_fin Z z0 NZ) as (bz & -> & Bz). cbn [bind].
    split.
    - intros (H1 & H2 & H3). apply Bx in H1. apply By in H2. apply Bz in H3. subst.
      cbn. eauto.
    - intros H. destruct bx; [|reflexivity]. destruct by_; [|reflexivity]. destruct bz; [|reflexivity].
      exfalso. apply H. repeat split; [apply Bx|apply By|apply Bz]; auto.
  Qed.

  Lemma unenforced x0 y0 z0 : e = false ->
    (exists k, closest_row c x0 y0 z0 = Ok k /\ k < List.length (t_rows t)) /\
    (x0 = NaN \/ y0 = NaN \/ z0 = NaN -> closest_row c x0 y0 z0 = Ok 0).
  Proof.
    intros Et. destruct (cols t e c X Y Z Hc HX HY HZ) as (_ & Ee & Ex & Ey & Ez). rewrite Et in Ee.
    destruct (argmin_some x0 y0 z0) as (k & Ek & Hk).
    unfold closest_row. rewrite Ee. cbn [bind]. split; [rewrite Ek; eauto|].
    intros H. destruct nonempty_cols as (NX & NY & NZ).
    assert (E : argmin (dr c x0 y0 z0) = Some 0).
    { apply argmin_nan; [|intros; lia].
      unfold dr. rewrite Ex, Ey, Ez.
      destruct X as [|a X']; [congruence|]. destruct Y as [|b Y']; [congruence|]. destruct Z as [|d Z']; [congruence|].
      cbn [map map2 nth_error]. f_equal. cbn [fst snd].
      generalize (std (Fin a :: map Fin X')) (std (Fin b :: map Fin Y')) (std (Fin d :: map Fin Z')).
      intros s1 s2 s3.
      assert (K1 : forall s v, ndiv (nmul (nofZ 100) (nsub (Fin v) NaN)) s = (NaN : xr)) by reflexivity.
      assert (K2 : forall x : xr, nadd x NaN = (NaN : xr)) by (intros []; reflexivity).
      assert (K3 : forall x : xr, nadd NaN x = (NaN : xr)) by (intros []; reflexivity).
      destruct H as [->|[->| ->]]; rewrite K1; cbn [nmul XRnum xmul].
      - now rewrite !K3.
      - now rewrite K2, K3.
      - now rewrite K2. }
    now rewrite E.
  Qed.
End Range.

(** ** an exact match selects a row with the same values (C27) *)
Section Match.
  Variables (t : table xr) (e : bool) (c : correction xr) (X Y Z : list R).
  Hypothesis Hc : PetrosianCorrection_new (GTable t) e = Ok c.
  Hypothesis HX : column t "p02" = Ok (map Fin X).
  Hypothesis HY : column t "u_r_50" = Ok (map Fin Y).
  Hypothesis HZ : column t "u_c2080" = Ok (map Fin Z).

  Lemma exact_match i : nonconstant X -> nonconstant Y -> nonconstant Z -> i < List.length (t_rows t) ->
    exists k, closest_row c (Fin (at_ X i)) (Fin (at_ Y i)) (Fin (at_ Z i)) = Ok k /\
      k <= i /\ at_ X k = at_ X i /\ at_ Y k = at_ Y i /\ at_ Z k = at_ Z i.
  Proof.
    intros NX NY NZ Hi. destruct (lens t X Y Z HX HY HZ) as (L1 & L2 & L3).
    assert (Hr : t_rows t <> []) by (destruct (t_rows t); [cbn in Hi; lia|discriminate]).
    assert (Hk : exists k, closest_row c (Fin (at_ X i)) (Fin (at_ Y i)) (Fin (at_ Z i)) = Ok k).
    { destruct e eqn:Ee.
      - destruct (enforced t e c X Y Z) with (x0 := Fin (at_ X i)) (y0 := Fin (at_ Y i)) (z0 := Fin (at_ Z i)) as [H _]; rewrite ?Ee; auto.
        destruct H as (k & Hk & _); eauto.
        repeat split; [exists (at_ X i)|exists (at_ Y i)|exists (at_ Z i)]; exists i, i;
          repeat split; auto; try lia; lra.
      - destruct (unenforced t e c X Y Z) with (x0 := Fin (at_ X i)) (y0 := Fin (at_ Y i)) (z0 := Fin (at_ Z i)) as [(k & H & _) _];
          rewrite ?Ee; eauto. }
    destruct Hk as [k Hk]. exists k. split; auto.
    destruct (nearest t e c X Y Z Hc HX HY HZ _ _ _ k NX NY NZ Hk) as (Kb & Kmin & Kfirst).
    assert (D0 : row_distance X Y Z (at_ X i) (at_ Y i) (at_ Z i) i = 0%R)
      by (apply distance_zero; auto).
    pose proof (Kmin i Hi) as K. rewrite D0 in K.
    pose proof (row_distance_nonneg X Y Z (at_ X i) (at_ Y i) (at_ Z i) k) as P.
    assert (Dk : row_distance X Y Z (at_ X i) (at_ Y i) (at_ Z i) k = 0%R) by lra.
    split.
    - destruct (le_lt_dec k i); auto. pose proof (Kfirst i l). lra.
    - now apply distance_zero in Dk.
  Qed.
End Match.

(** ** epsilon of a row (C29) *)

Lemma col_index_ok {T} {N : Num T} (t : table T) name c : t_names t = column_names ->
  find_index (String.eqb name) column_names = Some c -> col_index t name = Some c.
Proof. intros E H. unfold col_index. now rewrite E. Qed.

Lemma neqb_lit a b x : (IZR b <> 0)%R -> neqb x (nlit a b : xr) = true <-> x = Fin (IZR a / IZR b).
Proof.
  intros Hb. unfold nlit. cbn [ndiv nofZ XRnum]. rewrite xdiv_fin by auto.
  destruct x as [| | |r]; cbn; split; try discriminate; try (intros; congruence).
  - intros H. apply Reqb_iff in H. now subst.
  - intros H. injection H as ->. now apply Reqb_iff.
Qed.

Lemma neqb_lit_ne a b x : (IZR b <> 0)%R -> x <> Fin (IZR a / IZR b) -> neqb x (nlit a b : xr) = false.
Proof.
  intros Hb Hx. destruct (neqb x (nlit a b)) eqn:E; auto. apply neqb_lit in E; auto. congruence.
Qed.

Lemma eta_key_spec eta : (forall name, eta_key eta = Some name <-> eta_col eta name).
Proof.
  intros name. unfold eta_key, eta_col.
  destruct (neqb eta (nlit 1 5)) eqn:E1.
  { apply neqb_lit in E1; [|lra]. subst. split; [intros H; injs; auto|].
    intros [[_ ->]|[[H _]|[[H _]|[H _]]]]; auto; injection H; intros; lra. }
  destruct (neqb eta (nlit 3 10)) eqn:E2.
  { apply neqb_lit in E2; [|lra]. subst. split; [intros H; injs; auto|].
    intros [[H _]|[[_ ->]|[[H _]|[H _]]]]; auto; injection H; intros; lra. }
  destruct (neqb eta (nlit 2 5)) eqn:E3.
  { apply neqb_lit in E3; [|lra]. subst. split; [intros H; injs; auto|].
    intros [[H _]|[[H _]|[[_ ->]|[H _]]]]; auto; injection H; intros; lra. }
  destruct (neqb eta (nlit 1 2)) eqn:E4.
  { apply neqb_lit in E4; [|lra]. subst. split; [intros H; injs; auto|].
    intros [[H _]|[[H _]|[[H _]|[_ ->]]]]; auto; injection H; intros; lra. }
  split; [discriminate|].
  intros [[-> _]|[[-> _]|[[-> _]|[-> _]]]]; exfalso.
  - assert (neqb (Fin (1/5)) (nlit 1 5 : xr) = true) by (apply neqb_lit; [lra|reflexivity]). congruence.
  - assert (neqb (Fin (3/10)) (nlit 3 10 : xr) = true) by (apply neqb_lit; [lra|reflexivity]). congruence.
  - assert (neqb (Fin (2/5)) (nlit 2 5 : xr) = true) by (apply neqb_lit; [lra|reflexivity]). congruence.
  - assert (neqb (Fin (1/2)) (nlit 1 2 : xr) = true) by (apply neqb_lit; [lra|reflexivity]). congruence.
Qed.

Lemma epsilon_ok (t : table xr) i f eta fname ename a b :
  t_names t = column_names -> i < List.length (t_rows t) ->
  fraction_col f fname -> eta_col eta ename -> cell t i fname = Ok a -> cell t i ename = Ok b ->
  epsilon_of_row t i f eta = Ok (xdiv a b).
Proof.
  intros Hn Hi Hf He Ha Hb. unfold epsilon_of_row.
  rewrite neqb_lit_ne by (try lra; destruct Hf as [[-> _]|[-> _]]; intros H; injection H; lra).
  apply eta_key_spec in He. rewrite He.
  destruct Hf as [[-> ->]|[-> ->]].
  - replace (neqb (Fin (4/5)) (nlit 4 5 : xr)) with true by (symmetry; apply neqb_lit; [lra|reflexivity]).
    rewrite Ha. cbn [bind]. rewrite Hb. reflexivity.
  - rewrite neqb_lit_ne by (try lra; intros H; injection H; lra).
    replace (neqb (Fin (99/100)) (nlit 99 100 : xr)) with true by (symmetry; apply neqb_lit; [lra|reflexivity]).
    rewrite Ha. cbn [bind]. rewrite Hb. reflexivity.
Qed.

Lemma epsilon_half (t : table xr) i eta :
  t_names t = column_names -> i < List.length (t_rows t) ->
  epsilon_of_row t i (Fin (1/2)) eta = Err KeyError.
Proof.
  intros Hn Hi. unfold epsilon_of_row.
  replace (neqb (Fin (1/2)) (nlit 1 2 : xr)) with true by (symmetry; apply neqb_lit; [lra|reflexivity]).
  unfold cell. destruct (nth_error (t_rows t) i) eqn:E; [|apply nth_error_None in E; lia].
  unfold col_index. rewrite Hn. reflexivity.
Qed.

Lemma cell_names {T} {N : Num T} (t : table T) i name : t_names t = column_names ->
  i < List.length (t_rows t) -> In name column_names -> exists a, cell t i name = Ok a.
Proof.
  intros Hn Hi Hin. unfold cell. destruct (nth_error (t_rows t) i) eqn:E; [|apply nth_error_None in E; lia].
  unfold col_index. rewrite Hn. destruct (find_index (String.eqb name) column_names) eqn:F; [eauto|].
  exfalso. rewrite find_index_None in F. specialize (F name Hin). rewrite String.eqb_refl in F. discriminate.
Qed.

Lemma epsilon_bad (t : table xr) i f eta :
  t_names t = column_names -> i < List.length (t_rows t) -> f <> Fin (1/2) ->
  (forall n, ~ fraction_col f n) \/ (forall n, ~ eta_col eta n) ->
  epsilon_of_row t i f eta = Err ValueError.
Proof.
  intros Hn Hi Hf H. unfold epsilon_of_row.
  rewrite neqb_lit_ne by (auto; lra).
  destruct (neqb f (nlit 4 5)) eqn:E1; [|destruct (neqb f (nlit 99 100)) eqn:E2; [|reflexivity]].
  - apply neqb_lit in E1; [|lra]. destruct (cell_names t i "c_r_80" Hn Hi) as [a ->]; [cbn; tauto|]. cbn [bind].
    destruct (eta_key eta) as [n|] eqn:K; [|reflexivity]. apply eta_key_spec in K.
    exfalso. destruct H as [H|H]; [apply (H "c_r_80"%string); left; auto|now apply (H n)].
  - apply neqb_lit in E2; [|lra]. destruct (cell_names t i "c_r_99" Hn Hi) as [a ->]; [cbn; tauto|]. cbn [bind].
    destruct (eta_key eta) as [n|] eqn:K; [|reflexivity]. apply eta_key_spec in K.
    exfalso. destruct H as [H|H]; [apply (H "c_r_99"%string); right; auto|now apply (H n)].
Qed.
