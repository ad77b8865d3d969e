(** Combined statements and concrete cases for the correction grid. *)
From Coq Require Import String Permutation Classical.
From Verif Require Import Base Num Numpy M_Utils L_Numpy M_Petrosian S_Petrosian M_Interp M_Heap S_PetObj
  L_PetObj M_Correction M_CorHeap S_Correction L_Petrosian L_Correction L_Correction2 L_Correction3
  L_Correction4 E_Petrosian.
Local Open Scope list_scope.

(** what is measured, in terms of what a user can compute and read *)
Lemma measured {T} {N : Num T} {NL : NumLog T} (mk : kind -> list T -> list T -> result (T -> T))
    (p : petrosian T) x y z :
  get_xyz_from_p mk p = Ok (x, y, z) ->
  (exists err, calculate_petrosian_r mk (d_r (p_data p)) (p_list p) None (nlit 1 5) cubic num5000
    = Ok (x, err)) /\
  read mk p A_r_half_light = Ok (VNum y) /\ read mk p A_c2080 = Ok (VNum z).
Proof.
  unfold get_xyz_from_p. intros H.
  apply bind_Ok in H. destruct H as (p02 & H02 & H).
  do 3 (apply bind_Ok in H; destruct H as (? & _ & H)).
  apply bind_Ok in H. destruct H as (y0 & Hy & H).
  apply bind_Ok in H. destruct H as (z0 & Hz & H). injection H as <- <- <-.
  apply bind_Ok in H02. destruct H02 as ([a b] & Ha & E). cbn in E. injection E as ->.
  split; [eauto|]. cbn [read]. rewrite Hy, Hz. split; reflexivity.
Qed.

Lemma nearest_row :
  forall (mk : kind -> list xr -> list xr -> result (xr -> xr)) t e c X Y Z p k x0 y0 z0 err,
  PetrosianCorrection_new (GTable t) e = Ok c ->
  column t "p02" = Ok (map Fin X) -> column t "u_r_50" = Ok (map Fin Y) ->
  column t "u_c2080" = Ok (map Fin Z) ->
  nonconstant X -> nonconstant Y -> nonconstant Z ->
  calculate_petrosian_r mk (d_r (p_data p)) (p_list p) None (nlit 1 5) (Some KCubic) (50 * 100)
    = Ok (Fin x0, err) ->
  read mk p A_r_half_light = Ok (VNum (Fin y0)) -> read mk p A_c2080 = Ok (VNum (Fin z0)) ->
  get_corrected_row mk c p = Ok k ->
  k < List.length (t_rows t) /\
  (forall j, j < List.length (t_rows t) ->
     (row_distance X Y Z x0 y0 z0 k <= row_distance X Y Z x0 y0 z0 j)%R) /\
  (forall j, j < k -> (row_distance X Y Z x0 y0 z0 k < row_distance X Y Z x0 y0 z0 j)%R) /\
  estimate_n mk c p = cell t k "n".
Proof.
  intros mk t e c X Y Z p k x0 y0 z0 err Hc HX HY HZ NX NY NZ Hx Hy Hz H.
  assert (En : estimate_n mk c p = cell (c_grid c) k "n") by (unfold estimate_n; now rewrite H).
  unfold get_corrected_row in H. apply bind_Ok in H. destruct H as ([[x y] z] & Hm & H). cbn [fst snd] in H.
  apply measured in Hm. destruct Hm as ((err' & Mx) & My & Mz).
  assert (x = Fin x0) by (assert (Ok (x, err') = Ok (Fin x0, err)) by (rewrite <- Mx; exact Hx); congruence).
  assert (y = Fin y0) by congruence. assert (z = Fin z0) by congruence. subst x y z.
  destruct (cols t e c X Y Z Hc HX HY HZ) as (Eg & _). rewrite Eg in En.
  destruct (nearest t e c X Y Z Hc HX HY HZ x0 y0 z0 k NX NY NZ H) as (K1 & K2 & K3). auto.
Qed.

Lemma same_row :
  forall (mk : kind -> list xr -> list xr -> result (xr -> xr)) t e c X Y Z p i n,
  PetrosianCorrection_new (GTable t) e = Ok c ->
  column t "p02" = Ok (map Fin X) -> column t "u_r_50" = Ok (map Fin Y) ->
  column t "u_c2080" = Ok (map Fin Z) ->
  nonconstant X -> nonconstant Y -> nonconstant Z ->
  i < List.length (t_rows t) -> cell t i "n" = Ok n ->
  get_xyz_from_p mk p = Ok (Fin (at_ X i), Fin (at_ Y i), Fin (at_ Z i)) ->
  (exists k, get_corrected_row mk c p = Ok k /\ k <= i /\
     at_ X k = at_ X i /\ at_ Y k = at_ Y i /\ at_ Z k = at_ Z i) /\
  ((forall j, j < i -> ~ (at_ X j = at_ X i /\ at_ Y j = at_ Y i /\ at_ Z j = at_ Z i)) ->
   get_corrected_row mk c p = Ok i /\ estimate_n mk c p = Ok n).
Proof.
  intros mk t e c X Y Z p i n Hc HX HY HZ NX NY NZ Hi Hn Hm.
  destruct (exact_match t e c X Y Z Hc HX HY HZ i NX NY NZ Hi) as (k & Hk & K1 & K2).
  assert (G : get_corrected_row mk c p = Ok k) by (unfold get_corrected_row; rewrite Hm; exact Hk).
  split; [eauto|]. intros D.
  assert (k = i). { destruct (Nat.eq_dec k i); auto. exfalso. apply (D k); [lia|auto]. }
  subst k. split; auto. unfold estimate_n. rewrite G. cbn [bind].
  destruct (cols t e c X Y Z Hc HX HY HZ) as (Eg & _). now rewrite Eg.
Qed.

Lemma range_enforced :
  forall t e c X Y Z x0 y0 z0,
  PetrosianCorrection_new (GTable t) e = Ok c ->
  column t "p02" = Ok (map Fin X) -> column t "u_r_50" = Ok (map Fin Y) ->
  column t "u_c2080" = Ok (map Fin Z) -> t_rows t <> [] ->
  (e = true ->
    (between X x0 /\ between Y y0 /\ between Z z0 ->
       exists k, closest_row c x0 y0 z0 = Ok k /\ k < List.length (t_rows t)) /\
    (~ (between X x0 /\ between Y y0 /\ between Z z0) ->
       closest_row c x0 y0 z0 = Err AssertionError)) /\
  (e = false ->
    (exists k, closest_row c x0 y0 z0 = Ok k /\ k < List.length (t_rows t)) /\
    (x0 = NaN \/ y0 = NaN \/ z0 = NaN -> closest_row c x0 y0 z0 = Ok 0)).
Proof.
  intros t e c X Y Z x0 y0 z0 Hc HX HY HZ Hr. split; intros He.
  - exact (enforced t e c X Y Z Hc HX HY HZ Hr x0 y0 z0 He).
  - exact (unenforced t e c X Y Z Hc HX HY HZ Hr x0 y0 z0 He).
Qed.

Lemma NaN_not_between l : ~ between l NaN.
Proof. intros (v & i & j & E & _). discriminate. Qed.

Lemma epsilon_cases :
  forall (mk : kind -> list xr -> list xr -> result (xr -> xr)) c p k,
  t_names (c_grid c) = column_names -> k < List.length (t_rows (c_grid c)) ->
  get_corrected_row mk c p = Ok k ->
  let f := s_epsilon_fraction (p_set p) in
  let eta := s_eta (p_set p) in
  (forall fname ename, fraction_col f fname -> eta_col eta ename ->
     exists a b, cell (c_grid c) k fname = Ok a /\ cell (c_grid c) k ename = Ok b /\
       estimate_epsilon mk c p = Ok (xdiv a b)) /\
  (f = Fin (1/2) -> estimate_epsilon mk c p = Err KeyError) /\
  (f <> Fin (1/2) -> (forall n, ~ fraction_col f n) \/ (forall n, ~ eta_col eta n) ->
     estimate_epsilon mk c p = Err ValueError).
Proof.
  intros mk c p k Hn Hk Hg f eta. unfold estimate_epsilon. rewrite Hg. cbn [bind]. fold f eta.
  split; [|split].
  - intros fname ename Hf He.
    destruct (cell_names (c_grid c) k fname Hn Hk) as (a & Ha).
    { destruct Hf as [[_ ->]|[_ ->]]; cbn; tauto. }
    destruct (cell_names (c_grid c) k ename Hn Hk) as (b & Hb).
    { destruct He as [[_ ->]|[[_ ->]|[[_ ->]|[_ ->]]]]; cbn; tauto. }
    exists a, b. split; auto. split; auto. eapply epsilon_ok; eauto.
  - intros ->. now apply epsilon_half.
  - intros H1 H2. now apply epsilon_bad.
Qed.

(** ** a concrete grid *)
Definition ex_row (n p02 p05 u50 c2080 c80 c99 : R) : list xr :=
  map Fin [n; 1; 1; 1; 1; 1; p02; p02; p02; p05; 0; 0; 2; 1; 1; u50; 1; 1; 1; c2080; 1; 2; 1; 1; 1;
           c99; 1; c80; 1; 1]%R.
Definition ex_grid : table xr :=
  mktable column_names [ex_row 1 2 3 1 2 4 6; ex_row 2 4 5 2 3 8 9; ex_row 4 8 9 3 5 16 20].
Definition ex_X : list R := [2; 4; 8]%R.
Definition ex_Y : list R := [1; 2; 3]%R.
Definition ex_Z : list R := [2; 3; 5]%R.
Definition ex_cor e := mkcor ex_grid e (map Fin ex_X) (map Fin ex_Y) (map Fin ex_Z).

Lemma empty_grid {T} {N : Num T} : forall (t : table T) e c x0 y0 z0, PetrosianCorrection_new (GTable t) e = Ok c -> t_rows t = [] ->
  closest_row c x0 y0 z0 = Err ValueError.
Proof.
  intros t e c x0 y0 z0 H E. unfold PetrosianCorrection_new, column in H. rewrite E in H.
  destruct (col_index t "p02"); [|discriminate]. destruct (col_index t "u_r_50"); [|discriminate].
  destruct (col_index t "u_c2080"); [|discriminate]. cbn in H. injection H as <-.
  unfold closest_row. destruct e; reflexivity.
Qed.
Definition no_rows : table xr := mktable (t_names ex_grid) [].
Lemma no_rows_ex : exists c, PetrosianCorrection_new (GTable no_rows) true = Ok c /\ t_rows no_rows = [].
Proof. eexists. split; reflexivity. Qed.

Lemma ex_grid_ok : forall e,
  PetrosianCorrection_new (GTable ex_grid) e = Ok (ex_cor e) /\
  column ex_grid "p02" = Ok (map Fin ex_X) /\ column ex_grid "u_r_50" = Ok (map Fin ex_Y) /\
  column ex_grid "u_c2080" = Ok (map Fin ex_Z) /\
  nonconstant ex_X /\ nonconstant ex_Y /\ nonconstant ex_Z.
Proof.
  intros e. repeat split; try reflexivity; exists 0, 1; cbn; repeat split; try lia; lra.
Qed.

Lemma C27_ex : forall e, closest_row (ex_cor e) (Fin 4) (Fin 2) (Fin 3) = Ok 1.
Proof.
  intros e. destruct (ex_grid_ok e) as (H1 & H2 & H3 & H4 & N1 & N2 & N3).
  destruct (exact_match ex_grid e (ex_cor e) ex_X ex_Y ex_Z H1 H2 H3 H4 1 N1 N2 N3) as (k & K & K1 & K2 & _);
    [cbn; lia|]. cbn in K. rewrite K. f_equal.
  destruct k as [|[|k]]; auto; [|lia]. unfold at_ in K2. cbn in K2. lra.
Qed.

Lemma C28_ex :
  closest_row (ex_cor true) (Fin 9) (Fin 2) (Fin 3) = Err AssertionError /\
  closest_row (ex_cor true) (Fin 4) NaN (Fin 3) = Err AssertionError /\
  closest_row (ex_cor false) (Fin 4) NaN (Fin 3) = Ok 0.
Proof.
  destruct (ex_grid_ok true) as (H1 & H2 & H3 & H4 & _).
  destruct (ex_grid_ok false) as (H1' & _).
  split; [|split].
  - apply (proj1 (range_enforced _ _ _ _ _ _ (Fin 9) (Fin 2) (Fin 3) H1 H2 H3 H4 ltac:(discriminate)) eq_refl).
    intros ((v & i & j & E & Hi & Hj & B) & _). injection E as <-.
    assert (at_ ex_X j <= 8)%R; [|lra]. destruct j as [|[|[|j]]]; unfold at_; cbn in *; try lra; lia.
  - apply (proj1 (range_enforced _ _ _ _ _ _ (Fin 4) NaN (Fin 3) H1 H2 H3 H4 ltac:(discriminate)) eq_refl).
    intros (_ & B & _). now apply NaN_not_between in B.
  - apply (proj2 (range_enforced _ _ _ _ _ _ (Fin 4) NaN (Fin 3) H1' H2 H3 H4 ltac:(discriminate)) eq_refl).
    auto.
Qed.

Lemma C29_ex :
  epsilon_of_row ex_grid 1 (Fin (99/100)) (Fin (1/2)) = Ok (xdiv (Fin 9) (Fin 5)) /\
  epsilon_of_row ex_grid 1 (Fin (1/2)) (Fin (1/2)) = Err KeyError.
Proof.
  split.
  - apply (epsilon_ok ex_grid 1 _ _ "c_r_99" "p05"); try reflexivity; try (cbn; lia).
    + right; auto.
    + right; right; right; auto.
  - apply epsilon_half; [reflexivity|cbn; lia].
Qed.

(** ** C30 *)
Section Isolation.
  Context {T : Type} {N : Num T} {NL : NumLog T}.
  Variable mk : kind -> list T -> list T -> result (T -> T).

  Lemma isolated : forall c i w j w' p p' h,
    see w i = Some p -> w_correct mk c i w = Some (Ok j, w') -> see w' j = Some p' ->
    i <> j /\
    see (w_run w' h) i = Some (run mk p (addressed i h)) /\
    see (w_run w' h) j = Some (run mk p' (addressed j h)).
  Proof.
    intros c i w j w' p p' h Hp Hc Hp'.
    destruct (correct_spec mk c i w p Hp) as (r & w2 & E & K & M). rewrite E in Hc.
    injection Hc as -> ->.
    assert (Hi : i < List.length (w_objs w)).
    { unfold see in Hp. destruct (nth_error (w_objs w) i) eqn:En; [|discriminate].
      apply nth_error_Some. congruence. }
    destruct (estimate_epsilon mk c p) as [e|]; [|discriminate].
    destruct M as (j' & p2 & Ej & Hj & _). injection Ej as <-.
    split; [lia|]. rewrite !(see_run mk). rewrite K by auto. rewrite Hp, Hp'. auto.
  Qed.
End Isolation.
