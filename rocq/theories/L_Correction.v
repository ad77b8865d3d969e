(** Proofs about the correction grid: nearest row, ranges, epsilon. *)
From Coq Require Import String Classical Permutation.
From Verif Require Import Base Num Numpy M_Utils L_Numpy M_Petrosian S_Petrosian L_Photometry
  M_Correction S_Correction.
Local Open Scope list_scope.

Lemma total_rsum l : total l = rsum l.
Proof. induction l; cbn; congruence. Qed.

Lemma nlen_fin l : nlen (map Fin l) = Fin (INR (List.length l)).
Proof. unfold nlen, nofnat. cbn. now rewrite map_length, INR_IZR_INZ. Qed.

Lemma mean_fin l : l <> [] -> mean (map Fin l) = Fin (average l).
Proof.
  intros H. unfold mean. rewrite nsum_fin, nlen_fin. cbn [ndiv XRnum]. rewrite xdiv_fin.
  - reflexivity.
  - destruct l; [congruence|]. apply not_0_INR. discriminate.
Qed.

Lemma rsum_nonneg l : (forall x, In x l -> (0 <= x)%R) -> (0 <= rsum l)%R.
Proof.
  induction l as [|x l IH]; cbn; intros H; [lra|].
  pose proof (H x (or_introl eq_refl)). pose proof (IH (fun y Hy => H y (or_intror Hy))). lra.
Qed.

Lemma average_nonneg l : l <> [] -> (forall x, In x l -> (0 <= x)%R) -> (0 <= average l)%R.
Proof.
  intros Hl H. unfold average. change (total l) with (rsum l).
  apply Rmult_le_pos; [now apply rsum_nonneg|]. left. apply Rinv_0_lt_compat.
  apply lt_0_INR. destruct l; [congruence|cbn; lia].
Qed.

Lemma std_fin l : l <> [] -> std (map Fin l) = Fin (deviation l).
Proof.
  intros H. unfold std. rewrite mean_fin by auto. rewrite map_map.
  change (map (fun x => nmul (nsub (Fin x) (Fin (average l))) (nsub (Fin x) (Fin (average l)))) l)
    with (map (fun x => Fin ((x + - average l) * (x + - average l))) l).
  rewrite <- (map_map (fun x => ((x + - average l) * (x + - average l))%R) Fin), nsum_fin.
  rewrite nlen_fin. cbn [ndiv nsqrt XRnum].
  assert (Hn : INR (List.length l) <> 0%R) by (destruct l; [congruence|]; apply not_0_INR; discriminate).
  rewrite xdiv_fin by auto. rewrite xsqrt_fin.
  - unfold deviation. set (m := average l). unfold average. rewrite map_length. reflexivity.
  - apply Rmult_le_pos.
    + apply rsum_nonneg. intros x Hx. apply in_map_iff in Hx. destruct Hx as (y & <- & _). apply Rle_0_sqr.
    + left. apply Rinv_0_lt_compat. apply lt_0_INR. destruct l; [congruence|cbn; lia].
Qed.

Lemma rsum_zero l : (forall x, In x l -> (0 <= x)%R) -> rsum l = 0%R -> forall x, In x l -> x = 0%R.
Proof.
  induction l as [|a l IH]; cbn; intros H E x Hx; [tauto|].
  pose proof (H a (or_introl eq_refl)). pose proof (rsum_nonneg l (fun y Hy => H y (or_intror Hy))).
  destruct Hx as [<-|Hx]; [lra|]. apply IH; auto. lra.
Qed.

Lemma at_in l i : i < List.length l -> In (at_ l i) l.
Proof. intros. now apply nth_In. Qed.

Lemma deviation_pos l : nonconstant l -> (0 < deviation l)%R.
Proof.
  intros (i & j & Hi & Hj & Hij).
  assert (Hl : l <> []) by (destruct l; [cbn in *; lia|discriminate]).
  set (q := map (fun x => ((x - average l) * (x - average l))%R) l).
  assert (Hq : forall x, In x q -> (0 <= x)%R).
  { intros x Hx. apply in_map_iff in Hx. destruct Hx as (y & <- & _). apply Rle_0_sqr. }
  assert (Hql : q <> []) by (unfold q; destruct l; [congruence|discriminate]).
  apply sqrt_lt_R0. fold q.
  destruct (Rle_lt_or_eq_dec 0 (average q) (average_nonneg q Hql Hq)) as [H|H]; auto.
  exfalso. unfold average in H. change (total q) with (rsum q) in H.
  assert (Hn : INR (List.length q) <> 0%R) by (destruct q; [congruence|]; apply not_0_INR; discriminate).
  assert (E : rsum q = 0%R).
  { apply Rmult_eq_reg_r with (/ INR (List.length q))%R; [|now apply Rinv_neq_0_compat].
    unfold Rdiv in H. lra. }
  assert (Z : forall k, k < List.length l -> at_ l k = average l).
  { intros k Hk. assert (K : ((at_ l k - average l) * (at_ l k - average l) = 0)%R).
    { apply (rsum_zero q Hq E). unfold q. apply (in_map (fun x => ((x - average l) * (x - average l))%R)).
      now apply at_in. }
    apply Rmult_integral in K. lra. }
  apply Hij. rewrite !Z; auto.
Qed.

(** ** distances *)

Lemma nth_error_at l i : i < List.length l -> nth_error l i = Some (at_ l i).
Proof. intros H. unfold at_. now apply nth_error_nth'. Qed.

Lemma dr_fin c X Y Z x0 y0 z0 :
  c_x c = map Fin X -> c_y c = map Fin Y -> c_z c = map Fin Z ->
  List.length X = List.length Y -> List.length X = List.length Z ->
  nonconstant X -> nonconstant Y -> nonconstant Z ->
  List.length (dr c (Fin x0) (Fin y0) (Fin z0)) = List.length X /\
  forall i, i < List.length X ->
    nth_error (dr c (Fin x0) (Fin y0) (Fin z0)) i
    = Some (Fin (100 * sqrt (row_distance X Y Z x0 y0 z0 i))).
Proof.
  intros Ex Ey Ez L1 L2 NX NY NZ. unfold dr. rewrite Ex, Ey, Ez.
  assert (nonempty : forall l, nonconstant l -> l <> []).
  { intros l (i & _ & H & _) ->. cbn in H. lia. }
  rewrite !std_fin by auto.
  pose proof (deviation_pos X NX). pose proof (deviation_pos Y NY). pose proof (deviation_pos Z NZ).
  split; [rewrite !length_map2, !map_length; lia|].
  intros i Hi. rewrite !nth_error_map2, !nth_error_map.
  rewrite !nth_error_at by lia. cbn [option_map].
  cbn [nsub nmul XRnum xsub xopp xadd xmul nofZ ndiv]. rewrite !xdiv_fin by lra.
  cbn [fst snd nadd nsqrt XRnum xadd xmul]. f_equal.
  set (a := ((at_ X i - x0) / deviation X)%R). set (b := ((at_ Y i - y0) / deviation Y)%R).
  set (d := ((at_ Z i - z0) / deviation Z)%R).
  match goal with |- xsqrt (Fin ?e) = _ => replace e with (100 * 100 * row_distance X Y Z x0 y0 z0 i)%R end.
  - assert (Hd : (0 <= row_distance X Y Z x0 y0 z0 i)%R).
    { unfold row_distance. fold a b d. pose proof (Rle_0_sqr a). pose proof (Rle_0_sqr b).
      pose proof (Rle_0_sqr d). unfold Rsqr in *. lra. }
    rewrite xsqrt_fin by lra. f_equal. rewrite sqrt_mult by lra. now rewrite sqrt_square by lra.
  - unfold row_distance. fold a b d.
    replace (100 * (at_ X i + - x0) / deviation X)%R with (100 * a)%R by (unfold a; field; lra).
    replace (100 * (at_ Y i + - y0) / deviation Y)%R with (100 * b)%R by (unfold b; field; lra).
    replace (100 * (at_ Z i + - z0) / deviation Z)%R with (100 * d)%R by (unfold d; field; lra).
    ring.
Qed.

Lemma row_distance_nonneg X Y Z x0 y0 z0 i : (0 <= row_distance X Y Z x0 y0 z0 i)%R.
Proof.
  unfold row_distance. cbv zeta.
  repeat apply Rplus_le_le_0_compat; apply Rle_0_sqr.
Qed.

Lemma new_columns {T} {N : Num T} (t : table T) e c : PetrosianCorrection_new (GTable t) e = Ok c ->
  c_grid c = t /\ c_enforce c = e /\
  column t "p02" = Ok (c_x c) /\ column t "u_r_50" = Ok (c_y c) /\ column t "u_c2080" = Ok (c_z c).
Proof.
  intros H. cbn in H. apply bind_Ok in H. destruct H as (x & Hx & H).
  apply bind_Ok in H. destruct H as (y & Hy & H). apply bind_Ok in H. destruct H as (z & Hz & H).
  injection H as <-. cbn. auto.
Qed.

Lemma column_length {T} {N : Num T} (t : table T) n l : column t n = Ok l -> List.length l = List.length (t_rows t).
Proof.
  unfold column. destruct (col_index t n); [|discriminate]. intros H. injection H as <-.
  now rewrite map_length.
Qed.

Section Nearest.
  Variables (t : table xr) (e : bool) (c : correction xr) (X Y Z : list R).
  Hypothesis Hc : PetrosianCorrection_new (GTable t) e = Ok c.
  Hypothesis HX : column t "p02" = Ok (map Fin X).
  Hypothesis HY : column t "u_r_50" = Ok (map Fin Y).
  Hypothesis HZ : column t "u_c2080" = Ok (map Fin Z).

  Lemma cols : c_grid c = t /\ c_enforce c = e /\ c_x c = map Fin X /\ c_y c = map Fin Y /\ c_z c = map Fin Z.
  Proof.
    destruct (new_columns t e c Hc) as (H1 & H2 & H3 & H4 & H5).
    rewrite HX in H3. rewrite HY in H4. rewrite HZ in H5.
    injection H3 as <-. injection H4 as <-. injection H5 as <-. auto.
  Qed.
  Lemma lens : List.length X = List.length (t_rows t) /\ List.length Y = List.length (t_rows t) /\
    List.length Z = List.length (t_rows t).
  Proof.
    apply column_length in HX. apply column_length in HY. apply column_length in HZ.
    rewrite map_length in *. auto.
  Qed.

  Lemma fins_inj (A B : list R) : map Fin A = map Fin B -> A = B.
  Proof.
    revert B. induction A as [|a A IH]; intros [|b B] H; try discriminate; auto.
    injection H as -> H. now rewrite (IH B H).
  Qed.

  Lemma nearest x0 y0 z0 k :
    nonconstant X -> nonconstant Y -> nonconstant Z ->
    closest_row c (Fin x0) (Fin y0) (Fin z0) = Ok k ->
    k < List.length (t_rows t) /\
    (forall j, j < List.length (t_rows t) -> (row_distance X Y Z x0 y0 z0 k <= row_distance X Y Z x0 y0 z0 j)%R) /\
    (forall j, j < k -> (row_distance X Y Z x0 y0 z0 k < row_distance X Y Z x0 y0 z0 j)%R).
  Proof.
    intros NX NY NZ H. destruct cols as (E1 & E2 & Ex & Ey & Ez). destruct lens as (L1 & L2 & L3).
    destruct (dr_fin c X Y Z x0 y0 z0 Ex Ey Ez) as (Hl & Hn); auto; try lia.
    unfold closest_row in H. apply bind_Ok in H. destruct H as (u & _ & H).
    destruct (argmin _) as [k'|] eqn:Ea; [|discriminate]. injection H as ->.
    assert (Hok : Forall xok (dr c (Fin x0) (Fin y0) (Fin z0))).
    { apply Forall_forall. intros x Hx. apply In_nth_error in Hx. destruct Hx as (i & Hi).
      assert (i < List.length X) by (rewrite <- Hl; apply nth_error_Some; congruence).
      rewrite Hn in Hi by auto. injection Hi as <-. discriminate. }
    pose proof (argmin_bound _ _ Ea) as Hb. rewrite Hl in Hb.
    destruct (argmin_spec _ _ Hok Ea) as (x & Hx & Hmin & Hfirst).
    rewrite Hn in Hx by auto. injection Hx as <-.
    split; [lia|]. split.
    - intros j Hj. specialize (Hmin j _ (Hn j ltac:(lia))). cbn in Hmin. unfold xle in Hmin. cbn in Hmin.
      apply Rleb_iff in Hmin. apply Rnot_lt_le. intros Hlt.
      assert (sqrt (row_distance X Y Z x0 y0 z0 j) < sqrt (row_distance X Y Z x0 y0 z0 k))%R
        by (apply sqrt_lt_1; auto using row_distance_nonneg). lra.
    - intros j Hj. specialize (Hfirst j _ Hj (Hn j ltac:(lia))). unfold xlt in Hfirst. cbn in Hfirst.
      apply Rltb_iff in Hfirst. apply Rnot_le_lt. intros Hle.
      assert (sqrt (row_distance X Y Z x0 y0 z0 j) <= sqrt (row_distance X Y Z x0 y0 z0 k))%R
        by (apply sqrt_le_1; auto using row_distance_nonneg). lra.
  Qed.

  Lemma distance_zero x0 y0 z0 k : nonconstant X -> nonconstant Y -> nonconstant Z ->
    (row_distance X Y Z x0 y0 z0 k = 0 <-> at_ X k = x0 /\ at_ Y k = y0 /\ at_ Z k = z0)%R.
  Proof.
    intros NX NY NZ.
    pose proof (deviation_pos X NX). pose proof (deviation_pos Y NY). pose proof (deviation_pos Z NZ).
    unfold row_distance. cbv zeta.
    set (a := ((at_ X k - x0) / deviation X)%R). set (b := ((at_ Y k - y0) / deviation Y)%R).
    set (d := ((at_ Z k - z0) / deviation Z)%R).
    assert (K : forall u v s, (0 < s)%R -> ((u - v) / s = 0 <-> u = v)%R).
    { intros u v s Hs. split; intros E.
      - apply Rmult_integral in E. destruct E as [E|E]; [lra|].
        pose proof (Rinv_0_lt_compat s Hs). lra.
      - subst. unfold Rdiv. ring. }
    rewrite <- (K (at_ X k) x0 (deviation X)), <- (K (at_ Y k) y0 (deviation Y)), <- (K (at_ Z k) z0 (deviation Z)) by auto.
    fold a b d. split.
    - intros E. pose proof (Rle_0_sqr a). pose proof (Rle_0_sqr b). pose proof (Rle_0_sqr d).
      unfold Rsqr in *. repeat split;
      match goal with |- ?u = 0%R => assert (u * u = 0)%R as Q by lra; apply Rmult_integral in Q; tauto end.
    - intros (-> & -> & ->). ring.
  Qed.
End Nearest.
