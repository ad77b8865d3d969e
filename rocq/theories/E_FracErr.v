(** A worked error of a flux-fraction radius. *)
From Verif Require Import Base Num Numpy M_Utils M_Petrosian L_Numpy S_Utils L_Utils L_Utils3
  S_Petrosian L_Petrosian S_PetroR L_PetroR L_FracR S_FracErr L_FracErr.

(** interpolates the curves flux = r + constant *)
Definition mk_off (_ : kind) (xs ys : list xr) : result (xr -> xr) :=
  match xs, ys with x0 :: _, y0 :: _ => Ok (fun q => xadd q (xsub y0 x0)) | _, _ => Err ValueError end.

Definition r3 : list R := [1; 2; 3]%R.
Definition e3 : list xr := [Fin (1/2); Fin (1/2); Fin (1/2)].

Lemma r3_min : is_min r3 1.
Proof. split; [now left|]. intros x [<-|[<-|[<-|[]]]]; lra. Qed.
Lemma r3_max : is_max r3 3.
Proof. split; [right; right; now left|]. intros x [<-|[<-|[<-|[]]]]; lra. Qed.
Lemma r3_inside lo hi : is_min r3 lo -> is_max r3 hi -> (lo <= 1 * 2 <= hi)%R.
Proof.
  intros H1 H2. split.
  - replace (1 * 2)%R with 2%R by ring. apply H1. right; now left.
  - replace (1 * 2)%R with 2%R by ring. apply H2. right; now left.
Qed.

Ltac rb := repeat first [ rewrite Rleb_true by lra | rewrite Rleb_false by lra
                        | rewrite Rltb_true by lra | rewrite Rltb_false by lra | rewrite Reqb_false by lra ].

Lemma plain : fraction_to_r mk_off (Fin 1) (map Fin r3) (map Fin r3) (Fin 1) None None (Fin 2) (Fin 1) None 3
  = Ok (Fin 2, NaN).
Proof.
  unfold fraction_to_r. rewrite (pymax_is_max _ _ r3_max). cbn [bind].
  cbn [nmul XRnum xmul nltb xltb]. rb.
  rewrite (interp1d_fin mk_off KCubic r3 (map Fin r3) (fun q => xadd q (xsub (Fin 1) (Fin 1))) 1 3 eq_refl r3_min r3_max).
  cbn [bind nltb XRnum xltb]. rb. cbn [orb bind].
  unfold fdiv. cbn [neqb XRnum n0 nofZ xeqb]. rb. cbn [bind ndiv XRnum]. rewrite xdiv_fin by lra.
  match goal with |- context [closest_value_index ?t _ true] => replace t with (Fin 2) by (cbn; f_equal; field) end.
  cbn [get_interpolated_values bind fst snd map r3].
  assert (C : closest_value_index (Fin 2) [Fin 1; Fin 2; Fin 3] true = Some 1).
  { unfold closest_value_index. cbn [find_index nleb XRnum xleb]. rb.
    cbn. destruct (Rleb_spec (Rabs (1 + Ropp 2)) (Rabs (2 + Ropp 2))) as [Q|]; [exfalso; revert Q|reflexivity].
    unfold Rabs. repeat match goal with |- context [Rcase_abs ?t] => destruct (Rcase_abs t) end; lra. }
  rewrite C. reflexivity.
Qed.

Lemma with_errors : exists err,
  fraction_to_r mk_off (Fin 1) (map Fin r3) (map Fin r3) (Fin 1) (Some e3) None (Fin 2) (Fin 1) None 3 = Ok (Fin 2, err).
Proof.
  apply (frac_err_total mk_off 1 r3 (map Fin r3) 1 e3 None 0 2 1 None 3 1 3 2); auto; try lra; try (cbn; lia).
  - exact r3_min.
  - exact r3_max.
  - right. left. auto.
  - intros k [|y ys] H; [discriminate|]. cbn. eauto.
  - exact plain.
Qed.

Lemma curve_grid c n g q : resampled mk_off (Some KCubic) n r3 (Fin (1 + c) :: map (fun x => Fin (x + c)) [2; 3]%R) g q ->
  q = map (fun x => Fin (x + c)) g /\ even_grid 1 3 (Nat.max n 3) g.
Proof.
  intros (f & lo & hi & Hf & Hlo & Hhi & Hg & ->).
  assert (lo = 1%R) as -> by (destruct Hlo, r3_min; apply Rle_antisym; auto).
  assert (hi = 3%R) as -> by (destruct Hhi, r3_max; apply Rle_antisym; auto).
  split; auto. cbn [mk_off map r3] in Hf. apply Ok_inj in Hf. subst f. rewrite map_map. apply map_ext.
  intros x. cbn. f_equal. ring.
Qed.

Lemma lower_list : map2 xsub (map Fin r3) e3 = Fin (1 + (-1/2)) :: map (fun x => Fin (x + (-1/2))) [2; 3]%R.
Proof. cbn. repeat f_equal; lra. Qed.
Lemma upper_list : map2 xadd (map Fin r3) e3 = Fin (1 + 1/2) :: map (fun x => Fin (x + 1/2)) [2; 3]%R.
Proof. reflexivity. Qed.

Lemma grid_first n g : even_grid 1 3 n g -> 3 <= n -> nth_error g 0 = Some 1%R.
Proof.
  intros [H1 H2] Hn. rewrite at_nth_error by lia. rewrite H2 by lia. f_equal. cbn [INR]. ring.
Qed.
Lemma grid_last n g : even_grid 1 3 n g -> 3 <= n -> nth_error g (n - 1) = Some 3%R.
Proof.
  intros [H1 H2] Hn. rewrite at_nth_error by lia. rewrite H2 by lia. f_equal. field.
  apply not_0_INR. lia.
Qed.
Lemma grid_le n g x : even_grid 1 3 n g -> 3 <= n -> In x g -> (1 <= x <= 3)%R.
Proof.
  intros [H1 H2] Hn Hx. apply In_nth_error in Hx. destruct Hx as [i Hi].
  assert (Hl : i < length g) by (apply nth_error_Some; congruence).
  rewrite at_nth_error in Hi by auto. injs. rewrite H2 by lia. apply (grid_point_range 1 3); try lia. lra.
Qed.

(** the worked case: error (3 - 1) / 2 *)
Lemma frac_err_example :
  fraction_to_r mk_off (Fin 1) (map Fin r3) (map Fin r3) (Fin 1) (Some e3) None (Fin 2) (Fin 1) None 3 = Ok (Fin 2, Fin 1).
Proof.
  destruct with_errors as [err E].
  assert (D : radius_error None 0) by (right; left; auto).
  destruct (frac_err_spec mk_off 1 r3 (map Fin r3) 1 e3 None 0 2 1 None 3 _ _ ltac:(cbn; lia) ltac:(cbn; lia) ltac:(cbn; lia)
    r3_inside D E) as [[? _]|(_ & f & fl & fu & g & ql & qu & up & lo & A1 & A2 & A3 & A4 & A5 & A6 & A7)]; [discriminate|].
  rewrite E. do 2 f_equal. rewrite A7.
  rewrite lower_list in A2, A4. rewrite upper_list in A3, A5.
  remember (Z.to_nat 5000) as n eqn:En. clear En.
  destruct (curve_grid _ _ _ _ A4) as [-> Hg]. destruct (curve_grid _ _ _ _ A5) as [-> _].
  set (m := Nat.max n 3) in *. assert (Hm : 3 <= m) by (unfold m; lia).
  cbn [mk_off kind_or_cubic map r3] in A1, A2, A3. apply Ok_inj in A1, A2, A3. subst f fl fu.
  destruct (A6 2 (3/2) (5/2))%R as [U L].
  { cbn. f_equal. lra. } { cbn. f_equal. lra. } { cbn. f_equal. lra. }
  assert (OK : forall c, Forall xok (map (fun x => Fin (x + c)) g)).
  { intros c. apply Forall_forall. intros x Hx. apply in_map_iff in Hx. destruct Hx as (y & <- & _). discriminate. }
  assert (up = Fin 3) as ->.
  { destruct U as [[U _]|[_ (i & a & -> & Gi & C)]].
    - exfalso. apply U. exists (Fin (3 + (-1/2))). split.
      + apply (in_map (fun x => Fin (x + (-1/2)))). eapply nth_error_In. apply (grid_last m); auto.
      + unfold crossed, xle. cbn. apply Rleb_true. lra.
    - f_equal. destruct (C (OK _)) as (c & x & [(z & Zc & Cr) _] & Ic & Xi & M & _).
      assert (Hz := Zc). apply nth_error_In, in_map_iff in Hz. destruct Hz as (y & <- & Hy).
      destruct (grid_le _ _ _ Hg Hm Hy). unfold crossed, xle in Cr. cbn in Cr. rewrite Rleb_iff in Cr.
      assert (K := M c _ (le_n c) Zc). rewrite nth_error_map, Gi in Xi. cbn in Xi. injection Xi as <-.
      unfold xle in K. cbn in K. rewrite Rleb_iff in K. unfold Rabs in K.
      repeat match goal with H : context [Rcase_abs ?t] |- _ => destruct (Rcase_abs t) end; lra. }
  assert (lo = Fin 1) as ->.
  { destruct L as [[L _]|[_ (i & a & -> & Gi & C)]].
    - exfalso. apply L. exists (Fin (3 + 1/2)). split.
      + apply (in_map (fun x => Fin (x + 1/2))). eapply nth_error_In. apply (grid_last m); auto.
      + unfold crossed, xle. cbn. apply Rleb_true. lra.
    - f_equal. destruct (C (OK _)) as (c & x & [_ Bf] & Ic & _).
      assert (c = 0).
      { destruct c; auto. exfalso. apply (Bf 0 (Fin (1 + 1/2))); [lia| |].
        - rewrite nth_error_map, (grid_first m g Hg Hm). reflexivity.
        - unfold crossed, xle. cbn. apply Rleb_true. lra. }
      subst c. assert (i = 0) by lia. subst i. rewrite (grid_first m g Hg Hm) in Gi. congruence. }
  cbn. rewrite Reqb_false by lra. cbn. f_equal. lra.
Qed.

(** the hypotheses of the sign theorem hold in this case *)
Lemma sign_example :
  (forall f fl fu, mk_off KCubic (map Fin r3) (map Fin r3) = Ok f ->
     mk_off KCubic (map Fin r3) (map2 xsub (map Fin r3) e3) = Ok fl ->
     mk_off KCubic (map Fin r3) (map2 xadd (map Fin r3) e3) = Ok fu ->
     exists F L U, f (Fin (1 * 2)) = Fin F /\ fl (Fin (1 * 2 - 0)) = Fin L /\
       fu (Fin (1 * 2 + 0)) = Fin U /\ (L <= U)%R) /\
  (forall g g' ql qu, resampled mk_off (Some KCubic) (Z.to_nat 5000) r3 (map2 xsub (map Fin r3) e3) g ql ->
     resampled mk_off (Some KCubic) (Z.to_nat 5000) r3 (map2 xadd (map Fin r3) e3) g' qu ->
     Forall xok ql /\ Forall xok qu /\
     (forall i j a b, i < j -> nth_error ql i = Some a -> nth_error ql j = Some b -> xlt a b) /\
     (forall i a b, nth_error ql i = Some a -> nth_error qu i = Some b -> xle a b)).
Proof.
  split.
  - intros f fl fu A1 A2 A3. cbn [mk_off map map2 e3 r3] in A1, A2, A3. apply Ok_inj in A1, A2, A3. subst f fl fu.
    exists 2%R, (3/2)%R, (5/2)%R. cbn. split; [f_equal; lra|]. split; [f_equal; lra|]. split; [f_equal; lra|lra].
  - remember (Z.to_nat 5000) as n eqn:En. clear En. intros g g' ql qu H1 H2.
    assert (Hl3 : 2 <= length r3) by (cbn; lia).
    assert (g = g') as <- by (eapply resampled_grid; eauto).
    rewrite lower_list in H1. rewrite upper_list in H2.
    destruct (curve_grid _ _ _ _ H1) as [-> [Lg Hg]]. destruct (curve_grid _ _ _ _ H2) as [-> _].
    assert (OK : forall c, Forall xok (map (fun x => Fin (x + c)) g)).
    { intros c. apply Forall_forall. intros x Hx. apply in_map_iff in Hx. destruct Hx as (y & <- & _). discriminate. }
    split; auto. split; auto. split.
    + intros i j a b Hij Ha Hb. rewrite nth_error_map in *.
      destruct (nth_error g i) as [x|] eqn:Ei; [|discriminate]. destruct (nth_error g j) as [y|] eqn:Ej; [|discriminate].
      cbn in *. injection Ha as <-. injection Hb as <-.
      assert (i < length g) by (apply nth_error_Some; congruence).
      assert (j < length g) by (apply nth_error_Some; congruence).
      rewrite at_nth_error in Ei, Ej by auto. injection Ei as <-. injection Ej as <-.
      rewrite !Hg by lia. unfold xlt. cbn [xltb]. apply Rltb_true.
      assert (INR i < INR j)%R by now apply lt_INR.
      assert (0 < (3 - 1) / INR (Nat.max n 3 - 1))%R.
      { apply Rdiv_lt_0_compat; [lra|]. apply lt_0_INR. lia. }
      assert (INR i * ((3 - 1) / INR (Nat.max n 3 - 1)) < INR j * ((3 - 1) / INR (Nat.max n 3 - 1)))%R; [|lra].
      now apply Rmult_lt_compat_r.
    + intros i a b Ha Hb. rewrite nth_error_map in *. destruct (nth_error g i); [|discriminate].
      cbn in *. injection Ha as <-. injection Hb as <-. unfold xle. cbn. apply Rleb_true. lra.
Qed.
