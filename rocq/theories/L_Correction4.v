(** Proofs about the simulated radii, the table utilities and the round trip. *)
From Coq Require Import String Permutation.
From Verif Require Import Base Num Numpy M_Utils L_Numpy M_Petrosian S_Petrosian L_Photometry
  M_Heap S_PetObj L_PetObj M_Correction M_CorHeap S_Correction L_Correction L_Correction2 L_Correction3.
Local Open Scope list_scope.

(** ** radii (C32) *)
Section Radii.
  Local Open Scope Z_scope.

  Lemma some_inj {A} (x y : A) : Some x = Some y -> x = y.
  Proof. now intros [= ->]. Qed.

  Lemma zincreasing_nth (l : list Z) :
    (forall i x y, nth_error l i = Some x -> nth_error l (S i) = Some y -> x < y) -> zincreasing l.
  Proof.
    induction l as [|x [|y l] IH]; intros H; cbn; auto. split.
    - apply (H 0%nat); reflexivity.
    - apply IH. intros i a b Ha Hb. apply (H (S i)); auto.
  Qed.

  Lemma nth_py_range a b s i : 0 < s ->
    nth_error (py_range a b s) i
    = if (a + Z.of_nat i * s <? b)%Z then Some (a + Z.of_nat i * s) else None.
  Proof.
    intros Hs. unfold py_range. rewrite nth_error_map.
    rewrite nth_error_seq. cbn [Nat.add].
    assert (D : s * ((b - a + s - 1) / s) <= b - a + s - 1) by (apply Z.mul_div_le; lia).
    destruct (Nat.ltb_spec i (Z.to_nat ((b - a + s - 1) / s))) as [L|L];
      destruct (Z.ltb_spec (a + Z.of_nat i * s) b) as [H|H]; cbn [option_map]; auto.
    - exfalso. assert (Z.of_nat i + 1 <= (b - a + s - 1) / s) by lia. nia.
    - exfalso. assert (Z.of_nat i + 1 <= (b - a + s - 1) / s); [|lia].
      apply Z.div_le_lower_bound; nia.
  Qed.

  Lemma py_range_increasing a b s : 0 < s -> zincreasing (py_range a b s).
  Proof.
    intros Hs. apply zincreasing_nth. intros i x y. rewrite !nth_py_range by auto.
    destruct (_ <? _)%Z; [|discriminate]. intros H; apply some_inj in H; subst.
    destruct (_ <? _)%Z; [|discriminate]. intros H; apply some_inj in H; subst. rewrite Nat2Z.inj_succ. nia.
  Qed.

  Lemma zmax_spec l m : zmax l = Ok m -> In m l /\ forall x, In x l -> x <= m.
  Proof.
    destruct l as [|x l]; [discriminate|]. cbn [zmax]. intros H. injection H as <-.
    revert x. induction l as [|y l IH]; intros x; cbn [fold_left].
    - split; [left; auto|]. intros z [->|[]]. lia.
    - destruct (IH (Z.max x y)) as [I B]. split.
      + destruct I as [E|I]; [|right; right; auto]. rewrite <- E.
        destruct (Z.max_spec x y) as [[_ ->]|[_ ->]]; cbn; auto.
      + intros z [<-|[<-|Hz]].
        * specialize (B (Z.max x y)); cbn in B. specialize (B (or_introl eq_refl)). lia.
        * specialize (B (Z.max x y)); cbn in B. specialize (B (or_introl eq_refl)). lia.
        * apply B. right; auto.
  Qed.

  Lemma sim_radii_ok big m : (big = true -> 200 <= m) -> (big = false -> 0 <= m) ->
    hd_error (sim_radii big m) = Some 1 /\ zincreasing (sim_radii big m) /\
    (forall x, In x (sim_radii big m) -> 1 <= x) /\
    exists mx, zmax (sim_radii big m) = Ok mx /\
      In mx (sim_radii big m) /\ (forall x, In x (sim_radii big m) -> x <= mx) /\
      ((big = true /\ m = 200 /\ mx = 199) \/ (~ (big = true /\ m = 200) /\ m <= mx /\ mx <= m + 99)).
  Proof.
    intros Hb Hs.
    assert (Hhd : hd_error (sim_radii big m) = Some 1).
    { unfold sim_radii. destruct big.
      - reflexivity.
      - specialize (Hs eq_refl). pose proof (nth_py_range 1 (m+2) 2 0 ltac:(lia)) as H.
        destruct (Z.ltb_spec (1 + Z.of_nat 0 * 2) (m + 2)); [|lia].
        destruct (py_range 1 (m+2) 2); cbn in H; [discriminate|]. injection H as ->. reflexivity. }
    assert (Hinc : zincreasing (sim_radii big m)).
    { unfold sim_radii. destruct big; [|apply py_range_increasing; lia].
      specialize (Hb eq_refl).
      apply zincreasing_nth. intros i x y.
      assert (L : List.length (py_range 1 201 2) = 100%nat) by reflexivity.
      destruct (Nat.lt_ge_cases (S i) 100) as [Hi|Hi].
      - rewrite !nth_error_app1 by (rewrite L; lia). rewrite !nth_py_range by lia.
        destruct (_ <? _)%Z; [|discriminate]. intros H; apply some_inj in H; subst.
        destruct (_ <? _)%Z; [|discriminate]. intros H; apply some_inj in H; subst. lia.
      - destruct (Nat.eq_dec i 99) as [->|Hi'].
        + rewrite nth_error_app1 by (rewrite L; lia). rewrite nth_error_app2 by (rewrite L; lia).
          rewrite L, !nth_py_range by lia. destruct (_ <? _)%Z; [|discriminate].
          intros H; apply some_inj in H; subst.
          destruct (_ <? _)%Z; [|discriminate]. intros H; apply some_inj in H; subst. lia.
        + rewrite !nth_error_app2 by (rewrite L; lia). rewrite L, !nth_py_range by lia.
          destruct (_ <? _)%Z; [|discriminate]. intros H; apply some_inj in H; subst.
          destruct (_ <? _)%Z; [|discriminate]. intros H; apply some_inj in H; subst. lia. }
    split; auto. split; auto.
    assert (Hin : forall x, In x (sim_radii big m) ->
      (exists i, x = 1 + Z.of_nat i * 2 /\ (if big then x < 201 else x < m + 2)) \/
      (big = true /\ exists i, x = 300 + Z.of_nat i * 100 /\ x < m + 100)).
    { intros x Hx. unfold sim_radii in Hx. destruct big.
      - apply in_app_iff in Hx. destruct Hx as [Hx|Hx]; apply In_nth_error in Hx; destruct Hx as (i & Hi);
          rewrite nth_py_range in Hi by lia; destruct (Z.ltb_spec (1 + Z.of_nat i * 2) 201);
          try destruct (Z.ltb_spec (300 + Z.of_nat i * 100) (m + 100)); try discriminate; apply some_inj in Hi; subst x.
        all: first [left; exists i; lia | right; split; auto; exists i; lia].
      - apply In_nth_error in Hx; destruct Hx as (i & Hi).
        rewrite nth_py_range in Hi by lia. destruct (Z.ltb_spec (1 + Z.of_nat i * 2) (m + 2)); try discriminate.
        apply some_inj in Hi; subst x. left. exists i. lia. }
    split.
    { intros x Hx. destruct (Hin x Hx) as [(i & -> & _)|(_ & i & -> & _)]; lia. }
    destruct (zmax (sim_radii big m)) as [mx|e] eqn:E.
    2:{ destruct (sim_radii big m); [discriminate Hhd|discriminate E]. }
    exists mx. split; auto. destruct (zmax_spec _ _ E) as [I B]. split; auto. split; auto.
    destruct big.
    - specialize (Hb eq_refl).
      assert (Hpos : forall i, 300 + Z.of_nat i * 100 < m + 100 -> 300 + Z.of_nat i * 100 <= mx).
      { intros i Hi. apply B. unfold sim_radii. apply in_app_iff. right.
        apply nth_error_In with i. rewrite nth_py_range by lia.
        destruct (Z.ltb_spec (300 + Z.of_nat i * 100) (m + 100)); [reflexivity|lia]. }
      destruct (Z.eq_dec m 200) as [->|Hm].
      + left. split; auto. split; auto.
        assert (199 <= mx).
        { apply B. unfold sim_radii. apply in_app_iff. left. apply nth_error_In with 99%nat. reflexivity. }
        destruct (Hin mx I) as [(i & -> & K)|(_ & i & -> & K)]; lia.
      + right. split; [tauto|].
        pose (k := Z.to_nat ((m - 201) / 100)).
        assert (Z.of_nat k = (m - 201) / 100) by (unfold k; rewrite Z2Nat.id; auto; apply Z.div_pos; lia).
        pose proof (Z.div_mod (m - 201) 100 ltac:(lia)). pose proof (Z.mod_pos_bound (m - 201) 100 ltac:(lia)).
        specialize (Hpos k ltac:(lia)). split; [lia|].
        destruct (Hin mx I) as [(i & -> & K)|(_ & i & -> & K)]; lia.
    - specialize (Hs eq_refl). right. split; [intros [? ?]; discriminate|].
      pose (k := Z.to_nat (m / 2)).
      assert (Z.of_nat k = m / 2) by (unfold k; rewrite Z2Nat.id; auto; apply Z.div_pos; lia).
      pose proof (Z.div_mod m 2 ltac:(lia)). pose proof (Z.mod_pos_bound m 2 ltac:(lia)).
      assert (1 + Z.of_nat k * 2 <= mx).
      { apply B. unfold sim_radii. apply nth_error_In with k. rewrite nth_py_range by lia.
        destruct (Z.ltb_spec (1 + Z.of_nat k * 2) (m + 2)); [reflexivity|lia]. }
      split; [lia|]. destruct (Hin mx I) as [(i & -> & K)|(K & _)]; [lia|discriminate].
  Qed.
End Radii.

Lemma Int_part_lt r (z : Z) : (r < IZR z)%R -> (Int_part r < z)%Z.
Proof.
  intros H. destruct (Int_part_bounds r) as [B _]. apply lt_IZR. lra.
Qed.
Lemma Int_part_le r (z : Z) : (IZR z <= r)%R -> (z <= Int_part r)%Z.
Proof.
  intros H. destruct (Int_part_bounds r) as [_ B]. apply Z.lt_succ_r. apply lt_IZR.
  rewrite succ_IZR. lra.
Qed.

Lemma Rtrunc_range r : (-1 < r)%R ->
  (0 <= Rtrunc r)%Z /\ ((200 <= r)%R -> (200 <= Rtrunc r)%Z) /\
  (Rtrunc r = 200%Z <-> (200 <= r < 201)%R).
Proof.
  intros H. unfold Rtrunc. destruct (Rleb_spec 0 r) as [L|L].
  - pose proof (Int_part_le r 0 ltac:(lra)). split; [lia|].
    split; [intros K; now apply Int_part_le|]. split.
    + intros E. destruct (Int_part_bounds r) as [B1 B2]. rewrite E in *. lra.
    + intros [K1 K2]. pose proof (Int_part_le r 200 ltac:(lra)). pose proof (Int_part_lt r 201 ltac:(lra)). lia.
  - pose proof (Int_part_lt (- r) 1 ltac:(lra)). pose proof (Int_part_le (- r) 0 ltac:(lra)).
    assert (E : Int_part (- r) = 0%Z) by lia. rewrite E. cbn. split; [lia|].
    split; [intros; lra|]. split; intros K; [discriminate|lra].
Qed.

Lemma geometry_ok (x : R) : (-1 < x)%R ->
  exists m radii size x0,
    int_of (Fin x) = Ok m /\
    sim_geometry (nleb (nofZ 200) (Fin x)) m = Ok (radii, size, x0) /\
    hd_error radii = Some 1%Z /\ zincreasing radii /\ (forall r, In r radii -> (1 <= r)%Z) /\
    exists last, In last radii /\ (forall r, In r radii -> (r <= last)%Z) /\
      size = (2 * last)%Z /\ x0 = last /\
      (((200 <= x < 201)%R /\ last = 199%Z) \/
       (~ (200 <= x < 201)%R /\ (x - 1 < IZR last)%R /\ (IZR last <= x + 100)%R)).
Proof.
  intros Hx. destruct (Rtrunc_range x Hx) as (H0 & H200 & Hiff).
  exists (Rtrunc x). cbn [int_of ntrunc XRnum xtrunc nleb nofZ xleb].
  pose proof (sim_radii_ok (Rleb 200 x) (Rtrunc x)) as K.
  destruct K as (K1 & K2 & K3 & mx & K4 & K5 & K6 & K7).
  { intros E. apply H200. now apply Rleb_iff. }
  { auto. }
  exists (sim_radii (Rleb 200 x) (Rtrunc x)), (mx * 2)%Z, mx. unfold sim_geometry. rewrite K4. cbn [bind].
  rewrite Z.div_mul by lia.
  split; [reflexivity|]. split; [reflexivity|]. split; auto. split; auto. split; auto.
  exists mx. split; auto. split; auto. split; [lia|]. split; auto.
  destruct K7 as [(B & M & L)|(B & L1 & L2)].
  - left. split; auto. apply Hiff. auto.
  - right. split.
    + intros [A1 A2]. apply B. split; [|apply Hiff; auto]. apply Rleb_true; auto.
    + assert (T1 : (IZR (Rtrunc x) <= x \/ x < 0)%R /\ (x < IZR (Rtrunc x) + 1)%R /\ (IZR (Rtrunc x) < x + 1)%R).
      { unfold Rtrunc. destruct (Rleb_spec 0 x).
        - destruct (Int_part_bounds x). lra.
        - destruct (Int_part_bounds (- x)). rewrite opp_IZR. lra. }
      apply IZR_le in L1, L2. rewrite plus_IZR in L2. lra.
Qed.

Lemma geometry_bad (x : xr) :
  match x with
  | NaN => int_of x = Err ValueError
  | PInf | NInf => int_of x = Err OverflowError
  | Fin r => (r <= -1)%R -> exists m, int_of x = Ok m /\
      sim_geometry (nleb (nofZ 200) x) m = Err ValueError
  end.
Proof.
  destruct x as [| | |r]; try reflexivity. intros Hr.
  exists (Rtrunc r). split; [reflexivity|].
  cbn [nleb nofZ XRnum xleb]. rewrite Rleb_false by lra.
  assert (M : (Rtrunc r <= -1)%Z).
  { unfold Rtrunc. rewrite (Rleb_false 0 r) by lra. pose proof (Int_part_le (- r) 1 ltac:(lra)). lia. }
  unfold sim_geometry, sim_radii.
  assert (E : py_range 1 (Rtrunc r + 2) 2 = []).
  { pose proof (nth_py_range 1 (Rtrunc r + 2) 2 0 ltac:(lia)) as K.
    destruct (Z.ltb_spec (1 + Z.of_nat 0 * 2) (Rtrunc r + 2)); [lia|].
    destruct (py_range 1 (Rtrunc r + 2) 2); [reflexivity|discriminate]. }
  now rewrite E.
Qed.

(** ** unique values and filtering (C62) *)
Fixpoint nondec (l : list R) : Prop :=
  match l with [] => True | x :: t => (forall y, In y t -> (x <= y)%R) /\ nondec t end.

Lemma insert_sorted (x : R) l : nondec l ->
  exists l', insert (Fin x) (map Fin l) = map Fin l' /\ Permutation l' (x :: l) /\ nondec l'.
Proof.
  induction l as [|y l IH]; intros H.
  - exists [x]. cbn. repeat split; auto. intros ? [].
  - cbn in H. destruct H as [H1 H2]. cbn [map insert]. cbn [nleb XRnum xleb]. destruct (Rleb_spec x y).
    + exists (x :: y :: l). repeat split; auto. intros z [<-|Hz]; auto. specialize (H1 z Hz). lra.
    + destruct (IH H2) as (l' & E & P & S). exists (y :: l'). rewrite E.
      split; [reflexivity|]. split; [rewrite P; constructor|]. split; auto.
      intros z Hz. apply (Permutation_in z P) in Hz. destruct Hz as [<-|Hz]; [lra|auto].
Qed.

Lemma nsort_fin l : exists l', nsort (map Fin l) = map Fin l' /\ Permutation l' l /\ nondec l'.
Proof.
  induction l as [|x l (l' & E & P & S)].
  - exists []. cbn. auto.
  - unfold nsort in *. cbn [map fold_right]. rewrite E.
    destruct (insert_sorted x l' S) as (l2 & E2 & P2 & S2). exists l2. split; auto. split; auto.
    rewrite P2. now constructor.
Qed.

Lemma dedup_fin l : nondec l ->
  exists l', dedup (map Fin l) = map Fin l' /\ increasing_list l' /\ hd_error l' = hd_error l /\
    forall y, In y l' <-> In y l.
Proof.
  induction l as [|x [|y l] IH]; intros H.
  - exists []. cbn. repeat split; auto.
  - exists [x]. cbn. repeat split; auto.
  - destruct H as [H1 H2]. destruct (IH H2) as (l' & E & S & Hh & M).
    assert (Exy : dedup (map Fin (x :: y :: l))
      = if Reqb x y then dedup (map Fin (y :: l)) else Fin x :: dedup (map Fin (y :: l))) by reflexivity.
    rewrite Exy, E. destruct (Reqb_spec x y) as [<-|Hne].
    + exists l'. split; [reflexivity|]. split; auto. split; auto.
      intros z. rewrite M. cbn. tauto.
    + exists (x :: l'). split; [reflexivity|]. split; [|split; [reflexivity|]].
      * destruct l' as [|z l']; [cbn; auto|]. cbn in Hh. injection Hh as ->.
        cbn [increasing_list]. split; [|exact S]. specialize (H1 y (or_introl eq_refl)). lra.
      * intros z. cbn [In]. rewrite M. cbn. tauto.
Qed.

Lemma unique_fin l : exists l', np_unique (map Fin l) = map Fin l' /\ increasing_list l' /\
  forall y, In y l' <-> In y l.
Proof.
  unfold np_unique. destruct (nsort_fin l) as (s & -> & P & S).
  destruct (dedup_fin s S) as (l' & E & I & _ & M). exists l'. split; auto. split; auto.
  intros y. rewrite M. split; apply Permutation_in; auto. now apply Permutation_sym.
Qed.

Lemma unique_grid (t : table xr) key l : column t key = Ok (map Fin l) ->
  exists l', unique_grid_values t key = Ok (map Fin l') /\ increasing_list l' /\
    forall y, In y l' <-> In y l.
Proof.
  intros H. unfold unique_grid_values. rewrite H. cbn [bind].
  destruct (unique_fin l) as (l' & E & I & M). exists l'. rewrite E. auto.
Qed.

Lemma filter_grid_spec {T} {N : Num T} (t : table T) key v :
  match filter_grid t key v with
  | Err e => e = KeyError /\ ~ In key (t_names t)
  | Ok u => t_names u = t_names t /\
      exists keep : list nat,
        (forall i j x y, i < j -> nth_error keep i = Some x -> nth_error keep j = Some y -> x < y) /\
        (forall i, In i keep <-> i < List.length (t_rows t) /\
                     exists x, cell t i key = Ok x /\ neqb x v = true) /\
        List.length (t_rows u) = List.length keep /\
        forall k i, nth_error keep k = Some i -> nth_error (t_rows u) k = nth_error (t_rows t) i
  end.
Proof.
  unfold filter_grid. destruct (col_index t key) as [c|] eqn:Ec.
  2:{ split; auto. unfold col_index in Ec. rewrite find_index_None in Ec. intros Hin.
      specialize (Ec key Hin). rewrite String.eqb_refl in Ec. discriminate. }
  cbn [t_names t_rows]. split; auto.
  set (f := fun r : list T => neqb (nth c r nnan) v).
  assert (G : forall rows k, exists keep,
    (forall i j x y, i < j -> nth_error keep i = Some x -> nth_error keep j = Some y -> x < y) /\
    (forall i, In i keep -> k <= i) /\
    (forall i, In (k + i) keep <-> exists r, nth_error rows i = Some r /\ f r = true) /\
    List.length (filter f rows) = List.length keep /\
    forall q i, nth_error keep q = Some (k + i) -> nth_error (filter f rows) q = nth_error rows i).
  { intros rows. induction rows as [|r rows IH]; intros k.
    - exists []. split; [intros [|] ? ? ? ? H; discriminate|]. split; [intros ? []|]. split.
      + intros i. split; [intros []|intros (r & H & _)]. destruct i; discriminate.
      + split; [reflexivity|]. intros [|] ? H; discriminate.
    - destruct (IH (S k)) as (keep & K1 & K2 & K3 & K4 & K5). cbn [filter]. destruct (f r) eqn:Fr.
      + exists (k :: keep). split; [|split; [|split; [|split]]].
        * intros [|i] [|j] x y Hij Hx Hy; cbn in Hx, Hy; try lia.
          -- injection Hx as <-. apply nth_error_In in Hy. apply K2 in Hy. lia.
          -- eapply (K1 i j); eauto. lia.
        * intros i [<-|Hi]; [lia|]. apply K2 in Hi. lia.
        * intros [|i].
          -- split; [intros _; exists r; auto|intros _; left; lia].
          -- cbn [nth_error]. rewrite <- K3. replace (S k + i) with (k + S i) by lia.
             split; [intros [E|E]; [lia|auto]|right; auto].
        * cbn. now rewrite K4.
        * intros [|q] i Hq; cbn in Hq.
          -- injection Hq as Hq. assert (i = 0) by lia. subst. reflexivity.
          -- destruct i as [|i]; [apply nth_error_In in Hq; apply K2 in Hq; lia|].
             cbn. apply K5. rewrite Hq. f_equal. lia.
      + exists keep. split; [auto|]. split; [intros i Hi; apply K2 in Hi; lia|]. split; [|split; auto].
        * intros [|i].
          -- split; [intros Hi; apply K2 in Hi; lia|]. intros (r' & E & F). injection E as <-. congruence.
          -- cbn [nth_error]. rewrite <- K3. now replace (S k + i) with (k + S i) by lia.
        * intros q [|i] Hq; [apply nth_error_In in Hq; apply K2 in Hq; lia|].
          cbn. apply K5. rewrite Hq. f_equal. lia. }
  destruct (G (t_rows t) 0) as (keep & K1 & _ & K3 & K4 & K5). exists keep.
  split; auto. split; [|split; auto].
  intros i. pose proof (K3 i) as K. cbn in K. rewrite K. unfold cell. rewrite Ec. split.
  - intros (r & E & F). split; [apply nth_error_Some; congruence|]. rewrite E. eauto.
  - intros (Hi & x & E & F). destruct (nth_error (t_rows t) i) as [r|]; [|discriminate].
    exists r. split; auto. injection E as <-. exact F.
Qed.

(** ** the generated row and a measurement of the simulated galaxy (C63) *)
Section RoundTrip.
  Context {T : Type} {N : Num T} {NL : NumLog T}.
  Variable mk : kind -> list T -> list T -> result (T -> T).
  Variable sersic_total : T -> T -> T.
  Variable sersic_radius : T -> T -> T -> T.
  Variable simulate : T -> T -> list Z -> Z -> Z -> result (list T * list T).
  Let job := generate_row mk sersic_total sersic_radius simulate.

  Lemma row_measured r_eff n row : job r_eff n = Ok row ->
    exists m radii size x0 flux area p,
      int_of (sim_max_r r_eff n
        (sersic_radius r_eff n (nmul (nmul (sersic_total r_eff n) (nlit 99 100)) n1))) = Ok m /\
      sim_geometry (nleb (nofZ 200) (sim_max_r r_eff n
        (sersic_radius r_eff n (nmul (nmul (sersic_total r_eff n) (nlit 99 100)) n1)))) m
        = Ok (radii, size, x0) /\
      simulate r_eff n radii size x0 = Ok (flux, area) /\
      Petrosian_new (mkdata DFloat (map nofZ radii) area flux None None) default_settings = Ok p /\
      get_xyz_from_p mk p = Ok (nth 6 row nnan, nth 15 row nnan, nth 19 row nnan) /\
      nth 0 row nnan = n /\ nth 1 row nnan = r_eff /\ List.length row = 30.
  Proof.
    unfold job, generate_row. intros H.
    apply bind_Ok in H. destruct H as (m & Hm & H).
    apply bind_Ok in H. destruct H as ([[radii size] x0] & Hg & H). cbn [fst snd] in H.
    apply bind_Ok in H. destruct H as ([flux area] & Hs & H). cbn [fst snd] in H.
    apply bind_Ok in H. destruct H as (p & Hp & H).
    apply bind_Ok in H. destruct H as (c & Hc & H).
    destruct (_ || _)%bool; [discriminate|].
    apply bind_Ok in H. destruct H as (f & _ & H).
    apply bind_Ok in H. destruct H as (mt & _ & H).
    apply bind_Ok in H. destruct H as (m80 & _ & H).
    apply bind_Ok in H. destruct H as (rp & _ & H).
    apply bind_Ok in H. destruct H as (pl & Hpl & H).
    apply bind_Ok in H. destruct H as (p02 & H02 & H).
    apply bind_Ok in H. destruct H as (p03 & H03 & H).
    apply bind_Ok in H. destruct H as (p04 & H04 & H).
    apply bind_Ok in H. destruct H as (p05 & H05 & H).
    unfold assert_ in H. destruct (neqb _ _); [|discriminate].
    apply bind_Ok in H. destruct H as (u50 & Hu50 & H).
    do 6 (apply bind_Ok in H; destruct H as (? & _ & H)).
    apply bind_Ok in H. destruct H as (uc & Huc & H).
    do 4 (apply bind_Ok in H; destruct H as (? & _ & H)).
    injection H as <-.
    exists m, radii, size, x0, flux, area, p.
    split; auto. split; auto. split; auto. split; auto. split; [|repeat split].
    cbn [nth].
    assert (E : d_r (p_data p) = map nofZ radii /\ p_list p = fst pl).
    { unfold Petrosian_new in Hp. apply bind_Ok in Hp. destruct Hp as (? & _ & Hp).
      cbn [d_dtype d_area d_flux d_area_err d_flux_err] in Hp.
      rewrite Hpl in Hp. cbn [bind] in Hp. injection Hp as <-. split; reflexivity. }
    destruct E as [E1 E2]. unfold get_xyz_from_p. rewrite E1, E2.
    rewrite H02. cbn [bind]. rewrite H03. cbn [bind]. rewrite H04. cbn [bind]. rewrite H05. cbn [bind].
    apply bind_Ok in Hu50. destruct Hu50 as (y & Hy & E). injection E as <-. rewrite Hy. cbn [bind].
    apply bind_Ok in Huc. destruct Huc as (z & Hz & E). injection E as <-. rewrite Hz. reflexivity.
  Qed.
End RoundTrip.
