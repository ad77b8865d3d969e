(** Proofs about the drawing code, continued. *)
From Coq Require Import String.
From Verif Require Import Base Num Numpy M_Utils M_Photometry M_Petrosian M_Correction M_PSF M_Fitting M_Plot S_Correction S_Plot.
From Verif Require Import L_Numpy L_Photometry L_Correction L_Plot L_Plot2 L_Plot3 L_Plot4.
From Verif Require M_Segm.
Local Open Scope list_scope.

Section GridPlot.
  Context {T : Type} {N : Num T} {NL : NumLog T}.
  Variable mk : kind -> list T -> list T -> result (T -> T).

  Lemma column_cell (t : table T) n l i : column t n = Ok l -> i < List.length (t_rows t) ->
    exists v, cell t i n = Ok v /\ index l i = Ok v.
  Proof.
    unfold column, cell. destruct (col_index t n) as [c|]; [|discriminate]. intros H. injection H as <-.
    intros Hi. apply nth_error_Some in Hi. destruct (nth_error (t_rows t) i) as [r|] eqn:E; [|congruence].
    exists (nth c r nnan). split; auto. unfold index. rewrite nth_error_map, E. reflexivity.
  Qed.
  Lemma in_column (t : table T) n : In n (t_names t) -> exists v, column t n = Ok v.
  Proof.
    intros Hin. unfold column, col_index. destruct (find_index (String.eqb n) (t_names t)) eqn:F; [eauto|].
    exfalso. rewrite find_index_None in F. specialize (F n Hin). rewrite String.eqb_refl in F. discriminate.
  Qed.
  Lemma missing_column (t : table T) n : ~ In n (t_names t) -> column t n = Err KeyError.
  Proof.
    intros Hin. unfold column, col_index. destruct (find_index (String.eqb n) (t_names t)) as [k|] eqn:F; auto.
    apply find_index_Some in F. destruct F as ((x & Hx & E) & _). apply nth_error_In in Hx. apply String.eqb_eq in E. now subst.
  Qed.
  Lemma new_any (t : table T) e c e' : PetrosianCorrection_new (GTable t) e = Ok c ->
    PetrosianCorrection_new (GTable t) e' = Ok (mkcor t e' (c_x c) (c_y c) (c_z c)).
  Proof.
    intros H. destruct (new_columns _ _ _ H) as (_ & _ & H1 & H2 & H3). cbn. rewrite H1, H2, H3. reflexivity.
  Qed.
  Lemma dr_len (t : table T) e c x0 y0 z0 : PetrosianCorrection_new (GTable t) e = Ok c ->
    List.length (dr c x0 y0 z0) = List.length (t_rows t).
  Proof.
    intros H. destruct (new_columns _ _ _ H) as (_ & _ & H1 & H2 & H3).
    apply column_length in H1, H2, H3. unfold dr. rewrite !length_map2, !map_length. lia.
  Qed.

  (** the row correct() would use *)
  Lemma same_row (t : table T) e c c0 p j : PetrosianCorrection_new (GTable t) e = Ok c ->
    PetrosianCorrection_new (GTable t) false = Ok c0 ->
    get_corrected_row mk c p = Ok j -> get_corrected_row mk c0 p = Ok j.
  Proof.
    intros H H0. rewrite (new_any _ _ _ false H) in H0. injection H0 as <-. unfold get_corrected_row.
    destruct (get_xyz_from_p mk p) as [m|]; cbn [bind]; [|discriminate].
    unfold closest_row. cbn [c_enforce]. intros G. apply bind_Ok in G. destruct G as (_ & _ & G). exact G.
  Qed.

  Lemma three (l : list axes) : List.length l = 3%nat -> exists a0 a1 a2, l = [a0; a1; a2].
  Proof. destruct l as [|a [|b [|c [|? ?]]]]; intros H; try discriminate. eauto. Qed.

  Lemma correction_drawn (t : table T) e c c0 p key cl st axs s x0 y0 z0 :
    PetrosianCorrection_new (GTable t) e = Ok c -> PetrosianCorrection_new (GTable t) false = Ok c0 ->
    t_rows t <> [] -> In key (t_names t) -> (forall l, axs = Some l -> List.length l = 3%nat) ->
    get_xyz_from_p mk p = Ok (x0, y0, z0) ->
    exists i cx cy cz a0 a1 a2 s' d,
      plot_correction mk c p key cl st axs s = (Ok [a0; a1; a2], s') /\ emitted s s' d /\
      match axs with
      | Some l => l = [a0; a1; a2]
      | None => a0 = cv_next s /\ a1 = S a0 /\ a2 = S a1 /\ cv_next s' = S a2
      end /\
      get_corrected_row mk c0 p = Ok i /\
      cell t i "p02" = Ok cx /\ cell t i "u_r_50" = Ok cy /\ cell t i "u_c2080" = Ok cz /\
      (forall a x y, In (a, Point x y) d <->
         (a = a0 /\ x = x0 /\ y = y0) \/ (a = a1 /\ x = x0 /\ y = z0) \/ (a = a2 /\ x = y0 /\ y = z0)) /\
      (forall a xs ys, In (a, Line xs ys) d <->
         (a = a0 /\ xs = [x0; cx] /\ ys = [y0; cy]) \/ (a = a1 /\ xs = [x0; cx] /\ ys = [z0; cz]) \/
         (a = a2 /\ xs = [y0; cy] /\ ys = [z0; cz])) /\
      (forall a xs ys v lo hi, In (a, Scatter xs ys v lo hi) d ->
         column t key = Ok v /\ lo = n0 /\
         ((a = a0 /\ column t "p02" = Ok xs /\ column t "u_r_50" = Ok ys) \/
          (a = a1 /\ column t "p02" = Ok xs /\ column t "u_c2080" = Ok ys) \/
          (a = a2 /\ column t "u_r_50" = Ok xs /\ column t "u_c2080" = Ok ys))) /\
      (forall a, In a [a0; a1; a2] -> exists xs ys v lo hi, In (a, Scatter xs ys v lo hi) d).
  Proof.
    intros H H0 Hr Hk Ha Hx.
    pose proof H0 as H0'. rewrite (new_any _ _ _ false H) in H0'. injection H0' as <-.
    destruct (new_columns _ _ _ H) as (Et & Ee & C1 & C2 & C3).
    destruct (in_column t key Hk) as (v & Hv).
    assert (exists m, pymax v = Ok m) as (m & Hm).
    { apply column_length in Hv. destruct v; [|cbn; eauto]. destruct (t_rows t); [congruence|discriminate]. }
    assert (exists i, argmin (dr c x0 y0 z0) = Some i /\ i < List.length (t_rows t)) as (i & Hi & Li).
    { pose proof (dr_len t e c x0 y0 z0 H) as L. destruct (argmin (dr c x0 y0 z0)) as [i|] eqn:E.
      - exists i. split; auto. rewrite <- L. now apply argmin_bound.
      - apply argmin_None in E. rewrite E in L. destruct (t_rows t); [congruence|discriminate]. }
    destruct (column_cell _ _ _ _ C1 Li) as (cx & K1 & I1).
    destruct (column_cell _ _ _ _ C2 Li) as (cy & K2 & I2).
    destruct (column_cell _ _ _ _ C3 Li) as (cz & K3 & I3).
    assert (forall a0 a1 a2 s1, plot_grid c (Some (x0, y0, z0)) key cl st (Some [a0; a1; a2]) s1 =
      (Ok [a0; a1; a2], mkcanvas (cv_cur s1) (cv_next s1) (cv_trace s1 ++ grid_calls c v m x0 y0 z0 cx cy cz key cl st a0 a1 a2))) as G.
    { intros. apply (grid_run c x0 y0 z0 key cl st a0 a1 a2 s1 v m i cx cy cz); auto. now rewrite Et. }
    assert (exists a0 a1 a2 s', plot_correction mk c p key cl st axs s = (Ok [a0; a1; a2], s') /\
      emitted s s' (grid_calls c v m x0 y0 z0 cx cy cz key cl st a0 a1 a2) /\
      match axs with
      | Some l => l = [a0; a1; a2]
      | None => a0 = cv_next s /\ a1 = S a0 /\ a2 = S a1 /\ cv_next s' = S a2
      end) as (a0 & a1 & a2 & s' & R1 & R2 & R3).
    { unfold plot_correction. rewrite Hx, bind_ok. destruct axs as [l|].
      - destruct (three l (Ha l eq_refl)) as (a0 & a1 & a2 & ->). rewrite G. do 4 eexists. split; [reflexivity|].
        split; reflexivity.
      - rewrite grid_new_axes, G. do 4 eexists. split; [reflexivity|]. split; [reflexivity|]. cbn. auto. }
    exists i, cx, cy, cz, a0, a1, a2, s', (grid_calls c v m x0 y0 z0 cx cy cz key cl st a0 a1 a2).
    split; [exact R1|]. split; [exact R2|]. split; [exact R3|].
    split. { unfold get_corrected_row. rewrite Hx. cbn [bind fst snd]. unfold closest_row. cbn [c_enforce bind].
             change (dr (mkcor t false (c_x c) (c_y c) (c_z c)) x0 y0 z0) with (dr c x0 y0 z0). now rewrite Hi. }
    split; [exact K1|]. split; [exact K2|]. split; [exact K3|].
    unfold grid_calls. split.
    { intros a x y. cbn [In]. split.
      - intros D. repeat (destruct D as [D|D]; [first [discriminate D | injection D as -> -> ->; auto 10] | ]); contradiction.
      - intros [(-> & -> & ->)|[(-> & -> & ->)|(-> & -> & ->)]]; auto 25. }
    split.
    { intros a x y. cbn [In]. split.
      - intros D. repeat (destruct D as [D|D]; [first [discriminate D | injection D as <- <- <-; auto 10] | ]); contradiction.
      - intros [(-> & -> & ->)|[(-> & -> & ->)|(-> & -> & ->)]]; auto 25. }
    split.
    { intros a x y w lo hi. cbn [In]. intros D.
      repeat (destruct D as [D|D]; [first [discriminate D | injection D as <- <- <- <- <- <-; auto 12] | ]); contradiction. }
    { intros a [->|[->|[->|[]]]]; do 5 eexists; cbn [In]; [left|do 4 right; left|do 8 right; left]; reflexivity. }
  Qed.

  Lemma correction_errors c p key cl st axs s :
    (forall e, get_xyz_from_p mk p = Err e -> plot_correction mk c p key cl st axs s = (Err e, s)) /\
    (forall l m, get_xyz_from_p mk p = Ok m -> axs = Some l -> List.length l <> 3%nat ->
       plot_correction mk c p key cl st axs s = (Err AssertionError, s)) /\
    (forall l m, get_xyz_from_p mk p = Ok m -> axs = Some l -> List.length l = 3%nat -> ~ In key (t_names (c_grid c)) ->
       plot_correction mk c p key cl st axs s = (Err KeyError, s)).
  Proof.
    unfold plot_correction. split; [|split].
    - intros e ->. reflexivity.
    - intros l m -> -> Hl. rewrite bind_ok. unfold plot_grid. apply Nat.eqb_neq in Hl. rewrite Hl. reflexivity.
    - intros l m -> -> Hl Hk. rewrite bind_ok. unfold plot_grid. rewrite Hl. cbn [Nat.eqb]. rewrite bind_ret.
      rewrite (missing_column _ _ Hk). reflexivity.
  Qed.
End GridPlot.
