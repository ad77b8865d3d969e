(** Concrete cases of overshooting interpolation. *)
From Verif Require Import Base Num Numpy M_Utils M_Petrosian M_Interp M_Sersic Gamma S_Sersic S_Utils S_Petrosian S_PetroR S_Conv S_Spline
  L_Numpy L_Sersic L_Petrosian L_Conv L_Conv2 L_Spline L_Spline2 E_Conv.
Local Open Scope R_scope.

(** linear interpolation raised by [w]: it leaves the samples everywhere by exactly [w] *)
Definition mk_raised (w : R) (k : kind) (xs ys : list xr) : result (xr -> xr) :=
  bind (mk_linear k xs ys) (fun f => Ok (fun q => nadd (f q) (Fin w))).

Lemma raised_within w k xs ys : 0 <= w -> increasing xs -> length xs = length ys -> (2 <= length xs)%nat ->
  overshoots_within w (mk_raised w k) xs ys.
Proof.
  intros Hw I L L2. destruct (linear_no_overshoot k xs ys I L L2) as (f & Ef & Hf).
  eexists. split; [unfold mk_raised; rewrite Ef; reflexivity|]. intros i x Hi Hx.
  destruct (Hf i x Hi Hx) as (y & Ey & B). exists (y + w), y. cbn [bind]. rewrite Ey. split; [reflexivity|]. split; auto.
  replace (y + w - y) with w by ring. rewrite Rabs_pos_eq; lra.
Qed.
Lemma raised_overshoots w k : 0 < w -> ~ no_overshoot (mk_raised w k).
Proof.
  intros Hw N. destruct (N [0; 1] [0; 0]) as (f & Ef & H); auto.
  { intros [|i] Hi; cbn in Hi; [|lia]. unfold at_. cbn. lra. }
  destruct (H 0%nat 0 ltac:(cbn; lia) ltac:(unfold at_; cbn; lra)) as (y & Ey & B).
  assert (Ff : f (Fin 0) = nadd (linear_at (map Fin [0; 1]) (map Fin [0; 0]) (Fin 0)) (Fin w)).
  { change (Ok (fun q => nadd (linear_at (map Fin [0; 1]) (map Fin [0; 0]) q) (Fin w)) = Ok f) in Ef.
    apply (f_equal (fun r => match r with Ok g => g (Fin 0) | Err _ => NaN end)) in Ef. symmetry. exact Ef. }
  assert (I01 : increasing [0; 1]) by (intros [|i] Hi; cbn in Hi; [|lia]; unfold at_; cbn; lra).
  destruct (linear_fin [0; 1] [0; 0] 0 0%nat I01 eq_refl ltac:(cbn; lia) ltac:(unfold at_; cbn; lra)) as (y' & Ey' & B').
  rewrite Ey' in Ff. rewrite Ff in Ey. cbn in Ey. injection Ey as <-. unfold between, at_ in *. cbn [nth] in *. destruct B, B'; lra.
Qed.

Lemma C131_ex : petrosian_profile (Fin 1) (Fin 1) (Fin (1 / 2)) = Fin (ln 2) /\
  true_radius 1 1 (1 / 2) 0 1 2 (99 / 100) (99 / 100) 2 /\
  forall d w, 0 < d -> 0 < w ->
    (forall k, ~ no_overshoot (mk_raised w k)) /\
    exists rs L num, sampled 1 1 (1 / 2) 0 d (Rmax 1 (Rmax 2 (2 * 1)) + 1) rs L /\
      settings_within (mk_raised w) (ln 2) 2 (99 / 100) d w 0 rs L (set_ex num).
Proof.
  destruct C97_ex as (H1 & _ & H3). split; auto. split; [apply C98_ex|]. intros d w Hd Hw.
  split; [intros; now apply raised_overshoots|].
  destruct (H3 d Hd) as (rs & L & num & Sa & _ & _ & _ & k & Ek & _ & Hn).
  exists rs, L, num. split; auto. exists k. split; [repeat (split; [reflexivity|]); auto|]. destruct Sa as (Len & I & P0 & _ & _ & SF). split.
  - apply raised_within; auto; try lra; try lia. symmetry. rewrite (fluxes_map 1 1 (1 / 2) 0 rs L ltac:(lra) ltac:(lra) P0 I SF). apply map_length.
  - intros ys (Ly & _).
    assert (LL : length L = length rs) by (rewrite (fluxes_map 1 1 (1 / 2) 0 rs L ltac:(lra) ltac:(lra) P0 I SF); apply map_length).
    destruct rs as [|r0 rs]; [cbn in Len; lia|]. cbn [tl].
    apply raised_within; auto; try lra; try (cbn in *; lia). eapply inc_tl; eauto.
Qed.

(** the parabola through (0, 0), (1, 1) and (3, 0) rises to 9/8 *)
Definition parabola (x : R) : R := (3 * x - x * x) / 2.
Lemma C131_bend : bends_within 1 parabola [0; 1; 3] [0; 1; 0] /\ fine (5 / 2) [0; 1; 3] /\
  parabola (3 / 2) = 9 / 8 /\
  forall k, overshoots_within (1 * (5 / 2) ^ 2) (fun _ _ => Ok (fun x => match x with Fin q => Fin (parabola q) | _ => x end)) [0; 1; 3] [0; 1; 0]
    /\ no_overshoot (mk_linear k).
Proof.
  assert (B : bends_within 1 parabola [0; 1; 3] [0; 1; 0]).
  { split; [reflexivity|]. split.
    - intros [|[|[|i]]] Hi; cbn in Hi; try lia; unfold at_, parabola; cbn [nth]; lra.
    - intros i Hi. exists (fun x => (3 - 2 * x) / 2). split.
      + intros x _. unfold parabola.
        replace ((3 - 2 * x) / 2) with ((3 * 1 - (1 * x + x * 1)) * / 2 + (3 * x - x * x) * 0) by field.
        apply (derivable_pt_lim_mult (fun x => 3 * x - x * x) (fun _ => / 2)); [|apply derivable_pt_lim_const].
        apply (derivable_pt_lim_minus (fun x => 3 * x) (fun x => x * x)).
        * apply (derivable_pt_lim_scal id 3 x 1). apply derivable_pt_lim_id.
        * apply (derivable_pt_lim_mult id id); apply derivable_pt_lim_id.
      + intros x y Hx Hy. replace ((3 - 2 * y) / 2 - (3 - 2 * x) / 2) with (- (y - x)) by field.
        rewrite Rabs_Ropp, Rabs_pos_eq; lra. }
  assert (Fi : fine (5 / 2) [0; 1; 3]).
  { intros [|[|i]] Hi; cbn in Hi; try lia; unfold at_; cbn [nth]; lra. }
  split; auto. split; auto. split; [unfold parabola; lra|]. intros k. split; [|apply linear_no_overshoot].
  eapply curvature_bounds with (f := parabola); auto; try lra.
  - intros [|[|i]] Hi; cbn in Hi; try lia; unfold at_; cbn [nth]; lra.
Qed.
