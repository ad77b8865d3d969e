(** Windows whose centre names no parameter, and windows with factor 1. *)
From Coq Require Import String.
From Verif Require Import Base Num Numpy M_PSF S_PSF L_PSF L_PSF2.
Local Open Scope string_scope.
Local Open Scope list_scope.

Lemma index_of_unknown s l : ~ In s l -> index_of s l = None.
Proof.
  induction l as [|x l IH]; intros H; [reflexivity|]. cbn [index_of].
  destruct (String.eqb_spec s x) as [->|Hx]; [exfalso; apply H; now left|].
  rewrite IH; [reflexivity|]. intros K. apply H. now right.
Qed.
Lemma center_unknown (sm : submodel xr) ps s : ~ In s (sm_names sm) -> center_value sm ps (VStr s) = Err AssertionError.
Proof. intros H. cbn. now rewrite index_of_unknown. Qed.

Section W.
  Variables (rotate : img xr -> xr -> img xr) (names : list string) (f : list xr -> xr -> xr -> xr)
    (st : pst xr) (cx cy : pyv xr) (size fz : Z) (rx ry : list R) (ps : list xr) (pa : xr)
    (mx Mx my My : R).
  Let sm := mksm names (Fresh f).
  Hypothesis (HR : reachable rotate sm st) (Ho : p_over st = Some (OWin cx cy size fz))
    (Hpo : p_psf_over st = None) (Hx1 : is_min mx rx) (Hx2 : is_max Mx rx) (Hy1 : is_min my ry) (Hy2 : is_max My ry).

  Lemma to_window :
    exists m ij st', p_psf st' = p_psf st /\ p_psf_over st' = None /\
    m = sm_eval sm ps (make_grid (gsize mx Mx my My) (Fin mx, Fin my) 1) /\
    ij = combine (map (pixel_index mx) rx) (map (pixel_index my) ry) /\
    fst (evaluate rotate sm st (map Fin rx) (map Fin ry) ps pa) =
    (do m' <- apply_window sm ps cx cy size fz 1 (pixel_index mx Mx) (pixel_index my My) m; finish rotate st' pa ij m').
  Proof.
    pose proof (reachable_cache_ok rotate sm st eq_refl HR) as C.
    unfold evaluate.
    rewrite (pymin_is_min mx rx), (pymin_is_min my ry), (pymax_is_max Mx rx), (pymax_is_max My ry) by auto.
    cbn [bind]. rewrite !mapM_to_int by auto. cbn [bind]. cbv zeta.
    rewrite (zmax_index mx Mx), (zmax_index my My) by auto. rewrite Ho.
    change (Z.max (pixel_index mx Mx) (pixel_index my My) + 1)%Z with (gsize mx Mx my My).
    pose proof (main_grid_ok st (gsize mx Mx my My) (psf_factor st) (Fin mx) (Fin Mx) (Fin my) (Fin My) C) as [A _].
    pose proof (main_grid_settings st (gsize mx Mx my My) (psf_factor st) (Fin mx, Fin Mx, Fin my, Fin My)) as (_ & B1 & B2 & _).
    destruct (main_grid st _ _ _) as [r st']. cbn [fst snd] in *. subst r.
    assert (P1 : psf_factor st = 1%Z) by (unfold psf_factor; now rewrite Hpo). rewrite P1.
    do 2 eexists. exists st'. split; [exact B2|]. split; [congruence|]. split; [reflexivity|]. split; [reflexivity|].
    destruct (apply_window _ _ _ _ _ _ _ _ _ _); reflexivity.
  Qed.

  Lemma unknown_x s : cx = VStr s -> ~ In s names -> (1 < fz)%Z ->
    fst (evaluate rotate sm st (map Fin rx) (map Fin ry) ps pa) = Err AssertionError.
  Proof.
    intros E H Hf. destruct to_window as (m & ij & st' & _ & _ & _ & _ & ->).
    unfold apply_window. rewrite Z.div_1_r. destruct (Z.ltb_spec 1 fz); [|lia]. subst cx.
    now rewrite (center_unknown sm ps s H).
  Qed.
  Lemma unknown_y s x0 : centre_is names ps cx x0 -> cy = VStr s -> ~ In s names -> (1 < fz)%Z ->
    fst (evaluate rotate sm st (map Fin rx) (map Fin ry) ps pa) = Err AssertionError.
  Proof.
    intros Hc E H Hf. destruct to_window as (m & ij & st' & _ & _ & _ & _ & ->).
    unfold apply_window. rewrite Z.div_1_r. destruct (Z.ltb_spec 1 fz); [|lia]. subst cy.
    rewrite (center_value_spec sm ps cx x0 Hc). cbn [bind]. now rewrite (center_unknown sm ps s H).
  Qed.
End W.

Lemma unknown_name (rotate : img xr -> xr -> img xr) names f (st : pst xr) cx cy size fz rx ry ps pa s mx Mx my My :
  reachable rotate (mksm names (Fresh f)) st -> p_over st = Some (OWin cx cy size fz) -> p_psf_over st = None ->
  is_min mx rx -> is_max Mx rx -> is_min my ry -> is_max My ry ->
  ~ In s names -> cx = VStr s \/ (exists x0, centre_is names ps cx x0) /\ cy = VStr s -> (1 < fz)%Z ->
  fst (evaluate rotate (mksm names (Fresh f)) st (map Fin rx) (map Fin ry) ps pa) = Err AssertionError.
Proof.
  intros HR Ho Hpo Hx1 Hx2 Hy1 Hy2 Hs [E|[[x0 E] E']] Hf.
  - eapply unknown_x; eauto.
  - eapply unknown_y; eauto.
Qed.

(** factor 1: no window *)
Lemma factor_one (rotate : img xr -> xr -> img xr) names f (st : pst xr) cx cy size rx ry ps pa mx my :
  reachable rotate (mksm names (Fresh f)) st -> p_over st = Some (OWin cx cy size 1) -> p_psf st = None -> p_psf_over st = None ->
  is_min mx rx -> is_min my ry ->
  fst (evaluate rotate (mksm names (Fresh f)) st (map Fin rx) (map Fin ry) ps pa) =
  Ok (map (fun p => f ps (Fin (pix mx (fst p))) (Fin (pix my (snd p)))) (combine rx ry)).
Proof.
  intros HR Ho Hp Hpo Hx1 Hy1.
  assert (Nx : rx <> []) by (intros ->; destruct Hx1 as [[] _]).
  assert (Ny : ry <> []) by (intros ->; destruct Hy1 as [[] _]).
  destruct (max_exists rx Nx) as [Mx Hx2]. destruct (max_exists ry Ny) as [My Hy2].
  destruct (to_window rotate names f st cx cy size 1 rx ry ps pa mx Mx my My HR Ho Hpo Hx1 Hx2 Hy1 Hy2)
    as (m & ij & st' & Ep & Epo & -> & -> & ->).
  unfold apply_window. cbn [Z.div Z.ltb]. change (1 / 1)%Z with 1%Z. change (1 <? 1)%Z with false. cbn [bind].
  unfold finish, psf_factor. rewrite Ep, Hp, Epo. change (1 <? 1)%Z with false. cbv iota. rewrite fresh_image.
  apply (pick_ok _ (fun x y => f ps (Fin (pix mx x)) (Fin (pix my y))) mx Mx my My rx ry (gsize mx Mx my My)); auto.
  intros x y Ix Iy. cbn [px].
  pose proof (pixel_index_nonneg mx x (proj2 Hx1 x Ix)). pose proof (pixel_index_nonneg my y (proj2 Hy1 y Iy)).
  rewrite !INR_IZR_INZ, !Z2Nat.id by lia. reflexivity.
Qed.

(** a window around parameters that the model does not have *)
Definition named_state (f : Z) : pst xr := mkpst (Some (OWin (VStr "x_0") (VStr "y_0") 10 f)) None None true 0 0 None None.
Lemma named_example (rotate : img xr -> xr -> img xr) ps pa :
  fst (evaluate rotate (mksm ["slope"] (Fresh (fun _ x _ => x))) (named_state 2) (map Fin [1; 2]%R) (map Fin [0; 0]%R) ps pa) = Err AssertionError /\
  fst (evaluate rotate (mksm ["slope"] (Fresh (fun _ x _ => x))) (named_state 1) (map Fin [1; 2]%R) (map Fin [0; 0]%R) ps pa) = Ok [Fin 1; Fin 2].
Proof.
  assert (HR : forall f, (0 < f)%Z -> reachable rotate (mksm ["slope"] (Fresh (fun _ x _ => x))) (named_state f)).
  { intros f H. exists None, (VSeq [VStr "x_0"; VStr "y_0"; VInt 10; VInt f]), VNone, (named_state f), []. split; [|reflexivity].
    unfold new. cbn [set_oversample bind]. unfold set_oversample. cbn.
    destruct (Z.leb_spec f 0); [lia|]. cbn. rewrite Z.mod_1_r. reflexivity. }
  assert (M1 : is_min 1 [1; 2]%R) by (split; [now left|]; intros y [<-|[<-|[]]]; lra).
  assert (M2 : is_max 2 [1; 2]%R) by (split; [right; now left|]; intros y [<-|[<-|[]]]; lra).
  assert (M3 : is_min 0 [0; 0]%R) by (split; [now left|]; intros y [<-|[<-|[]]]; lra).
  assert (M4 : is_max 0 [0; 0]%R) by (split; [now left|]; intros y [<-|[<-|[]]]; lra).
  split.
  - apply (unknown_name rotate _ _ (named_state 2) (VStr "x_0") (VStr "y_0") 10 2 [1; 2]%R [0; 0]%R ps pa "x_0" 1 2 0 0);
      auto; [apply HR; lia|intros [H|[]]; discriminate H|lia].
  - rewrite (factor_one rotate _ _ (named_state 1) (VStr "x_0") (VStr "y_0") 10 [1; 2]%R [0; 0]%R ps pa 1 0); auto; [|apply HR; lia].
    cbn [combine map fst snd].
    pose proof (pix_whole 1 0) as P. pose proof (pix_whole 1 1) as Q. rewrite Rplus_0_r in P.
    replace (1 + 1)%R with 2%R in Q by ring. now rewrite P, Q.
Qed.
