(** Concrete cases for a change of the unit of length. *)
From Verif Require Import Base Num Numpy M_Utils M_Petrosian M_Interp S_PetObj S_Zoom S_Robust
  L_Numpy L_PetObj E_Petrosian L_Zoom E_Robust.
Local Open Scope R_scope.

(** linear interpolation commutes with stretching *)
Lemma linear_at_stretch c xs ys q : 0 < c -> linear_at (map (scale c) xs) ys (scale c q) = linear_at xs ys q.
Proof.
  intros Hc. revert ys. induction xs as [|x0 [|x1 xs] IH]; intros ys.
  - destruct ys; reflexivity.
  - destruct ys as [|y0 [|y1 ys]]; reflexivity.
  - destruct ys as [|y0 [|y1 ys]]; [reflexivity|reflexivity|].
    assert (Hi : 0 < / c) by now apply Rinv_0_lt_compat.
    assert (E : nadd (nmul (ndiv (nsub y1 y0) (nsub (scale c x1) (scale c x0))) (nsub (scale c q) (scale c x0))) y0
      = nadd (nmul (ndiv (nsub y1 y0) (nsub x1 x0)) (nsub q x0)) y0).
    { cbn [nadd nmul ndiv nsub XRnum].
      rewrite !(sc_sub c Hc), (sc_divr c Hc), (sc_mulr _ Hi), (sc_mull c Hc).
      rewrite <- (Rinv_inv c) at 2. now rewrite scale_inv. }
    cbn [map]. cbn [map] in IH. cbn [linear_at]. rewrite E. cbn [nleb XRnum]. rewrite (sc_leb c Hc).
    destruct (xleb q x1); auto. destruct xs as [|x2 xs]; auto. cbn [map]. apply (IH (y1 :: ys)).
Qed.
Lemma mk_linear_stretch : stretch_equivariant mk_linear.
Proof.
  intros c k xs ys Hc. unfold mk_linear. rewrite map_length.
  destruct (Nat.eqb _ _); auto. eexists. split; [reflexivity|]. intros q. now apply linear_at_stretch.
Qed.

Lemma C102_ex : stretch_equivariant mk_linear /\
  exists o o', Petrosian_new (plain rsR AR LR) setR = Ok o /\
    read mk_linear o A_r_petrosian = Ok (VNum (Fin 3)) /\
    Petrosian_new (zoomed_data 2 4 (plain rsR AR LR)) setR = Ok o' /\
    read mk_linear o' A_r_petrosian = Ok (VNum (Fin 6)).
Proof.
  split; [exact mk_linear_stretch|]. destruct C100_ex as (_ & _ & _ & _ & _ & o & _ & E & _ & Rd & _).
  pose proof (zoom_spec mk_linear 2 4 (plain rsR AR LR) setR mk_linear_stretch ltac:(lra) ltac:(lra) eq_refl) as Z.
  rewrite E in Z. destruct Z as (o' & E' & Z & _). exists o, o'. split; auto. split; auto. split; auto.
  rewrite (Z A_r_petrosian I), Rd. cbn [scale_val]. rewrite scale_fin. do 3 f_equal; lra.
Qed.
