(** An exact integrator, and the model x^2 on one pixel. *)
From Coq Require Import String.
From Coquelicot Require Import Coquelicot.
From Verif Require Import Base Num Numpy S_Photometry M_PSF S_PSF M_Fitting S_Fitting M_Integrate S_Integrate L_Integrate.
From Verif Require Import L_Quad.
Local Open Scope list_scope.
Local Open Scope R_scope.

Definition re (x : xr) : R := match x with Fin r => r | _ => 0 end.

Definition quad (f : xr -> xr -> xr) (a b c d : xr) : xr :=
  Fin (box (fun x y => re (f (Fin y) (Fin x))) (re a) (re b) (re c) (re d)).

Lemma quad_ok : integrates quad.
Proof.
  intros f g a b c d I L F (h & H1 & H2). unfold quad. cbn [re]. f_equal. unfold box.
  transitivity (RInt h a b).
  - apply RInt_ext. intros x Hx. rewrite Rmin_left, Rmax_right in Hx by auto.
    transitivity (RInt (fun y => g x y) c d).
    + apply RInt_ext. intros y _. rewrite F. reflexivity.
    + apply is_RInt_unique. apply H1. exact Hx.
  - apply is_RInt_unique. exact H2.
Qed.

Lemma square_continuous : continuous2 (fun x _ => x * x).
Proof.
  intros x y e He.
  assert (C : continuity_2d_pt (fun u _ => u * u) x y) by (apply continuity_2d_pt_mult; apply continuity_2d_pt_id1).
  destruct (C (mkposreal e He)) as [d Hd]. exists d. split; [apply cond_pos|]. intros x' y' A B. apply (Hd x' y'); auto.
Qed.

Lemma square_integral : integral2 (fun x _ => x * x) (0 + INR 0 - 1/2) (0 + INR 0 + 1/2) (0 + INR 0 - 1/2) (0 + INR 0 + 1/2) (1/12).
Proof.
  change (INR 0) with 0. replace (0 + 0 - 1/2) with (- (1/2)) by field. replace (0 + 0 + 1/2) with (1/2) by field.
  exists (fun x => x * x). split.
  - intros x _.
    assert (P : is_RInt (fun _ : R => x * x) (- (1/2)) (1/2) (scal (1/2 - - (1/2)) (x * x))) by apply (is_RInt_const (V := R_NormedModule)).
    assert (E : scal (1/2 - - (1/2)) (x * x) = x * x) by (change (@eq R ((1/2 - - (1/2)) * (x * x)) (x * x)); field).
    rewrite E in P. exact P.
  - assert (D : is_RInt (fun x => x * x) (- (1/2)) (1/2) (minus ((1/2) ^ 3 / 3) ((- (1/2)) ^ 3 / 3))).
    { apply (is_RInt_derive (fun x => x ^ 3 / 3) (fun x => x * x)).
      - intros x _. auto_derive; auto. field.
      - intros x _. apply (ex_derive_continuous (V := R_NormedModule)). auto_derive. auto. }
    replace (1/12) with (minus ((1/2) ^ 3 / 3) ((- (1/2)) ^ 3 / 3)); auto. change (@eq R ((1/2) ^ 3 / 3 + - ((- (1/2)) ^ 3 / 3)) (1/12)). field.
Qed.

Lemma square_pixel : exists m, model_to_image_integrate quad (fun x _ : xr => (x * x)%num) (VInt 1) false None = Ok m /\
  iny m = 1%nat /\ inx m = 1%nat /\ px m 0 0 = Fin (1/12).
Proof.
  assert (S : size_means (VInt 1) false 1 1) by (constructor; left; reflexivity).
  destruct (integrate_box quad (fun x _ : xr => (x * x)%num) (fun x _ => x * x) (VInt 1) false None 1 1 0 0) as (m & E & M1 & M2 & M3);
    try lia; auto using quad_ok, continuous2_cont2, square_continuous.
  - intros x y. reflexivity.
  - split; reflexivity.
  - exists m. repeat (split; [assumption|]). rewrite M3 by (cbn; lia). f_equal. unfold pixel_box. symmetry.
    apply integral2_unique; try (change (INR 0) with 0; lra).
    + apply continuous2_cont2, square_continuous.
    + exact square_integral.
Qed.

Lemma slope_ex : slope_at_most 3 (fun x y => 3 * x - 2 * y).
Proof.
  intros x y x' y'. replace (3 * x' - 2 * y' - (3 * x - 2 * y)) with (3 * (x' - x) + - (2 * (y' - y))) by ring.
  eapply Rle_trans; [apply Rabs_triang|]. rewrite Rabs_Ropp, !Rabs_mult, (Rabs_pos_eq 3), (Rabs_pos_eq 2) by lra.
  generalize (Rabs_pos (y' - y)). lra.
Qed.
