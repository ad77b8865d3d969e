(** Iterated integrals of continuous functions over rectangles. *)
From Coq Require Import Reals Lra Lia.
From Coquelicot Require Import Coquelicot.
Local Open Scope R_scope.

Definition cont2 (g : R -> R -> R) : Prop := forall x y, continuity_2d_pt g x y.

Definition box (g : R -> R -> R) (a b c d : R) : R := RInt (fun x => RInt (fun y => g x y) c d) a b.

Lemma inner_cont g x : cont2 g -> forall y, continuous (fun y => g x y) y.
Proof.
  intros H y. apply continuity_pt_filterlim. intros eps He. destruct (H x y (mkposreal eps He)) as [d Hd].
  exists d. split; [apply cond_pos|]. intros z [_ Hz]. apply Hd; [|exact Hz].
  rewrite Rminus_eq_0, Rabs_R0. apply cond_pos.
Qed.

Lemma inner_ex g x c d : cont2 g -> ex_RInt (fun y => g x y) c d.
Proof. intros H. apply (ex_RInt_continuous (V := R_CompleteNormedModule)). intros z _. apply inner_cont. exact H. Qed.

Lemma outer_cont g c d : cont2 g -> c <= d -> forall x, continuous (fun x => RInt (fun y => g x y) c d) x.
Proof.
  intros H L x. apply continuity_pt_filterlim. intros eps He.
  assert (He' : 0 < eps / (2 * (d - c + 1))) by (apply Rdiv_lt_0_compat; lra).
  destruct (uniform_continuity_2d_1d' g c d x (fun y _ => H x y) (mkposreal _ He')) as [del Hd].
  exists del. split; [apply cond_pos|]. intros z [_ Hz]. change (Rabs (z - x) < del) in Hz.
  change (Rabs (RInt (fun y => g z y) c d - RInt (fun y => g x y) c d) < eps).
  assert (E : RInt (fun y => g z y) c d - RInt (fun y => g x y) c d = RInt (fun y => g z y - g x y) c d).
  { symmetry. apply (RInt_minus (V := R_CompleteNormedModule)); apply inner_ex; exact H. }
  rewrite E.
  apply Rle_lt_trans with ((d - c) * (eps / (2 * (d - c + 1)))).
  - apply abs_RInt_le_const; auto.
    + apply (ex_RInt_minus (V := R_NormedModule)); apply inner_ex; exact H.
    + intros y Hy. left. apply (Hd y x y z); auto; try (generalize (cond_pos del); lra).
      * apply Rabs_lt_between in Hz. lra.
      * rewrite Rminus_eq_0, Rabs_R0. apply cond_pos.
  - apply Rle_lt_trans with (eps / 2); [|lra]. replace (eps / 2) with ((d - c + 1) * (eps / (2 * (d - c + 1)))) by (field; lra).
    apply Rmult_le_compat_r; lra.
Qed.

Lemma outer_ex g a b c d : cont2 g -> c <= d -> ex_RInt (fun x => RInt (fun y => g x y) c d) a b.
Proof. intros H L. apply (ex_RInt_continuous (V := R_CompleteNormedModule)). intros z _. apply outer_cont; auto. Qed.

Lemma box_add_x g a b e c d : cont2 g -> c <= d -> box g a b c d + box g b e c d = box g a e c d.
Proof. intros H L. apply (RInt_Chasles (V := R_CompleteNormedModule)); apply outer_ex; auto. Qed.

Lemma box_add_y g a b c d e : cont2 g -> c <= d -> d <= e -> box g a b c d + box g a b d e = box g a b c e.
Proof.
  intros H L M. unfold box.
  transitivity (RInt (fun x => plus (RInt (fun y => g x y) c d) (RInt (fun y => g x y) d e)) a b).
  - symmetry. apply (RInt_plus (V := R_CompleteNormedModule)); apply outer_ex; auto.
  - apply RInt_ext. intros x _. apply (RInt_Chasles (V := R_CompleteNormedModule)); apply inner_ex; auto.
Qed.

Lemma box_empty_x g a c d : box g a a c d = 0.
Proof. unfold box. rewrite RInt_point. reflexivity. Qed.
Lemma box_empty_y g a b c : box g a b c c = 0.
Proof.
  unfold box. transitivity (RInt (fun _ : R => 0) a b).
  - apply RInt_ext. intros x _. rewrite RInt_point. reflexivity.
  - rewrite RInt_const. change (scal (b - a) 0 = 0). unfold scal. cbn. unfold mult. cbn. ring.
Qed.

Lemma box_le g h a b c d : cont2 g -> cont2 h -> a <= b -> c <= d ->
  (forall x y, a < x < b -> c < y < d -> g x y <= h x y) -> box g a b c d <= box h a b c d.
Proof.
  intros G H A C L. apply RInt_le; auto; try (apply outer_ex; auto). intros x Hx.
  apply RInt_le; auto; try (apply inner_ex; auto).
Qed.

Lemma cont2_const k : cont2 (fun _ _ => k).
Proof. intros x y. apply continuity_2d_pt_const. Qed.

Lemma cont2_affine p q r : cont2 (fun x y => p + q * x + r * y).
Proof.
  intros x y. repeat apply continuity_2d_pt_plus; repeat apply continuity_2d_pt_mult;
    try apply continuity_2d_pt_const; try apply continuity_2d_pt_id1; try apply continuity_2d_pt_id2.
Qed.

Lemma int_affine p q a b : RInt (fun x => p + q * x) a b = (b - a) * (p + q * ((a + b) / 2)).
Proof.
  apply is_RInt_unique. 
  assert (D : is_RInt (fun x => p + q * x) a b (minus (p * b + q * (b * b / 2)) (p * a + q * (a * a / 2)))).
  { apply (is_RInt_derive (fun x => p * x + q * (x * x / 2)) (fun x => p + q * x)).
    - intros x _. auto_derive; auto. field.
    - intros x _. apply (ex_derive_continuous (V := R_NormedModule)). auto_derive. auto. }
  replace ((b - a) * (p + q * ((a + b) / 2))) with (minus (p * b + q * (b * b / 2)) (p * a + q * (a * a / 2))); auto.
  unfold minus, plus, opp. cbn. field.
Qed.

Lemma box_affine p q r a b c d :
  box (fun x y => p + q * x + r * y) a b c d = (b - a) * (d - c) * (p + q * ((a + b) / 2) + r * ((c + d) / 2)).
Proof.
  unfold box. transitivity (RInt (fun x => (d - c) * (p + r * ((c + d) / 2)) + (d - c) * q * x) a b).
  - apply RInt_ext. intros x _. rewrite int_affine. match goal with |- ?l = ?r => change (@eq R l r) end. ring.
  - rewrite int_affine. ring.
Qed.

Lemma box_const k a b c d : box (fun _ _ => k) a b c d = (b - a) * (d - c) * k.
Proof.
  unfold box. transitivity (RInt (fun x => (d - c) * k + 0 * x) a b).
  - apply RInt_ext. intros x _. rewrite RInt_const. match goal with |- ?l = ?r => change (@eq R l r) end. unfold scal. cbn. unfold mult. cbn. ring.
  - rewrite int_affine. ring.
Qed.

Lemma box_bounds g a b c d lo hi : cont2 g -> a <= b -> c <= d ->
  (forall x y, a < x < b -> c < y < d -> lo <= g x y <= hi) ->
  (b - a) * (d - c) * lo <= box g a b c d <= (b - a) * (d - c) * hi.
Proof.
  intros G A C H. split; rewrite <- (box_const _ a b c d); apply box_le; auto; try apply cont2_const; intros; apply H; auto.
Qed.

(** the first integral along the other axis *)
Lemma iterated_unique (g : R -> R -> R) a b c d (h h' : R -> R) (I I' : R) : a <= b ->
  (forall x, a < x < b -> is_RInt (fun y => g x y) c d (h x)) -> is_RInt h a b I ->
  (forall x, a < x < b -> is_RInt (fun y => g x y) c d (h' x)) -> is_RInt h' a b I' -> I = I'.
Proof.
  intros L H1 H2 H3 H4. assert (is_RInt h a b I').
  { apply (is_RInt_ext h'); auto. intros x Hx. rewrite Rmin_left, Rmax_right in Hx by auto.
    transitivity (RInt (fun y => g x y) c d); [symmetry|]; apply is_RInt_unique; auto. }
  apply (is_RInt_unique (V := R_CompleteNormedModule)) in H2. apply (is_RInt_unique (V := R_CompleteNormedModule)) in H. congruence.
Qed.

Lemma iterated_box (g : R -> R -> R) a b c d (h : R -> R) (I : R) : cont2 g -> a <= b -> c <= d ->
  (forall x, a < x < b -> is_RInt (fun y => g x y) c d (h x)) -> is_RInt h a b I -> I = box g a b c d.
Proof.
  intros G A C H1 H2.
  apply (iterated_unique g a b c d h (fun x => RInt (fun y => g x y) c d) I (box g a b c d)); auto.
  - intros x _. apply (RInt_correct (V := R_CompleteNormedModule)). apply inner_ex. exact G.
  - apply (RInt_correct (V := R_CompleteNormedModule)). apply outer_ex; auto.
Qed.
