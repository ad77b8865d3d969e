(** Least-squares planes: uniqueness and behaviour under added planes. *)
From Verif Require Import Base Num Numpy M_PSF M_Fitting S_Fitting S_LSQ.
Local Open Scope list_scope.
Local Open Scope R_scope.

Lemma total_cons {A} (f : A -> R) p l : total (map f (p :: l)) = f p + total (map f l).
Proof. reflexivity. Qed.
Lemma total_map_nonneg {A} (f : A -> R) l : (forall p, 0 <= f p) -> 0 <= total (map f l).
Proof. intros H. induction l as [|p l IH]; [cbn; lra|]. rewrite total_cons. pose proof (H p). lra. Qed.
Lemma misfit_nonneg g l : 0 <= misfit g l.
Proof. apply total_map_nonneg. intros p. apply pow2_ge_0. Qed.
Lemma total_zero {A} (f : A -> R) l : (forall p, 0 <= f p) -> total (map f l) <= 0 -> forall p, In p l -> f p = 0.
Proof.
  intros H. induction l as [|q l IH]; intros S p []; rewrite total_cons in S; pose proof (total_map_nonneg f l H); pose proof (H q).
  - subst. lra.
  - apply IH; auto. lra.
Qed.

(** the middle of two planes is closer than they are on average *)
Lemma misfit_middle a b c a' b' c' l :
  misfit (plane ((a + a') / 2) ((b + b') / 2) ((c + c') / 2)) l =
  (misfit (plane a b c) l + misfit (plane a' b' c') l) / 2 -
  total (map (fun p => (plane ((a - a') / 2) ((b - b') / 2) ((c - c') / 2) (col p) (line p)) ^ 2) l).
Proof.
  unfold misfit. induction l as [|p l IH]; [cbn; lra|]. rewrite !total_cons, IH.
  unfold plane. field.
Qed.

Lemma flat_plane a b c l : spread (map fst l) -> (forall p : point, In p l -> plane a b c (col p) (line p) = 0) -> l <> [] -> a = 0 /\ b = 0 /\ c = 0.
Proof.
  intros S H N. destruct (S a b (- c)) as [-> ->].
  - intros q Hq. apply in_map_iff in Hq as (p & <- & Hp). pose proof (H p Hp) as E. unfold plane, col, line in E. lra.
  - destruct l as [|p l]; [congruence|]. pose proof (H p (or_introl eq_refl)) as E. unfold plane in E. repeat split; lra.
Qed.
Lemma spread_nonempty l : spread l -> l <> [].
Proof. intros S ->. destruct (S 1 0 0); [intros p []|lra]. Qed.

Lemma best_unique l a b c a' b' c' : spread (map fst l) -> best_plane l a b c -> best_plane l a' b' c' -> a = a' /\ b = b' /\ c = c'.
Proof.
  intros S B B'. pose proof (misfit_middle a b c a' b' c' l) as M.
  pose proof (B ((a + a') / 2) ((b + b') / 2) ((c + c') / 2)) as H1.
  pose proof (B' ((a + a') / 2) ((b + b') / 2) ((c + c') / 2)) as H2.
  assert (Z : forall p, In p l -> plane ((a - a') / 2) ((b - b') / 2) ((c - c') / 2) (col p) (line p) = 0).
  { intros p Hp. assert (E : (plane ((a - a') / 2) ((b - b') / 2) ((c - c') / 2) (col p) (line p)) ^ 2 = 0).
    { apply (total_zero (fun p => (plane ((a - a') / 2) ((b - b') / 2) ((c - c') / 2) (col p) (line p)) ^ 2) l); auto.
      - intros q. apply pow2_ge_0.
      - lra. }
    cbn [pow] in E. rewrite Rmult_1_r in E. now apply Rsqr_0_uniq. }
  apply flat_plane in Z as (E1 & E2 & E3); auto; [lra|]. intros ->. apply (spread_nonempty _ S eq_refl).
Qed.

(** adding a plane to the values *)
Definition lifted (a b c : R) (p : point) : point := (fst p, snd p + plane a b c (col p) (line p)).
Lemma misfit_lifted a b c a' b' c' l : misfit (plane (a' + a) (b' + b) (c' + c)) (map (lifted a b c) l) = misfit (plane a' b' c') l.
Proof.
  unfold misfit. rewrite map_map. f_equal. apply map_ext. intros p. unfold lifted, col, line, plane. cbn [fst snd]. f_equal. ring.
Qed.
Lemma best_lifted l a b c p q r : best_plane l a b c -> best_plane (map (lifted p q r) l) (a + p) (b + q) (c + r).
Proof.
  intros B a' b' c'. rewrite misfit_lifted.
  pose proof (misfit_lifted p q r (a' - p) (b' - q) (c' - r) l) as E.
  replace (a' - p + p) with a' in E by ring. replace (b' - q + q) with b' in E by ring. replace (c' - r + r) with c' in E by ring.
  rewrite E. apply B.
Qed.
Lemma lifted_spread l a b c : spread (map fst l) -> spread (map fst (map (lifted a b c) l)).
Proof. now rewrite map_map. Qed.

(** values on a plane are fitted by that plane *)
Lemma best_exact l a b c : (forall p, In p l -> snd p = plane a b c (col p) (line p)) -> best_plane l a b c.
Proof.
  intros H a' b' c'. replace (misfit (plane a b c) l) with 0; [apply misfit_nonneg|].
  symmetry. unfold misfit. induction l as [|p l IH]; [reflexivity|]. rewrite total_cons.
  rewrite IH by (intros q Hq; apply H; now right). rewrite (H p (or_introl eq_refl)). ring.
Qed.
