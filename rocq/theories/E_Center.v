(** Concrete cases for the 'center' method. *)
From Coq Require Import String.
From Verif Require Import Base Num Numpy M_Utils M_Photometry S_Photometry S_Petrosian S_Center M_PSF M_Fitting S_Fitting S_PetroR M_Segm S_Segm
  L_Numpy L_Photometry L_Center L_Segm6 E_Segm.
Local Open Scope list_scope.
Local Open Scope R_scope.

Lemma inside_circle x y r px py : 0 < r ->
  (inside_ellipse x y r (r / 1) 0 px py <-> (px - x) * (px - x) + (py - y) * (py - y) < r * r).
Proof.
  intros Hr. unfold inside_ellipse. rewrite cos_0, sin_0. split.
  - intros (s & u & H & -> & ->).
    replace ((x + r * s * 1 - r / 1 * u * 0 - x) * (x + r * s * 1 - r / 1 * u * 0 - x) + (y + r * s * 0 + r / 1 * u * 1 - y) * (y + r * s * 0 + r / 1 * u * 1 - y))
      with (r * r * (s * s + u * u)) by field.
    assert (r * r * (s * s + u * u) < r * r * 1) by (apply Rmult_lt_compat_l; nra). lra.
  - intros H. exists ((px - x) / r), ((py - y) / r). split; [|split; field; lra].
    apply (Rmult_lt_reg_r (r * r)); [nra|]. replace (((px - x) / r * ((px - x) / r) + (py - y) / r * ((py - y) / r)) * (r * r))
      with ((px - x) * (px - x) + (py - y) * (py - y)) by (field; lra). lra.
Qed.

Definition ones : img xr := mkimg 3 3 (fun _ _ => Fin 1).

Ltac decide_rltb := repeat match goal with |- context [Rltb ?a ?b] => first
  [rewrite (Rltb_true a b) by (cbn; lra) | rewrite (Rltb_false a b) by (cbn; lra)] end.

(** the plus-shaped set of 5 pixels *)
Lemma plus_example k : exists f a,
  radial_photometry center_overlap k ones (Fin 1, Fin 1) [Fin (6/5)] None None (Fin 1) (Fin 0) = Ok ([Fin f], [Fin a], [NaN]) /\
  rounded6 5 f /\ rounded6 5 a.
Proof.
  destruct (center_photometry k ones (fun _ _ => 1) 1 1 0 (6/5) None None 1
    (fun j i => Rltb ((INR i - 1) * (INR i - 1) + (INR j - 1) * (INR j - 1)) (6/5 * (6/5)))) as (f & a & e & E1 & E2 & E3 & E4 & _); cbn; auto; try lra.
  - intros j i. rewrite Rltb_iff, inside_circle by lra. tauto.
  - exists 1%nat, 1%nat. split; [lia|]. split; [lia|]. cbn. apply inside_centre.
  - discriminate.
  - exists f, a. rewrite (E4 eq_refl) in E1. split; auto.
    unfold sum2 in E2, E3. cbn [ones iny inx sum_to] in E2, E3.
    revert E2 E3. decide_rltb. intros E2 E3.
    split; [replace 5 with (0 + (0 + 0 + 1 + 0) + (0 + 1 + 1 + 1) + (0 + 0 + 1 + 0)) by lra|replace 5 with (0 + (0 + 0 + 1 + 0) + (0 + 1 + 1 + 1) + (0 + 0 + 1 + 0)) by lra]; assumption.
Qed.

(** source 1 of [labels]: pixels (0,0), (0,1) and (1,0), values 0, 1 and 10 *)
Lemma flux_example sigma_clip clipped_stats M O planar linear opts evalM k (sigma : xr) (kind : sigma_kind) : exists f0 f1 a0 a1,
  fst (source_photometry center_overlap sigma_clip clipped_stats M O planar linear opts evalM
    k (SCat one) 0%nat labels [Fin (1/2); Fin (3/2)] None VNone false sigma kind true memory) = Ok ([Fin f0; Fin f1], [Fin a0; Fin a1], [NaN; NaN]) /\
  rounded6 0 f0 /\ rounded6 1 a0 /\ rounded6 11 f1 /\ rounded6 3 a1.
Proof.
  destruct (source_flux_default sigma_clip clipped_stats M O planar linear opts evalM k one 0%nat labels [1/2; 3/2] sigma kind true memory
    1 0 (fun j i => INR (10 * j + i))
    (fun r Y X => (Nat.leb (Y + X) 1) && Rltb ((INR X - 0) * (INR X - 0) + (INR Y - 0) * (INR Y - 0)) (r * r)))
    as (F & A & E & LF & LA & H); auto; try (cbn; lia); try lra; try discriminate.
  - unfold valid. cbn. lia.
  - intros r [<-|[<-|[]]]; lra.
  - intros r Y X Hr. assert (0 < r) by (destruct Hr as [<-|[<-|[]]]; lra). cbn [one c_x c_y c_label].
    rewrite andb_true_iff, Rltb_iff, inside_circle by auto. unfold wanted. cbn [labels px].
    destruct (Nat.leb (Y + X) 1); [tauto|]. destruct (Nat.eqb (Y + X) 6); intuition congruence.
  - destruct F as [|f0 [|f1 [|? ?]]]; try discriminate LF. destruct A as [|a0 [|a1 [|? ?]]]; try discriminate LA.
    exists f0, f1, a0, a1. split; [exact E|].
    destruct (H 0%nat ltac:(cbn; lia)) as [H1 H2]. destruct (H 1%nat ltac:(cbn; lia)) as [H3 H4]. clear - H1 H2 H3 H4.
    unfold sum2, at_ in *. cbn [labels iny inx sum_to nth Nat.leb Nat.add andb Nat.mul] in H1, H2, H3, H4.
    revert H1 H2 H3 H4. decide_rltb. intros H1 H2 H3 H4. cbn in H1, H2, H3, H4.
    repeat split; (match goal with |- rounded6 ?a _ => match goal with K : rounded6 ?b ?c |- rounded6 _ ?c => replace a with b by lra; exact K end end).
Qed.
