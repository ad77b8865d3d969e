(** Concrete case for turned, mirrored and cropped images. *)
From Coq Require Import String.
From Verif Require Import Base Num Numpy M_Utils M_Photometry S_Photometry S_Center S_Symm L_Numpy L_Photometry L_Center L_Segm6 E_Center L_Symm.
Local Open Scope list_scope.
Local Open Scope R_scope.

(** 0 1 2 / 3 4 5 / 6 7 8 *)
Definition count9 : img xr := mkimg 3 3 (fun j i => Fin (INR (3 * j + i))).

(** a circle of radius 6/5 around pixel (0, 1): values 0, 1, 2 and 4 *)
Lemma seven k : exists f a,
  radial_photometry center_overlap k count9 (Fin 1, Fin 0) [Fin (6/5)] None None (Fin 1) (Fin 0) = Ok ([Fin f], [Fin a], [NaN]) /\
  rounded6 7 f /\ rounded6 4 a.
Proof.
  destruct (center_photometry k count9 (fun j i => INR (3 * j + i)) 1 0 0 (6/5) None None 1
    (fun j i => Rltb ((INR i - 1) * (INR i - 1) + (INR j - 0) * (INR j - 0)) (6/5 * (6/5)))) as (f & a & e & E1 & E2 & E3 & E4 & _); cbn [fits]; auto; try lra.
  - intros j i. rewrite Rltb_iff, inside_circle by lra. cbn. tauto.
  - exists 0%nat, 1%nat. split; [cbn; lia|]. split; [cbn; lia|]. cbn. apply inside_centre.
  - discriminate.
  - exists f, a. rewrite (E4 eq_refl) in E1. split; auto.
    unfold sum2 in E2, E3. cbn [count9 iny inx sum_to] in E2, E3.
    revert E2 E3. decide_rltb. intros E2 E3.
    match type of E2 with rounded6 ?u _ => replace u with 7 in E2 by (cbn; lra) end.
    match type of E3 with rounded6 ?u _ => replace u with 4 in E3 by (cbn; lra) end. auto.
Qed.
Lemma C105_ex k : exists f a, rounded6 7 f /\ rounded6 4 a /\
  radial_photometry center_overlap k count9 (Fin 1, Fin 0) [Fin (6/5)] None None (Fin 1) (Fin 0) = Ok ([Fin f], [Fin a], [NaN]) /\
  radial_photometry center_overlap k (window 0 0 2 3 count9) (Fin 1, Fin 0) [Fin (6/5)] None None (Fin 1) (Fin 0) = Ok ([Fin f], [Fin a], [NaN]).
Proof.
  destruct (seven k) as (f & a & E & F & A). exists f, a. split; auto. split; auto. split; auto. rewrite <- E.
  pose proof (radial_window 0 0 2 3 k count9 1 0 [6 / 5] None None 1 0) as H. cbn [map option_map INR] in H.
  rewrite <- H.
  - do 2 f_equal; f_equal; cbn; lra.
  - cbn; lia.
  - cbn; lia.
  - exact I.
  - exact I.
  - lra.
  - intros r [<-|[]]. lra.
  - cbn. lra.
  - cbn. lra.
  - intros r j i [<-|[]] Hj Hi Hin _. apply inside_circle in Hin; [|lra]. cbn in Hj, Hi. split; [|lia].
    destruct j as [|[|[|j]]]; try lia. cbn in Hin. exfalso. pose proof (Rle_0_sqr (INR i - 1)) as Q. unfold Rsqr in Q. lra.
Qed.
Lemma C104_ex k : exists f a, rounded6 7 f /\ rounded6 4 a /\
  radial_photometry center_overlap k (transposed count9) (Fin 0, Fin 1) [Fin (6/5)] None None (Fin 1) (Fin 0) = Ok ([Fin f], [Fin a], [NaN]) /\
  radial_photometry center_overlap k (upended count9) (Fin 1, Fin 2) [Fin (6/5)] None None (Fin 1) (Fin 0) = Ok ([Fin f], [Fin a], [NaN]).
Proof.
  destruct (seven k) as (f & a & E & F & A). exists f, a. split; auto. split; auto. split.
  - rewrite (radial_circle k _ _ _ None None 0 (PI / 2 - 0)).
    pose proof (radial_transposed center_overlap k count9 None None (Fin 1) (Fin 0) (Fin 1) (Fin 0) [Fin (6/5)] center_transposes) as H.
    cbn [option_map] in H. rewrite E in H. exact H.
  - pose proof (radial_upended center_overlap k count9 None None (Fin 1) (Fin 0) (Fin 1) (Fin 0) [Fin (6/5)] center_upends) as H.
    cbn [option_map] in H. rewrite E in H. rewrite <- H. f_equal; [|cbn; f_equal; lra]. f_equal. cbn. f_equal. lra.
Qed.
Lemma C106_ex k : exists f a, rounded6 7 f /\ rounded6 4 a /\
  radial_photometry center_overlap k count9 (Fin 1, Fin 0) [Fin (6/5)] None None (Fin 1) (Fin (1 / 3)) = Ok ([Fin f], [Fin a], [NaN]).
Proof.
  destruct (seven k) as (f & a & E & F & A). exists f, a. split; auto. split; auto. now rewrite (radial_circle k _ _ _ None None (1 / 3) 0).
Qed.
