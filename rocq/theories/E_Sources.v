(** Concrete cases for P_Sources. *)
From Coq Require Import String.
From Verif Require Import Base Num Numpy M_Utils M_Petrosian M_Sersic M_Sources Gamma S_Utils S_Sersic S_Sources
  L_Numpy L_Utils2 L_Sersic L_Sources E_Utils E_Sersic E_CorEx.
Local Open Scope R_scope.

Definition wcs_ex : wcs := {| scale0 := Fin (1/3600); scale1 := Fin (1/3600); cunit := Fin 1 |}.
Definition wcs_oblong : wcs := {| scale0 := Fin 1; scale1 := Fin 2; cunit := Fin 1 |}.

Lemma half_ex : read mk_ex ex_p A_r_half_light = Ok (VNum (Fin 1)).
Proof.
  destruct meas_ex as (a & Ha & Er & _). cbn [read]. unfold half. rewrite lit12. rewrite <- self2.
  rewrite (frac_ex a Er 2 (1/2)) by lra. reflexivity.
Qed.

Lemma C92_ex : good_wcs wcs_ex (1/3600) 1 /\
  r_half_light_arcsec mk_ex ex_p wcs_ex = Ok (Fin 1) /\
  r_half_light_arcsec mk_ex ex_p wcs_oblong = Err AssertionError.
Proof.
  assert (W : good_wcs wcs_ex (1/3600) 1) by exact C10_ex.
  destruct (arcsec_spec mk_ex ex_p A_r_half_light _ (or_introl (conj eq_refl eq_refl))) as (_ & _ & H & H').
  split; auto. split.
  - destruct (H 1 _ _ _ half_ex W) as [-> _]. do 2 f_equal. field.
  - apply (H' 1 _ 1 2 half_ex); auto. rewrite (Rabs_left (1 - 2)), (Rabs_right 2) by lra. lra.
Qed.

Definition row_ex : list (string * cell) :=
  [("label", CInt 1); ("maxval_xindex", CInt 5); ("maxval_yindex", CInt 7); ("elongation", CNum (Fin 2));
   ("ellipticity", CQty {| qval := Fin (1/2); qunit := Fin 1 |});
   ("orientation", CQty {| qval := Fin 90; qunit := Fin 1 |})]%string.

Lemma C93_ex :
  get_source_position (GRow row_ex) = Ok (CInt 5, CInt 7) /\
  (exists c, get_source_theta (GRow row_ex) = Ok c /\ angle_rad c (PI / 2)) /\
  (exists c, get_source_theta (GCat 5 7 (Fin 2) (Fin (1/2)) {| qval := Fin 90; qunit := Fin 1 |}) = Ok c /\
             angle_rad c (PI / 2)).
Proof.
  assert (U : forall n c, column row_ex n = Ok c -> under row_ex n c).
  { generalize row_ex. induction l as [|[m c0] l IH]; intros n c; cbn; [discriminate|].
    destruct (String.eqb_spec m n) as [->|N].
    - intros H. injection H as ->. exists [], l. split; auto.
    - intros H. destruct (IH n c H) as (b & a & -> & B). exists ((m, c0) :: b)%list, a. split; auto.
      intros c' [E|I]; [injection E; intros; contradiction|apply (B c' I)]. }
  assert (A := getters_spec 5 7 2 (1/2) 90 1 row_ex (CInt 5) (CInt 7) (CNum (Fin 2))
      (CQty {| qval := Fin (1/2); qunit := Fin 1 |}) (CQty {| qval := Fin 90; qunit := Fin 1 |}) R1_neq_R0
      (U "maxval_xindex"%string _ eq_refl) eq_refl (U "maxval_yindex"%string _ eq_refl) eq_refl
      (U "elongation"%string _ eq_refl) (or_introl eq_refl)
      (U "ellipticity"%string _ eq_refl) (or_intror eq_refl) (U "orientation"%string _ eq_refl)
      (or_intror (ex_intro _ 90 (ex_intro _ 1 (conj eq_refl eq_refl))))). cbv zeta in A.
  replace (PI / 2) with (90 * 1 * (PI / 180)) by field.
  destruct (A _ (or_introl eq_refl)) as (_ & _ & _ & H1).
  destruct (A _ (or_intror eq_refl)) as (H2 & _ & _ & H3). auto.
Qed.

Definition det_ex (i : nat) (thr : nat) (np : option Z) : result (option nat) :=
  Ok (if (thr <? i)%nat then Some (i + thr)%nat else None).
Definition deb_ex (i : nat) (s : option nat) (np : option Z) (nl : Z) (con : nat) : result (option nat) :=
  match s with Some s => Ok (Some (s + con)%nat) | None => Err ValueError end.
Definition cat_ex (i : nat) (s : option nat) (w : option nat) : result nat :=
  match s with Some s => Ok s | None => Err TypeError end.
Lemma C94_ex :
  make_catalog_args nat nat nat nat nat nat det_ex deb_ex cat_ex (Holder nat 9%nat) 3%nat None true (Some 5%Z) 30 7%nat
    = Ok (19%nat, Some 12%nat, Some 19%nat) /\
  make_catalog_args nat nat nat nat nat nat det_ex deb_ex cat_ex (Bare nat 9%nat) 3%nat None false (Some 5%Z) 30 7%nat
    = Ok (12%nat, Some 12%nat, None) /\
  make_catalog_args nat nat nat nat nat nat det_ex deb_ex cat_ex (Bare nat 2%nat) 3%nat None false (Some 5%Z) 30 7%nat
    = Err TypeError.
Proof. repeat split. Qed.

Lemma C95_ex : sersic_enclosed_model (Some (Fin 1)) (Some (Fin 1)) (Some (Fin (1/2))) None (Fin 1) = Fin (PI / ln 2) /\
  petrosian_model None (Some (Fin (1/2))) (Fin 1) = Fin (ln 2).
Proof. split; [exact (proj1 C33_ex)|exact C35_ex]. Qed.
