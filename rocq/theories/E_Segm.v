(** Concrete cases for segmentation.py. *)
From Coq Require Import String Sorting.Permutation Sorting.Sorted.
From Verif Require Import Base Num Numpy M_Utils M_Photometry S_Photometry M_PSF M_Fitting S_Fitting S_PetroR M_Segm S_Segm L_Numpy L_Fitting2
  L_Segm L_Segm2 L_Segm3 L_Segm4 L_Segm5.
Local Open Scope list_scope.

(** two sources, 1 in a corner and 2 in the opposite one *)
Definition labels : img Z := mkimg 4 4 (fun j i =>
  if (j + i <=? 1)%nat then 1%Z else if Nat.eqb (j + i) 6 then 2%Z else 0%Z).

Lemma mask_example :
  exists m, segm_mask [] (AItem (LInt 1)) labels true = (Ok (Some m), []) /\
    px m 0 1 = true /\ px m 1 1 = false /\ px m 3 3 = false.
Proof. eexists. split; [reflexivity|]. repeat split. Qed.

Lemma mask_list_example :
  exists m, segm_mask [[LInt 2; LCat 1]] (AList 0) labels false = (Ok (Some m), [[LInt 2; LCat 1; LInt 0]]) /\
    px m 0 1 = true /\ px m 1 1 = true /\ px m 3 3 = true.
Proof. eexists. split; [reflexivity|]. repeat split. Qed.

Lemma history_example :
  let mem := [[LInt 1]] in
  let h := [mkcall (AItem (LInt 2)) labels false; mkcall (AList 0) labels false] in
  existsb (appends 0) h = true /\ after mem h = [[LInt 1; LInt 0]] /\
  (exists m, fst (segm_mask mem (AList 0) labels true) = Ok (Some m) /\ px m 1 1 = false) /\
  (exists m, fst (segm_mask (after mem h) (AList 0) labels true) = Ok (Some m) /\ px m 1 1 = true).
Proof. repeat split; eexists; split; reflexivity. Qed.

(** ** a sorting function *)
Definition kleb (a b : xr) : bool :=
  match a, b with _, NaN => true | NaN, _ => false | _, _ => nleb a b end.
Lemma kleb_ok a b : kleb a b = true <-> key_le a b.
Proof. destruct a, b; cbn; intuition congruence. Qed.
Lemma key_total a b : key_le a b \/ key_le b a.
Proof.
  destruct a as [| | |x], b as [| | |y]; cbn; auto. destruct (Rleb_spec x y), (Rleb_spec y x); auto. lra.
Qed.
Lemma key_trans a b c : key_le a b -> key_le b c -> key_le a c.
Proof.
  destruct a as [| | |x], b as [| | |y], c as [| | |z]; cbn; auto; try congruence; try contradiction.
  destruct (Rleb_spec x y), (Rleb_spec y z), (Rleb_spec x z); auto. lra.
Qed.

Section Sort.
  Variable l : list xr.
  Let key i := nth i l NaN.
  Fixpoint insert (i : nat) (o : list nat) : list nat :=
    match o with
    | [] => [i]
    | j :: tl => if kleb (key i) (key j) then i :: o else j :: insert i tl
    end.
  Definition isort (o : list nat) : list nat := fold_right insert [] o.

  Lemma insert_perm i o : Permutation (insert i o) (i :: o).
  Proof.
    induction o as [|j o IH]; cbn; auto. destruct (kleb _ _); auto.
    etransitivity; [apply perm_skip, IH|]. apply perm_swap.
  Qed.
  Lemma isort_perm o : Permutation (isort o) o.
  Proof. induction o as [|i o IH]; cbn; auto. etransitivity; [apply insert_perm|]. now apply perm_skip. Qed.
  Lemma insert_sorted i o : StronglySorted (fun a b => key_le (key a) (key b)) o ->
    StronglySorted (fun a b => key_le (key a) (key b)) (insert i o).
  Proof.
    induction o as [|j o IH]; intros H; cbn.
    - repeat constructor.
    - inversion H as [|? ? H1 H2]; subst. destruct (kleb (key i) (key j)) eqn:E.
      + apply kleb_ok in E. constructor; auto. constructor; auto. eapply Forall_impl; [|exact H2]. intros a K. eapply key_trans; eauto.
      + constructor; auto. assert (K : key_le (key j) (key i)).
        { destruct (key_total (key j) (key i)) as [K|K]; auto. apply kleb_ok in K. congruence. }
        apply Forall_forall. intros a Ha. apply (Permutation_in _ (insert_perm i o)) in Ha. destruct Ha as [<-|Ha]; auto.
        rewrite Forall_forall in H2. auto.
  Qed.
  Lemma isort_sorted o : StronglySorted (fun a b => key_le (key a) (key b)) (isort o).
  Proof. induction o; cbn; [constructor|]. now apply insert_sorted. Qed.
End Sort.

Definition argsort (l : list xr) : list nat := isort l (seq 0 (List.length l)).

Lemma sorted_nth {A} (P : A -> A -> Prop) l : StronglySorted P l -> forall a b p q,
  nth_error l a = Some p -> nth_error l b = Some q -> (a < b)%nat -> P p q.
Proof.
  induction 1 as [|x l S IH F]; intros a b p q Ha Hb Hab; [destruct a; discriminate|].
  destruct b; [lia|]. destruct a; cbn in Ha, Hb.
  - injection Ha as <-. rewrite Forall_forall in F. apply F. eapply nth_error_In; eauto.
  - eapply IH; eauto. lia.
Qed.

Lemma argsort_sorts : sorts argsort.
Proof.
  intros l. split; [apply isort_perm|]. intros a b p q Ha Hb Hab. apply (sorted_nth _ _ (isort_sorted l (seq 0 (List.length l))) a b p q); auto.
Qed.

Lemma order_example :
  order_cat argsort [("label", [Fin 1; Fin 2; Fin 3; Fin 4]); ("area", [Fin 5; NaN; PInf; Fin 2])]%string "area"%string true = Ok [1; 2; 0; 3]%nat.
Proof.
  unfold order_cat, argsort, isort. cbn [find fst String.eqb Ascii.eqb Bool.eqb snd List.length seq fold_right insert nth kleb nleb XRnum xleb].
  destruct (Rleb_spec 5 2); [lra|]. reflexivity.
Qed.

(** ** images *)
Definition picture : img xr := mkimg 4 4 (fun j i => Fin (INR (10 * j + i))).
(** the same with another value in source 2 *)
Definition picture2 : img xr := mkimg 4 4 (fun j i => if Nat.eqb j 3 && Nat.eqb i 3 then PInf else Fin (INR (10 * j + i))).
Definition memory : heap xr := [mkarr DFloat picture; mkarr DFloat picture2; mkarr DInt picture].
Definition one : row xr := mkrow 1 0 0 (Fin 1) (Fin 0).

Lemma masked_example : exists a,
  masked_segm_image [] (AItem (LInt 1)) 0 labels None true memory = (Ok (3%nat, []), memory ++ [a]) /\
  px (a_img a) 1 0 = Fin (INR 10) /\ px (a_img a) 1 1 = NaN.
Proof.
  destruct (masked_new [] (AItem (LInt 1)) memory 0 labels None true [LInt 1] NaN) as (a & E & _ & Ay & Ax & Ap); auto.
  { unfold valid. cbn. lia. } { left. discriminate. } { reflexivity. }
  exists a. split; [exact E|]. split.
  - apply (Ap 1 0)%nat; [rewrite Ay|rewrite Ax|]; cbn; try lia. left. exists (LInt 1). cbn. auto.
  - apply (Ap 1 1)%nat; [rewrite Ay|rewrite Ax|]; cbn; try lia. intros [(s & [<-|[]] & [K|K])|[_ K]]; discriminate.
Qed.

Lemma masked_errors_example :
  fst (masked_segm_image [[]] (AList 0) 0 labels None true memory) = Err TypeError /\
  fst (masked_segm_image [] (AItem (LInt 1)) 0 (mkimg 4 3 (px labels)) None true memory) = Err IndexError /\
  fst (masked_segm_image [] (AItem (LInt 1)) 2 labels None true memory) = Err ValueError.
Proof. repeat split. Qed.

Lemma usable_example : usable memory 0 (c_x one) (c_y one) 4 /\ usable memory 1 (c_x one) (c_y one) 8.
Proof.
  split; (split; [cbn; unfold valid; cbn; lia|]; split; [reflexivity|]; exists 0%Z, 0%Z; cbn; lia).
Qed.
Lemma side_example (rs : list xr) : cutout_side (VInt 3) rs = Ok 4%Z /\ cutout_side (VInt 8) rs = Ok 8%Z.
Proof. split; reflexivity. Qed.

Lemma agree_example mb : agree_on (used_labels 1 mb true) labels picture picture2 /\ px picture 3 3 <> px picture2 3 3.
Proof.
  split; [|cbn; discriminate]. split; [reflexivity|]. split; [reflexivity|].
  intros j i Hj Hi. cbn [picture picture2 px]. destruct (Nat.eqb_spec j 3) as [->|]; auto. destruct (Nat.eqb_spec i 3) as [->|]; auto.
  cbn. intros [[K|[K _]]|[K _]]; discriminate.
Qed.

(** background pixels of the cutouts *)
Definition bg_only : img xr := mkimg 4 4 (fun j i => if (px labels j i =? 0)%Z then px picture j i else NaN).
Lemma bg_keeps : keeps (fun z => z = 0%Z) labels picture bg_only.
Proof.
  split; auto. split; auto. intros j i _ _. cbn [bg_only px]. destruct (Z.eqb_spec (px labels j i) 0); split; auto; contradiction.
Qed.
Definition shifted (side : nat) (m : img xr) : img xr :=   (* cutout around pixel (0, 0) *)
  mkimg side side (fun j i => if (side / 2 <=? j)%nat && (side / 2 <=? i)%nat && (j - side / 2 <? iny m)%nat && (i - side / 2 <? inx m)%nat
    then px m (j - side / 2) (i - side / 2) else NaN).
Lemma shifted_cutout side m : Nat.even side = true -> is_cutout m 0 0 (Z.of_nat side) (shifted side m).
Proof.
  intros E. apply Nat.even_spec in E as (k & ->). assert (D : (2 * k / 2 = k)%nat) by (rewrite Nat.mul_comm, Nat.div_mul; lia).
  split; auto. split; auto. intros j i Y X Hj Hi EY EX. cbn [shifted px]. rewrite D.
  assert (DZ : (Z.of_nat (2 * k) / 2 = Z.of_nat k)%Z) by (rewrite Nat2Z.inj_mul, Z.mul_comm, Z.div_mul; lia). rewrite DZ in EY, EX.
  split; intros K.
  - destruct (Nat.leb_spec k j); [|lia]. destruct (Nat.leb_spec k i); [|lia].
    destruct (Nat.ltb_spec (j - k) (iny m)); [|lia]. destruct (Nat.ltb_spec (i - k) (inx m)); [|lia]. cbn [andb]. f_equal; lia.
  - destruct (Nat.leb_spec k j); auto. destruct (Nat.leb_spec k i); auto. destruct (Nat.ltb_spec (j - k) (iny m)); auto.
    destruct (Nat.ltb_spec (i - k) (inx m)); auto. destruct K. lia.
Qed.

Lemma background_few : background memory 0 labels 0 0 4 (shifted 4 bg_only) /\
  exists l, row_major (fun j i => (j < iny (shifted 4 bg_only))%nat /\ (i < inx (shifted 4 bg_only))%nat /\ px (shifted 4 bg_only) j i <> NaN) l /\
    List.length l = 1%nat.
Proof.
  split. { exists bg_only. split; [apply bg_keeps|]. now apply (shifted_cutout 4). }
  exists (good_pixels (shifted 4 bg_only)). split; [apply good_pixels_ok|]. reflexivity.
Qed.
Lemma background_many : background memory 0 labels 0 0 8 (shifted 8 bg_only) /\ many_background (shifted 8 bg_only).
Proof.
  split. { exists bg_only. split; [apply bg_keeps|]. now apply (shifted_cutout 8). }
  exists (good_pixels (shifted 8 bg_only)). split; [apply good_pixels_ok|]. cbn. lia.
Qed.

Lemma disc_example : disc_inside (1/2) 2 /\ ~ disc_inside (3/5) 2 /\ disc_inside 1 4 /\ smallest_even (3 * (3/5)) 2.
Proof.
  assert (E : forall r n, (r <= IZR n < r + 2)%R -> Z.even n = true -> smallest_even r n) by (intros; now split).
  split; [|split; [|split]].
  - apply (disc_inside_iff (1/2) 2); [lra|apply E; [lra|reflexivity]|left; lra].
  - intros K. apply (disc_inside_iff (3/5) 2) in K; [lra|lra|apply E; [lra|reflexivity]].
  - apply (disc_inside_iff 1 4); [lra|apply E; [lra|reflexivity]|right; lra].
  - apply E; [lra|reflexivity].
Qed.

(** ** a run in binary64: the whole square counts *)
Definition fz (z : Z) : f64 := nofZ z.
Definition picture64 : img f64 := mkimg 4 4 (fun j i => fz (Z.of_nat (10 * j + i))).
Definition run64 (cs : Z) (bg_sub : bool) (kind : sigma_kind) (mb : bool) :=
  fst (source_photometry (fun _ ny nx => Some (fun _ _ => fz 1)) (fun s _ => mkimg (iny s) (inx s) (fun _ _ => false))
    (fun _ => (fz 15, fz 5)) Z unit 0%Z
    (mkfitter false (fun _ _ d _ => Ok (Z.of_nat (List.length (fd_z d))))) tt
    (fun n x y => Ok (mkimg (iny x) (inx x) (fun j i => fz n)))
    PyFloat (SCat (mkrow 1 0 0 (fz 1) (fz 0))) 0 labels [fz 3] None (VInt cs) bg_sub (fz 2) kind mb [mkarr DFloat picture64]).
Lemma run_example :
  run64 3 false Clip true = Ok ([fz 11], [fz 3], [nnan]) /\     (* 0 + 1 + 10 *)
  run64 3 false Clip false = Ok ([fz 22], [fz 4], [nnan]) /\    (* and the background pixel 11 *)
  run64 3 true OtherKind false = run64 3 false Clip false /\    (* one background pixel: no subtraction *)
  run64 8 true OtherKind false = Err TypeError /\
  run64 8 true Clip true = Ok ([fz (-25)], [fz 3], [nnan]) /\   (* the fitter gets 12 pixels *)
  run64 8 true Bound true = Ok ([fz (-1)], [fz 3], [nnan]).     (* 7 pixels between 5 and 25; -2 - 2 + 3 *)
Proof. vm_compute. repeat split. Qed.

Lemma rejected_example : a_type (deref memory 2) = DInt /\ valid memory 2 /\ ~ overlaps picture 6 0 4 /\ overlaps picture 5 0 4.
Proof.
  split; [reflexivity|]. split; [unfold valid; cbn; lia|]. split.
  - intros (Y & X & H). cbn in H. lia.
  - exists 0%Z, 3%Z. cbn. lia.
Qed.
