(** A least-squares fitter, and a tilted image. *)
From Coq Require Import String Classical_Prop.
From Verif Require Import Base Num Numpy M_Utils M_Photometry S_Photometry S_Petrosian S_Center M_PSF M_Fitting S_Fitting S_PetroR M_Segm S_Segm
  L_Numpy L_Photometry L_Center L_Fitting2 L_Segm4 L_Segm6 E_Segm E_Center S_LSQ L_LSQ L_LSQ2 L_LSQ3 L_LSQ4.
Local Open Scope list_scope.
Local Open Scope R_scope.

(** ** The normal equations *)
Section Normal.
  Variable l : list point.
  Definition count : R := total (map (fun _ => 1) l).
  Definition xm : R := total (map col l) / count.
  Definition ym : R := total (map line l) / count.
  Definition zm : R := total (map (fun p => snd p) l) / count.
  Definition sxx : R := total (map (fun p => (col p - xm) * (col p - xm)) l).
  Definition sxy : R := total (map (fun p => (col p - xm) * (line p - ym)) l).
  Definition syy : R := total (map (fun p => (line p - ym) * (line p - ym)) l).
  Definition sxz : R := total (map (fun p => (col p - xm) * (snd p - zm)) l).
  Definition syz : R := total (map (fun p => (line p - ym) * (snd p - zm)) l).
  Definition disc : R := sxx * syy - sxy * sxy.
  Definition slope_x : R := (sxz * syy - syz * sxy) / disc.
  Definition slope_y : R := (syz * sxx - sxz * sxy) / disc.
  Definition level : R := zm - slope_x * xm - slope_y * ym.
End Normal.

Lemma total_lin3 {A} (f g k : A -> R) a b c l : total (map (fun p => a * f p + b * g p + c * k p) l) = a * total (map f l) + b * total (map g l) + c * total (map k l).
Proof. induction l as [|p l IH]; [cbn; ring|]. rewrite !total_cons, IH. ring. Qed.
Lemma total_ext {A} (f g : A -> R) l : (forall p, f p = g p) -> total (map f l) = total (map g l).
Proof. intros H. f_equal. now apply map_ext. Qed.

Lemma count_pos l : l <> [] -> 0 < count l.
Proof. destruct l as [|p l]; [congruence|]. intros _. unfold count. rewrite total_cons. pose proof (total_map_nonneg (fun _ : point => 1) l ltac:(intros; lra)). lra. Qed.

Lemma centred (f : point -> R) l : l <> [] -> total (map (fun p => f p - total (map f l) / count l) l) = 0.
Proof.
  intros H. pose proof (count_pos l H). set (m := total (map f l) / count l).
  rewrite (total_ext _ (fun p => 1 * f p + (- m) * 1 + 0 * 0)) by (intros; ring).
  rewrite (total_lin3 f (fun _ => 1) (fun _ => 0)). fold (count l). unfold m. field. lra.
Qed.

Lemma disc_nonzero l : spread (map fst l) -> disc l <> 0.
Proof.
  intros S E. unfold disc in E.
  destruct (Req_dec (sxx l) 0) as [Z|Z].
  - assert (H : forall p, In p l -> (col p - xm l) * (col p - xm l) = 0).
    { apply (total_zero (fun p => (col p - xm l) * (col p - xm l))); [intros; apply Rle_0_sqr|]. fold (sxx l). lra. }
    destruct (S 1 0 (xm l)); [|lra]. intros q Hq. apply in_map_iff in Hq as (p & <- & Hp). pose proof (H p Hp) as K. apply Rsqr_0_uniq in K. unfold col in K. lra.
  - assert (H : forall p, In p l -> (sxy l * (col p - xm l) - sxx l * (line p - ym l)) ^ 2 = 0).
    { apply (total_zero (fun p => (sxy l * (col p - xm l) - sxx l * (line p - ym l)) ^ 2)); [intros; apply pow2_ge_0|].
      rewrite (total_ext _ (fun p => (sxy l * sxy l) * ((col p - xm l) * (col p - xm l)) + (- (2 * sxy l * sxx l)) * ((col p - xm l) * (line p - ym l)) +
        (sxx l * sxx l) * ((line p - ym l) * (line p - ym l)))) by (intros; ring).
      rewrite (total_lin3 (fun p => (col p - xm l) * (col p - xm l)) (fun p => (col p - xm l) * (line p - ym l)) (fun p => (line p - ym l) * (line p - ym l))).
      fold (sxx l) (sxy l) (syy l). replace (_ + _ + _) with (sxx l * (sxx l * syy l - sxy l * sxy l)) by ring. rewrite E. lra. }
    destruct (S (sxy l) (- sxx l) (sxy l * xm l - sxx l * ym l)) as [_ K]; [|lra]. intros q Hq. apply in_map_iff in Hq as (p & <- & Hp).
    pose proof (H p Hp) as K. cbn [pow] in K. rewrite Rmult_1_r in K. apply Rsqr_0_uniq in K. unfold col, line in K. lra.
Qed.

Lemma normal_best l : spread (map fst l) -> best_plane l (slope_x l) (slope_y l) (level l).
Proof.
  intros S. pose proof (disc_nonzero l S) as D. assert (N : l <> []) by (intros ->; apply (spread_nonempty _ S eq_refl)).
  set (a := slope_x l). set (b := slope_y l). set (e := fun p : point => (snd p - zm l) - a * (col p - xm l) - b * (line p - ym l)).
  assert (T0 : total (map e l) = 0).
  { unfold e. rewrite (total_ext _ (fun p => 1 * (snd p - zm l) + (- a) * (col p - xm l) + (- b) * (line p - ym l))) by (intros; ring).
    rewrite (total_lin3 (fun p : point => snd p - zm l) (fun p => col p - xm l) (fun p => line p - ym l)).
    assert (Z1 : total (map (fun p : point => snd p - zm l) l) = 0) by exact (centred (fun p : point => snd p) l N).
    assert (Z2 : total (map (fun p : point => col p - xm l) l) = 0) by exact (centred col l N).
    assert (Z3 : total (map (fun p : point => line p - ym l) l) = 0) by exact (centred line l N).
    rewrite Z1, Z2, Z3. ring. }
  assert (T1 : total (map (fun p => e p * (col p - xm l)) l) = 0).
  { unfold e. rewrite (total_ext _ (fun p => 1 * ((col p - xm l) * (snd p - zm l)) + (- a) * ((col p - xm l) * (col p - xm l)) + (- b) * ((col p - xm l) * (line p - ym l)))) by (intros; ring).
    rewrite (total_lin3 (fun p : point => (col p - xm l) * (snd p - zm l)) (fun p => (col p - xm l) * (col p - xm l)) (fun p => (col p - xm l) * (line p - ym l))).
    fold (sxz l) (sxx l) (sxy l). unfold a, b, slope_x, slope_y, disc in *. field. exact D. }
  assert (T2 : total (map (fun p => e p * (line p - ym l)) l) = 0).
  { unfold e. rewrite (total_ext _ (fun p => 1 * ((line p - ym l) * (snd p - zm l)) + (- a) * ((col p - xm l) * (line p - ym l)) + (- b) * ((line p - ym l) * (line p - ym l)))) by (intros; ring).
    rewrite (total_lin3 (fun p : point => (line p - ym l) * (snd p - zm l)) (fun p => (col p - xm l) * (line p - ym l)) (fun p => (line p - ym l) * (line p - ym l))).
    fold (syz l) (syy l) (sxy l). unfold a, b, slope_x, slope_y, disc in *. field. exact D. }
  intros a' b' c'. unfold misfit.
  set (c0 := zm l - a' * xm l - b' * ym l - c').
  set (g := fun p : point => (a - a') * (col p - xm l) + (b - b') * (line p - ym l) + c0).
  rewrite (total_ext (fun p => (snd p - plane a b (level l) (col p) (line p)) ^ 2) (fun p => e p ^ 2)).
  2:{ intros p. unfold e, plane, level. fold a b. ring. }
  rewrite (total_ext (fun p => (snd p - plane a' b' c' (col p) (line p)) ^ 2) (fun p => 1 * e p ^ 2 + 2 * (e p * g p) + 1 * g p ^ 2)).
  2:{ intros p. unfold e, g, plane, c0. ring. }
  rewrite (total_lin3 (fun p => e p ^ 2) (fun p => e p * g p) (fun p => g p ^ 2)).
  rewrite (total_ext (fun p => e p * g p) (fun p => (a - a') * (e p * (col p - xm l)) + (b - b') * (e p * (line p - ym l)) + c0 * e p)) by (intros; unfold g; ring).
  rewrite (total_lin3 (fun p => e p * (col p - xm l)) (fun p => e p * (line p - ym l)) e), T0, T1, T2.
  pose proof (total_map_nonneg (fun p => g p ^ 2) l ltac:(intros; apply pow2_ge_0)) as G. clearbody g e. cbn beta in *. set (A := total (map (fun p => e p ^ 2) l)) in *. set (B := total (map (fun p => g p ^ 2) l)) in *. apply (Rle_trans _ A); [apply Rle_refl|lra].
Qed.

(** ** A fitter *)
Definition lsq (obeys : bool) : fitter (T:=xr) (R * R * R) unit :=
  mkfitter false (fun _ _ d _ =>
    let l := fitted_points obeys (fd_x d) (fd_y d) (map fin (fd_z d)) (fd_mask d) in Ok (slope_x l, slope_y l, level l)).
Definition planeM (m : R * R * R) : smodel (T:=xr) :=
  pointwise (fun x y => match x, y with Fin x, Fin y => Fin (plane (fst (fst m)) (snd (fst m)) (snd m) x y) | _, _ => NaN end).

Lemma lsq_fits obeys : fits_planes (lsq obeys) (0, 0, 0) planeM obeys.
Proof.
  intros calc o x y z mask _ _ _ S. cbn [lsq ft_run fd_x fd_y fd_z fd_mask].
  assert (E : map fin (map Fin z) = z) by (rewrite map_map; cbn [fin]; apply map_id). rewrite E.
  set (l := fitted_points obeys x y z mask) in *.
  exists (slope_x l, slope_y l, level l), (fun x y => match x, y with Fin x, Fin y => Fin (plane (slope_x l) (slope_y l) (level l) x y) | _, _ => NaN end),
    (slope_x l), (slope_y l), (level l). split; auto. split; [reflexivity|]. split; [now intros u v|]. now apply normal_best.
Qed.

(** ** Source 1 on a dark sky, and on a tilted sky *)
Definition dark : img xr := mkimg 4 4 (fun j i => if (px labels j i =? 0)%Z then Fin 0 else Fin (INR (10 * j + i))).
Definition tilted : img xr := mkimg 4 4 (fun j i => match px dark j i with Fin v => Fin (v + plane 2 3 7 (INR i) (INR j)) | x => x end).
Definition skies : heap xr := [mkarr DFloat dark; mkarr DFloat tilted].
(** a clipping that leaves out pixel (0, 2) of the image *)
Definition one_clipped (s : img xr) (_ : xr) : img bool := mkimg (iny s) (inx s) (fun j i => Nat.eqb j 4 && Nat.eqb i 6).

Lemma tilted_is : plus_plane 2 3 7 (a_img (deref skies 0%nat)) (a_img (deref skies 1%nat)).
Proof. split; auto. Qed.
Lemma skies_usable r : (r < 2)%nat -> usable skies r (c_x one) (c_y one) 8.
Proof. intros H. destruct r as [|[|]]; [| |lia]; (split; [cbn; unfold valid; cbn; lia|]; split; [reflexivity|]; exists 0%Z, 0%Z; cbn; lia). Qed.

Definition sky_only (m : img xr) : img xr := mkimg 4 4 (fun j i => if (px labels j i =? 0)%Z then px m j i else NaN).
Lemma sky_keeps m : iny m = 4%nat -> inx m = 4%nat -> keeps (fun z => z = 0%Z) labels m (sky_only m).
Proof.
  intros Hy Hx. split; [now rewrite Hy|]. split; [now rewrite Hx|]. intros j i _ _. cbn [sky_only px]. destruct (Z.eqb_spec (px labels j i) 0); split; auto; contradiction.
Qed.
Lemma sky_background r : (r < 2)%nat -> background skies r labels 0 0 8 (shifted 8 (sky_only (a_img (deref skies r)))).
Proof.
  intros H. exists (sky_only (a_img (deref skies r))). split; [|now apply (shifted_cutout 8)]. destruct r as [|[|]]; [| |lia]; now apply sky_keeps.
Qed.

Lemma same_many s s' : same_data s s' -> many_background s' -> many_background s.
Proof.
  intros H (l & L & Hn). exists l. split; auto. eapply row_major_iff; [|exact L]. intros j i. destruct H as (H1 & H2 & H3). cbn beta. rewrite H1, H2.
  split; intros (A & B & C); repeat split; auto; [rewrite H3 by lia|rewrite <- H3 by lia]; auto.
Qed.
Lemma same_good s s' j i : same_data s s' -> good s j i -> good s' j i /\ px s j i = px s' j i.
Proof. intros (H1 & H2 & H3) (A & B & C). assert (E := H3 j i A B). split; auto. unfold good. rewrite <- H1, <- H2, <- E. auto. Qed.

Lemma sky_ready s s' : background skies 0%nat labels 0 0 8 s -> background skies 1%nat labels 0 0 8 s' ->
  many_background s /\ (forall j i, good s j i -> px s j i = Fin 0) /\ spread_on (unmasked true s' (one_clipped s' (Fin 3))).
Proof.
  intros B B'.
  pose proof (background_unique _ _ _ _ _ _ _ _ B (sky_background 0%nat ltac:(lia))) as E.
  pose proof (background_unique _ _ _ _ _ _ _ _ B' (sky_background 1%nat ltac:(lia))) as E'.
  split; [|split].
  - eapply same_many; [exact E|]. exists (good_pixels (shifted 8 (sky_only (a_img (deref skies 0%nat))))). split; [apply good_pixels_ok|]. cbn. lia.
  - intros j i G. destruct (same_good _ _ _ _ E G) as (G' & ->). destruct G' as (_ & _ & G'). revert G'. cbn [shifted px sky_only deref skies nth a_img dark].
    destruct (_ && _)%bool; [|congruence]. destruct (_ =? 0)%Z eqn:Z; [|congruence]. auto.
  - intros u v w H.
    assert (U : forall j i, In (j, i) [(5, 5); (5, 6); (6, 5)]%nat -> unmasked true s' (one_clipped s' (Fin 3)) j i).
    { intros j i Hi. destruct E' as (E1 & E2 & E3). cbn [shifted iny inx] in E1, E2.
      assert (j < 8 /\ i < 8)%nat as [Hj Hi'] by (destruct Hi as [K|[K|[K|[]]]]; injection K as <- <-; lia).
      split; [|intros _; cbn; destruct Hi as [K|[K|[K|[]]]]; injection K as <- <-; reflexivity].
      split; [lia|]. split; [lia|]. rewrite E3 by lia. destruct Hi as [K|[K|[K|[]]]]; injection K as <- <-; cbn; discriminate. }
    pose proof (H 5%nat 5%nat (U _ _ (or_introl eq_refl))) as H1. pose proof (H 5%nat 6%nat (U _ _ (or_intror (or_introl eq_refl)))) as H2.
    pose proof (H 6%nat 5%nat (U _ _ (or_intror (or_intror (or_introl eq_refl))))) as H3. cbn in H1, H2, H3. lra.
Qed.

Lemma sky_example clipped_stats k :
  fits_planes (lsq true) (0, 0, 0) planeM true /\
  let run image bg_sub := fst (source_photometry center_overlap one_clipped clipped_stats (R * R * R) unit (0, 0, 0) (lsq true) tt planeM
    k (SCat one) image labels [Fin (1/2); Fin (5/2)] None VNone bg_sub (Fin 3) Clip true skies) in
  run 1%nat true = run 0%nat false /\
  exists f0 f1 a0 a1, run 1%nat true = Ok ([Fin f0; Fin f1], [Fin a0; Fin a1], [NaN; NaN]) /\
    rounded6 0 f0 /\ rounded6 1 a0 /\ rounded6 11 f1 /\ rounded6 3 a1.
Proof.
  split; [apply lsq_fits|]. intros run.
  assert (E : run 1%nat true = run 0%nat false).
  { unfold run. apply (flat_clip center_overlap one_clipped clipped_stats (R * R * R) unit (0, 0, 0) (lsq true) tt planeM k one 0%nat 1%nat labels
      [Fin (1/2); Fin (5/2)] None VNone (Fin 3) true skies 8 2 3 7 true); auto; try lia; try discriminate.
    - apply skies_usable. lia. - apply skies_usable. lia.
    - destruct (L_Segm5.side_default [1/2; 5/2] (5/2)) as (n & E & Ev & H1 & H2).
      { split; [now right; left|]. intros r [<-|[<-|[]]]; lra. }
      cbn [map] in E. rewrite E. f_equal. apply Z.even_spec in Ev as (q & ->). rewrite mult_IZR in H1, H2.
      assert (3 < IZR q) by lra. assert (IZR q < 5) by lra. apply lt_IZR in H. apply lt_IZR in H0. lia.
    - apply lsq_fits.
    - apply tilted_is.
    - intros s s' B B'. now apply sky_ready. }
  split; [exact E|]. rewrite E. unfold run.
  destruct (source_flux_default one_clipped clipped_stats (R * R * R) unit (0, 0, 0) (lsq true) tt planeM k one 0%nat labels [1/2; 5/2] (Fin 3) Clip true skies
    1 0 (fun j i => if (px labels j i =? 0)%Z then 0 else INR (10 * j + i))
    (fun r Y X => (Nat.leb (Y + X) 1) && Rltb ((INR X - 0) * (INR X - 0) + (INR Y - 0) * (INR Y - 0)) (r * r)))
    as (F & A & E1 & LF & LA & H); auto; try (cbn; lia); try lra; try discriminate.
  - unfold valid. cbn. lia.
  - intros r [<-|[<-|[]]]; lra.
  - intros j i Hj Hi _. cbn [skies deref nth a_img dark px]. now destruct (_ =? 0)%Z.
  - intros r Y X Hr. assert (0 < r) by (destruct Hr as [<-|[<-|[]]]; lra). cbn [one c_x c_y c_label].
    rewrite andb_true_iff, Rltb_iff, inside_circle by auto. unfold wanted. cbn [labels px].
    destruct (Nat.leb (Y + X) 1); [tauto|]. destruct (Nat.eqb (Y + X) 6); intuition congruence.
  - destruct F as [|f0 [|f1 [|? ?]]]; try discriminate LF. destruct A as [|a0 [|a1 [|? ?]]]; try discriminate LA.
    exists f0, f1, a0, a1. split; [exact E1|].
    destruct (H 0%nat ltac:(cbn; lia)) as [H1 H2]. destruct (H 1%nat ltac:(cbn; lia)) as [H3 H4]. clear - H1 H2 H3 H4.
    unfold sum2, at_ in *. cbn [labels iny inx sum_to nth Nat.leb Nat.add andb Nat.mul px Nat.eqb Z.eqb] in H1, H2, H3, H4.
    revert H1 H2 H3 H4. decide_rltb. intros H1 H2 H3 H4. cbn in H1, H2, H3, H4.
    repeat split; (match goal with |- rounded6 ?a _ => match goal with K : rounded6 ?b ?c |- rounded6 _ ?c => replace a with b by lra; exact K end end).
Qed.

(** ** Fits of the amplitude of a fixed profile *)
Section Scaled.
  Variable shape : R -> R -> R.
  Hypothesis positive : forall x y, 0 < shape x y.
  Definition scaled (g : R -> R -> R) : Prop := exists a, forall x y, g x y = a * shape x y.
  Definition scaledM (a : R) : smodel (T:=xr) :=
    pointwise (fun x y => match x, y with Fin x, Fin y => Fin (a * shape x y) | _, _ => NaN end).
  (** the first value with a weight decides *)
  Fixpoint first_ratio (l : list (point * R)) : R :=
    match l with
    | [] => 0
    | q :: tl => if Reqb (snd q) 0 then first_ratio tl else snd (fst q) / shape (col (fst q)) (line (fst q))
    end.
  Definition ratio_fitter : fitter (T:=xr) R unit :=
    mkfitter false (fun _ _ d _ => Ok (first_ratio (combine (combine (combine (fd_x d) (fd_y d)) (map fin (fd_z d)))
      (weights_or_one (option_map (map fin) (fd_w d)) (List.length (fd_x d)))))).

  Lemma ratio_exact a l : wmisfit (fun x y => a * shape x y) l = 0 -> wmisfit (fun x y => first_ratio l * shape x y) l = 0.
  Proof.
    intros H. assert (Z := total_zero (fun q : point * R => (snd q * (snd (fst q) - a * shape (col (fst q)) (line (fst q)))) ^ 2) l
      ltac:(intros; apply pow2_ge_0) (Req_le _ _ H)). cbn beta in Z.
    assert (D : (forall q, In q l -> snd q = 0) \/ first_ratio l = a).
    { clear H. induction l as [|q l IH]; [left; intros q []|]. cbn [first_ratio].
      pose proof (Z q (or_introl eq_refl)) as Zq. destruct (Reqb_spec (snd q) 0) as [E|E].
      - destruct IH as [IH|IH]; [intros p Hp; apply Z; now right| |now right]. left. intros p [<-|Hp]; auto.
      - right. cbn [pow] in Zq. rewrite Rmult_1_r in Zq. apply Rsqr_0_uniq in Zq. apply Rmult_integral in Zq as [Zq|Zq]; [contradiction|].
        pose proof (positive (col (fst q)) (line (fst q))). replace (snd (fst q)) with (a * shape (col (fst q)) (line (fst q))) by lra. field. lra. }
    destruct D as [D| ->]; auto. unfold wmisfit. clear Z H. generalize (first_ratio l). intros b. induction l as [|q l IH]; [reflexivity|].
    rewrite total_cons. rewrite (IH (fun p Hp => D p (or_intror Hp))). pose proof (D q (or_introl eq_refl)) as Dq. destruct q as [q w]. cbn [fst snd] in *. subst w. ring.
  Qed.

  Lemma wmisfit_nonneg g l : 0 <= wmisfit g l.
  Proof. apply total_map_nonneg. intros q. apply pow2_ge_0. Qed.
  Lemma wmisfit_ext g g' l : (forall x y, g x y = g' x y) -> wmisfit g l = wmisfit g' l.
  Proof. intros H. unfold wmisfit. f_equal. apply map_ext. intros q. now rewrite H. Qed.

  Lemma ratio_finds model : finds_exact ratio_fitter model scaledM scaled.
  Proof.
    intros calc o x y z w g0 _ _ _ data (a & Ha) H0. cbn [ratio_fitter ft_run fd_x fd_y fd_z fd_w].
    assert (E : map fin (map Fin z) = z) by (rewrite map_map; cbn [fin]; apply map_id). rewrite E.
    assert (Ew : option_map (map fin) (option_map (map Fin) w) = w).
    { destruct w as [w|]; cbn; auto. f_equal. rewrite map_map. cbn [fin]. apply map_id. }
    rewrite Ew. fold data. set (b := first_ratio data).
    exists b, (fun x y => match x, y with Fin x, Fin y => Fin (b * shape x y) | _, _ => NaN end), (fun x y => b * shape x y).
    split; auto. split; [reflexivity|]. split; [now intros u v|]. split; [now exists b|]. intros g' _.
    unfold b. rewrite (ratio_exact a); [apply wmisfit_nonneg|]. rewrite <- H0. symmetry. now apply wmisfit_ext.
  Qed.
End Scaled.

(** a profile of amplitude 3 with a missing pixel, fitted from amplitude 1 *)
Definition bump (x y : R) : R := exp (- (x * x + y * y)).
Definition bump_image : img xr := mkimg 2 2 (fun j i => if (Nat.eqb j 0 && Nat.eqb i 1)%bool then NaN else Fin (3 * bump (INR i) (INR j))).
Lemma bump_example : finds_exact (ratio_fitter bump) 1 (scaledM bump) (scaled bump) /\
  exists r, fit_model R unit (bump_image, None) 1 None (ratio_fitter bump) false tt = Ok (r, ratio_fitter bump) /\ r = 3.
Proof.
  assert (P : forall x y, 0 < bump x y) by (intros; apply exp_pos).
  assert (F : finds_exact (ratio_fitter bump) 1 (scaledM bump) (scaled bump)) by now apply ratio_finds. split; auto.
  eexists. split; [reflexivity|]. cbn [bump_image]. 
  unfold first_ratio, good_pixels, pixels. cbn. destruct (Reqb_spec 1 0); [lra|]. unfold col, line. cbn. unfold bump. field. apply Rgt_not_eq, exp_pos.
Qed.

(** fit_background of a plane with a missing pixel *)
Definition slab : img xr := mkimg 3 2 (fun j i => if (Nat.eqb j 2 && Nat.eqb i 0)%bool then NaN else Fin (plane 2 3 7 (INR i) (INR j))).
Lemma slab_example : (forall j i, good slab j i -> px slab j i = Fin (plane 2 3 7 (INR i) (INR j))) /\
  spread_on (remaining (fun s _ => mkimg 3 2 (fun j i => Nat.eqb j 2)) true slab (Some (Fin 3))).
Proof.
  split.
  - intros j i (_ & _ & H). cbn in *. destruct (_ && _)%bool; [congruence|reflexivity].
  - intros u v w H.
    assert (U : forall j i, (j < 2)%nat -> (i < 2)%nat -> remaining (fun s _ => mkimg 3 2 (fun j i => Nat.eqb j 2)) true slab (Some (Fin 3)) j i).
    { intros j i Hj Hi. split; [|intros s _ _; cbn; destruct (Nat.eqb_spec j 2); [lia|reflexivity]].
      split; [cbn; lia|]. split; [cbn; lia|]. cbn. destruct (Nat.eqb_spec j 2); [lia|]. cbn. discriminate. }
    pose proof (H 0%nat 0%nat (U 0%nat 0%nat ltac:(lia) ltac:(lia))) as H1. pose proof (H 0%nat 1%nat (U 0%nat 1%nat ltac:(lia) ltac:(lia))) as H2.
    pose proof (H 1%nat 0%nat (U 1%nat 0%nat ltac:(lia) ltac:(lia))) as H3. cbn in H1, H2, H3. lra.
Qed.
