(** Concrete figures, computed in doubles, and combined statements. *)
From Coq Require Import String.
From Verif Require Import Base Num Numpy M_Utils M_Photometry M_Petrosian M_Correction M_PSF M_Fitting M_Interp M_Plot S_Correction S_Plot E_Plot.
From Verif Require L_Plot L_Plot2 L_Plot3 L_Plot4 L_Plot5 L_Plot6 L_Plot7 L_Plot8 L_Plot9 L_Plot10 M_Segm L_Correction L_Correction2 E_Correction E_CorEx.
Local Open Scope list_scope.
(** ** a source outside the range of its grid: the segments go to the second row *)
Definition far_grid (a : R) : table xr := mktable column_names [E_Correction.ex_row 1 (a + 3) 3 4 3 4 6; E_Correction.ex_row 4 (a + 1) 9 2 1 16 20].
Lemma dev2 x : deviation [(x + 2)%R; x] = 1%R.
Proof.
  rewrite <- sqrt_1. unfold deviation, average. f_equal. cbn [map List.length total INR]. field.
Qed.
Lemma grid_example : exists a c s' d, (2 <= a)%R /\
  get_xyz_from_p E_CorEx.mk_ex E_CorEx.ex_p = Ok (Fin a, Fin 1, Fin 0) /\
  PetrosianCorrection_new (GTable (far_grid a)) true = Ok c /\
  get_corrected_row E_CorEx.mk_ex c E_CorEx.ex_p = Err AssertionError /\
  plot_correction E_CorEx.mk_ex c E_CorEx.ex_p "n" None None None (mkcanvas 7 9 []) = (Ok [9%nat; 10%nat; 11%nat], s') /\
  emitted (mkcanvas 7 9 []) s' d /\
  In (9%nat, Line [Fin a; Fin (a + 1)] [Fin 1; Fin 2]) d /\ In (11%nat, Line [Fin 1; Fin 2] [Fin 0; Fin 1]) d.
Proof.
  destruct E_CorEx.meas_ex as (a & Ha & _ & M). exists a, (mkcor (far_grid a) true [Fin (a + 3); Fin (a + 1)] [Fin 4; Fin 2] [Fin 3; Fin 1]).
  set (c := mkcor _ _ _ _ _).
  assert (E : PetrosianCorrection_new (GTable (far_grid a)) true = Ok c) by reflexivity.
  pose proof (L_Plot5.new_any _ _ _ false E) as E0.
  destruct (L_Plot5.correction_drawn E_CorEx.mk_ex (far_grid a) true c _ E_CorEx.ex_p "n" None None None (mkcanvas 7 9 []) (Fin a) (Fin 1) (Fin 0) E E0)
    as (i & cx & cy & cz & a0 & a1 & a2 & s' & d & P & D & (-> & -> & -> & _) & Row & Cx & Cy & Cz & _ & L & _).
  - discriminate.
  - cbn. auto.
  - discriminate.
  - exact M.
  - exists s', d. split; [lra|]. split; [exact M|]. split; [exact E|].
    assert (NX : nonconstant [(a + 3)%R; (a + 1)%R]) by (exists 0%nat, 1%nat; cbn; repeat split; try lia; lra).
    assert (NY : nonconstant [4%R; 2%R]) by (exists 0%nat, 1%nat; cbn; repeat split; try lia; lra).
    assert (NZ : nonconstant [3%R; 1%R]) by (exists 0%nat, 1%nat; cbn; repeat split; try lia; lra).
    split.
    { unfold get_corrected_row. rewrite M. cbn [bind fst snd].
      apply (L_Correction2.enforced (far_grid a) true c [(a + 3)%R; (a + 1)%R] [4%R; 2%R] [3%R; 1%R]); auto; try reflexivity; try discriminate.
      intros (B & _). destruct B as (v & i0 & j & V & Hi & Hj & B). injection V as <-. cbn in Hi.
      destruct i0 as [|[|i0]]; cbn in B; try lia; lra. }
    split; [exact P|]. split; [exact D|].
    assert (i = 1%nat) as ->.
    { unfold get_corrected_row in Row. rewrite M in Row. cbn [bind fst snd] in Row.
      destruct (L_Correction.nearest (far_grid a) false _ [(a + 3)%R; (a + 1)%R] [4%R; 2%R] [3%R; 1%R] E0 eq_refl eq_refl eq_refl a 1 0 i NX NY NZ Row)
        as (K & F & _). cbn in K.
      destruct i as [|[|i]]; auto; [exfalso|lia]. specialize (F 1%nat ltac:(cbn; lia)). unfold row_distance, S_Petrosian.at_ in F. cbn [nth] in F.
      replace [(a + 3)%R; (a + 1)%R] with [((a + 1) + 2)%R; (a + 1)%R] in F by (f_equal; lra).
      replace [4%R; 2%R] with [(2 + 2)%R; 2%R] in F by (f_equal; lra).
      replace [3%R; 1%R] with [(1 + 2)%R; 1%R] in F by (f_equal; lra). rewrite !dev2 in F. lra. }
    injection Cx as <-. injection Cy as <-. injection Cz as <-. split; apply L; auto 6.
Qed.

(** ** images *)
Definition im (ny nx : nat) (f : nat -> nat -> Z) : img f64 := mkimg ny nx (fun j i => nofZ (f j i)).
Definition seg22 : img Z := mkimg 2 2 (fun j i => if Nat.eqb j i then 5%Z else 0%Z).
Lemma residual_example : exists shown,
  plot_segment_residual seg22 (im 2 2 (fun j i => 1 + Z.of_nat (2 * j + i))%Z) None None blank_canvas =
    (Ok tt, adds blank_canvas [(7%nat, Image shown None None)]) /\
  (px shown 0 0 = q 0 1 /\ px shown 0 1 = q 2 1 /\ px shown 1 0 = q 3 1 /\ px shown 1 1 = q 0 1) /\
  fst (plot_segment_residual seg22 (im 1 2 (fun _ _ => 1%Z)) None None blank_canvas) = Err IndexError.
Proof. eexists. split; [reflexivity|]. cbn [px]. repeat split; reflexivity. Qed.

Lemma apertures_example : let a := mkap (q 1 1) (q 2 1) (q 3 1) (q 4 1) (q 5 1) in
  plot_apertures (T:=f64) None (Some []) None None blank_canvas = (Ok tt, adds blank_canvas [(7%nat, Title "Apertures")]) /\
  plot_apertures (T:=f64) None (Some [a; a]) None None blank_canvas =
    (Ok tt, adds blank_canvas [(7%nat, Ellipse a L_none); (7%nat, Ellipse a L_none); (7%nat, Title "Apertures")]).
Proof. vm_compute. auto. Qed.

Lemma target_example : exists d lx hx ly hy s',
  plot_target (mkimg 3 5 (fun _ _ => Fin 0)) (Fin 2, Fin 1) None None None (mkcanvas 0 1 []) = (Ok tt, s') /\
  cv_trace s' = d /\ d = [(0%nat, Image (mkimg 3 5 (fun _ _ => Fin 0)) None None); (0%nat, Point (Fin 2) (Fin 1));
         (0%nat, XLim (Fin lx) (Some (Fin hx))); (0%nat, YLim (Fin ly) (Some (Fin hy)))] /\
  (lx = -1/2 /\ hx = 9/2 /\ ly = -3/2 /\ hy = 7/2)%R.
Proof.
  destruct (L_Plot6.target_window (mkimg 3 5 (fun _ _ => Fin 0)) 2 1 None None None (mkcanvas 0 1 []) 5)
    as (s' & d & lx & hx & ly & hy & H1 & H2 & H3 & H4 & H5 & H6 & H7).
  - cbn. lra.
  - exists d, lx, hx, ly, hy, s'. split; [exact H1|]. split; [exact H2|]. split; [exact H3|]. lra.
Qed.

(** ** files *)
Lemma files_example : exists c fs' c',
  PetrosianCorrection_new (GTable gtable) false = Ok c /\ cor_write c "grid.ecsv" [] = (Ok tt, fs') /\
  cor_read "grid.ecsv" fs' = Ok c' /\ c_enforce c = false /\ c_enforce c' = true /\
  cor_write c "grid.ecsv" fs' = (Err GenericException, fs') /\ cor_read (T:=f64) "other.ecsv" fs' = Err GenericException.
Proof. do 3 eexists. split; [vm_compute; reflexivity|]. vm_compute. auto 10. Qed.

(** ** photometry figures *)
Definition flat (a : aperture f64) (ny nx : nat) : option (nat -> nat -> f64) := Some (fun _ _ => q 1 1).
Lemma radial_example : let image := im 2 2 (fun _ _ => 3%Z) in
  let out := radial_photometry_plot flat NpFloat image (q 1 1, q 1 1) [q 1 1; q 2 1] None None (q 1 1) (q 0 1) None None blank_canvas in
  fst out = Ok ([q 12 1; q 12 1], [q 4 1; q 4 1], [nnan; nnan]) /\
  snd out = adds blank_canvas (map (pair 7%nat)
    ([Image image None (Some (nmul (img_mean image) (nofZ 10))); Title "Image and Aperture Radii"; XLabel "Pixels"; YLabel "Pixels"]%string ++
      map (ring (q 1 1, q 1 1) (q 1 1) (q 0 1)) [q 1 1; q 2 1])) /\ nmul (img_mean image) (nofZ 10) = q 30 1.
Proof.
  cbv zeta. split; [vm_compute; reflexivity|]. split; [|vm_compute; reflexivity].
  destruct (L_Plot7.radial_plot flat NpFloat (im 2 2 (fun _ _ => 3%Z)) (q 1 1, q 1 1) None None (q 1 1) (q 0 1)
              [q 1 1; q 2 1] None None blank_canvas) as (_ & dn & rest & hi & R & S & -> & _ & F).
  destruct rest as [|r tl].
  - rewrite app_nil_r in R. subst dn. exact S.
  - exfalso. destruct (F _ _ eq_refl) as (e & E).
    assert (r = q 1 1 \/ r = q 2 1) as [-> | ->] by (assert (In r [q 1 1; q 2 1]) as X by (rewrite R; apply in_elt); destruct X as [X|[X|[]]]; auto);
      vm_compute in E; discriminate E.
Qed.

(** a masked (NaN) pixel makes the default upper limit NaN *)
Lemma nan_limit_example : nmul (img_mean (mkimg 1 2 (fun _ i => if Nat.eqb i 0 then NaN else Fin 1))) (nofZ 10) = NaN.
Proof. apply (L_Plot8.mean_nan _ 0 0); cbn; auto. Qed.

(** ** source_photometry with plot=True *)
Lemma source_same overlap sigma_clip clipped_stats M O planar linear opts evalM
    k src image segm (r_list : list xr) error size bg sigma kind mb vmin vmax h s :
  r_list <> [] ->
  fst (source_photometry_plot overlap sigma_clip clipped_stats M O planar linear opts evalM
         k src image segm r_list error size bg sigma kind mb vmin vmax h s) =
  M_Segm.source_photometry overlap sigma_clip clipped_stats M O planar linear opts evalM
    k src image segm r_list error size bg sigma kind mb h.
Proof. intros H. apply L_Plot10.plotted_same; auto. apply L_Plot10.half_int. Qed.

Definition fz (z : Z) : f64 := nofZ z.
Definition picture64 : img f64 := mkimg 4 4 (fun j i => fz (Z.of_nat (10 * j + i))).
Definition seg44 : img Z := mkimg 4 4 (fun j i => if Nat.eqb j 1 then 1%Z else 0%Z).
Local Notation sp := (fun r_list : list f64 =>
  source_photometry_plot (T:=f64) flat (fun s _ => mkimg (iny s) (inx s) (fun _ _ => false)) (fun _ => (fz 0, fz 0)) unit unit tt
    (mkfitter false (fun _ _ _ _ => Err ValueError)) tt (fun _ X Y => Ok X) NpFloat
    (M_Segm.SCat (M_Segm.mkrow 1 2 2 (fz 1) (fz 0))) 0 seg44 r_list None (VInt 2) false (fz 3) M_Segm.Clip false None None).
Local Notation sp1 := (ltac:(let x := eval cbv beta in (sp [fz 1; fz 2]) in exact x)) (only parsing).
Local Notation sp0 := (ltac:(let x := eval cbv beta in (sp []) in exact x)) (only parsing).
Lemma source_example : exists v h' s' d,
  sp1 [M_Segm.mkarr M_Segm.DFloat picture64] blank_canvas = (Ok v, h', s') /\ emitted blank_canvas s' d /\
  In (10%nat, Line [fz 1; fz 2] (fst (fst v))) d /\ List.length (fst (fst v)) = 2%nat /\
  fst (fst (sp0 [M_Segm.mkarr M_Segm.DFloat picture64] blank_canvas)) = Err ValueError.
Proof.
  assert (X : match fst (fst (sp1 [M_Segm.mkarr M_Segm.DFloat picture64] blank_canvas)) with
              | Ok v => List.length (fst (fst v)) | Err _ => 0%nat end = 2%nat) by (vm_compute; reflexivity).
  assert (Y : fst (fst (sp0 [M_Segm.mkarr M_Segm.DFloat picture64] blank_canvas)) = Err ValueError) by (vm_compute; reflexivity).
  destruct (sp1 [M_Segm.mkarr M_Segm.DFloat picture64] blank_canvas) as [[[v|e] h'] s'] eqn:E; cbn [fst] in X.
  - pose proof E as F. apply L_Plot10.figures in F. destruct F as (d & D & _ & L & _).
    exists v, h', s', d. split; [reflexivity|]. split; [exact D|]. split; [apply L; auto|]. split; [exact X|exact Y].
  - discriminate X.
Qed.

(** the slices through the middle of the cutout [[11, 12], [21, 22]] *)
Definition lines_on (b : nat) (t : list (axes * cmd (T:=f64))) : list (list f64 * list f64) :=
  flat_map (fun p => match snd p with Line x y => if Nat.eqb (fst p) b then [(x, y)] else [] | _ => [] end) t.
Lemma lines_in b t x y : In (x, y) (lines_on b t) -> In (b, Line x y) t.
Proof.
  intros H. apply in_flat_map in H. destruct H as ((c & d) & I & J). cbn [fst snd] in J.
  destruct d; try contradiction. destruct (Nat.eqb_spec c b) as [->|]; [|contradiction].
  destruct J as [J|[]]. injection J as -> ->. exact I.
Qed.
Lemma slices_example : let t := cv_trace (snd (sp1 [M_Segm.mkarr M_Segm.DFloat picture64] blank_canvas)) in
  In (11%nat, Line [fz 0; fz 1] [fz 21; fz 22]) t /\ In (12%nat, Line [fz 0; fz 1] [fz 12; fz 22]) t.
Proof.
  cbv zeta. set (t := cv_trace _).
  assert (A : lines_on 11 t = [([fz 0; fz 1], [fz 21; fz 22])]) by (vm_compute; reflexivity).
  assert (B : lines_on 12 t = [([fz 0; fz 1], [fz 12; fz 22])]) by (vm_compute; reflexivity).
  split; apply lines_in; [rewrite A|rewrite B]; left; reflexivity.
Qed.

(** ** make_catalog *)
Lemma catalog_for (image : img f64) (m : img Z) :
  let run := make_catalog_plot (T:=f64) (option (img Z)) (fun _ => Ok (Some m)) (fun _ s => Ok s) (fun _ s => Ok s) in
  exists s', run image true true None None blank_canvas = (Ok (Some m, Some m, Some m), s') /\
    cv_trace s' = map_calls 9 m image None None "Segmentation Map" ++
                  map_calls 10 m image None None "Deblended Segmentation Map".
Proof. cbv zeta. eexists. split; [vm_compute; reflexivity|vm_compute; reflexivity]. Qed.
Lemma catalog_example :
  let run := make_catalog_plot (T:=f64) (option (img Z)) (fun _ => Ok (Some seg22)) (fun _ s => Ok s) (fun _ s => Ok s) in
  let image := im 2 2 (fun _ _ => 3%Z) in
  exists s', run image true true None None blank_canvas = (Ok (Some seg22, Some seg22, Some seg22), s') /\
    cv_trace s' = map_calls 9 seg22 image None None "Segmentation Map" ++
                  map_calls 10 seg22 image None None "Deblended Segmentation Map".
Proof. exact (catalog_for _ _). Qed.

(** ** plot_fit *)
Lemma fit_example : let image := im 2 2 (fun j i => Z.of_nat (2 * j + i)) in
  exists s' mi res d, plot_fit_draw (fun X Y => Ok X) image Center None None (Some (q 5 1)) true "Flux" blank_canvas
    = (Ok ([9%nat; 10%nat; 11%nat], mi, res), s') /\ emitted blank_canvas s' d /\
  In (9%nat, Image image (Some (nopp (q 5 1))) (Some (q 5 1))) d /\
  In (11%nat, Image res (Some (nopp (q 5 1))) (Some (q 5 1))) d /\ px res 1 0 = q 2 1 /\ px res 0 1 = q 0 1.
Proof.
  cbv zeta. set (image := im 2 2 _).
  assert (X : match plot_fit (fun X Y => Ok X) image Center None with
              | Ok v => Some (px (snd v) 1 0, px (snd v) 0 1) | Err _ => None end = Some (q 2 1, q 0 1)) by (vm_compute; reflexivity).
  destruct (plot_fit (fun X Y => Ok X) image Center None) as [[mi res]|e] eqn:E; [|discriminate X].
  cbn [snd] in X. injection X as X1 X2.
  destruct (L_Plot8.fit_drawn _ _ _ _ None (Some (q 5 1)) true "Flux" blank_canvas _ _ E)
    as (lo & hi & s' & d & P & D & I & _ & _ & _ & _ & _ & Hi & _ & _ & Lo).
  specialize (Hi _ eq_refl). specialize (Lo eq_refl). subst hi lo.
  exists s', mi, res, d. split; [exact P|]. split; [exact D|].
  split; [apply I; auto|]. split; [apply I; auto 10|]. auto.
Qed.

(** plotting always succeeds for a built object: refuted *)
Lemma plot_total_refuted : ~ forall (mk : kind -> list f64 -> list f64 -> result (f64 -> f64)) o s,
  built o -> (forall x y, mk KLinear x y = mk_linear KLinear x y) ->
  (exists rp, obj_r_petrosian mk o = Ok rp) -> exists a s', plot mk o true "" None None None false s = (Ok a, s').
Proof.
  intros H. destruct negative_error as (o & Ho & Hr & He & Hp).
  destruct (H mk_linear o blank_canvas) as (a & s' & E).
  - exists neg_data, neg_set, o. auto.
  - reflexivity.
  - eauto.
  - assert (F : fst (plot mk_linear o true "" None None None false blank_canvas) = Err ValueError).
    { clear - Ho. vm_compute in Ho. injection Ho as <-. vm_compute. reflexivity. }
    rewrite E in F. discriminate F.
Qed.
