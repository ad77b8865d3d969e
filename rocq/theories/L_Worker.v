(** The simulated galaxies of the correction grid. *)
From Coq Require Import String FunctionalExtensionality.
From Coquelicot Require Import Coquelicot.
From Verif Require Import Base Num Numpy M_Utils M_Photometry S_Photometry M_Petrosian S_Petrosian M_PSF S_PSF M_Fitting S_Fitting M_Integrate S_Integrate
  M_Ellipse M_Exact S_Center S_Exact Gamma M_Sersic S_Sersic S_Galaxy M_Correction S_Correction S_CorRow M_Worker S_Worker
  L_Photometry L_PSF L_PSF2 L_Fitting L_Sersic L_Sersic2 L_Ellipse L_Exact L_Exact3 L_Growth L_Galaxy L_Galaxy2 L_Correction4 L_CorRow.
Local Open Scope list_scope.
Local Open Scope R_scope.

(** ** elements of an array *)
Lemma nth_flat {A} (g : nat -> list A) c l : forall j i, (forall a, List.length (g a) = c) -> (i < c)%nat -> (j < List.length l)%nat ->
  nth_error (flat_map g l) (j * c + i) = nth_error (g (nth j l O)) i.
Proof.
  induction l as [|a l IH]; intros j i Hg Hi Hj; [cbn in Hj; lia|]. cbn [flat_map]. destruct j as [|j]; cbn [nth].
  - rewrite nth_error_app1 by (rewrite Hg; lia). reflexivity.
  - rewrite nth_error_app2 by (rewrite Hg; lia). rewrite Hg. replace (S j * c + i - c)%nat with (j * c + i)%nat by lia. apply IH; auto. cbn in Hj. lia.
Qed.

Lemma nth_pixels ny nx j i : (j < ny)%nat -> (i < nx)%nat -> nth_error (pixels ny nx) (j * nx + i) = Some (j, i).
Proof.
  intros Hj Hi. unfold pixels. rewrite (nth_flat (fun j => map (fun i => (j, i)) (seq 0 nx)) nx).
  - rewrite seq_nth by auto. rewrite nth_error_map.
    rewrite (nth_error_nth' (seq 0 nx) O) by now rewrite seq_length. rewrite seq_nth by auto. reflexivity.
  - intros. now rewrite map_length, seq_length.
  - auto.
  - now rewrite seq_length.
Qed.

Lemma in_pixels ny nx p : In p (pixels ny nx) -> (fst p < ny)%nat /\ (snd p < nx)%nat.
Proof.
  unfold pixels. intros H. apply in_flat_map in H as (j & Hj & H). apply in_map_iff in H as (i & <- & Hi).
  apply in_seq in Hj. apply in_seq in Hi. cbn. lia.
Qed.

Lemma flat_rimg ny nx g : flat (rimg ny nx g) = map Fin (map (fun p => g (fst p) (snd p)) (pixels ny nx)).
Proof.
  unfold flat, pixels, rimg. cbn [iny inx px]. induction (seq 0 ny) as [|j l IH]; auto.
  cbn [flat_map]. rewrite IH, !map_app, !map_map. reflexivity.
Qed.

Lemma combine_same {A B C} (f : A -> B) (g : A -> C) l : combine (map f l) (map g l) = map (fun a => (f a, g a)) l.
Proof. induction l as [|a l IH]; auto. cbn. now rewrite IH. Qed.

Lemma index_0 i : pixel_index 0 (INR i) = Z.of_nat i.
Proof.
  unfold pixel_index. rewrite Rminus_0_r, INR_IZR_INZ. apply Int_part_spec. lra.
Qed.
Lemma pix_0 i : pix 0 (INR i) = INR i.
Proof. unfold pix. generalize (index_0 i). unfold pixel_index. intros ->. rewrite <- INR_IZR_INZ. ring. Qed.

(** a model on the pixels of an image whose first pixel is (0, 0) *)
Lemma grid_call rotate sm st ps pa N (V : nat -> nat -> R) rx ry :
  rx = map (fun p => INR (snd p)) (pixels N N) -> ry = map (fun p => INR (fst p)) (pixels N N) ->
  fst (evaluate rotate sm st (map Fin rx) (map Fin ry) ps pa) = Ok (map (fun p => Fin (V (fst p) (snd p))) (pixels N N)) ->
  exists m, psf_model rotate sm st ps pa (rimg N N (fun _ i => 0 + INR i)) (rimg N N (fun j _ => 0 + INR j)) = Ok m /\ image_of m N N V.
Proof.
  intros -> -> E. unfold psf_model. rewrite !flat_rimg.
  assert (Ex : map (fun p : nat * nat => 0 + INR (snd p)) (pixels N N) = map (fun p => INR (snd p)) (pixels N N)) by (apply map_ext; intros; ring).
  assert (Ey : map (fun p : nat * nat => 0 + INR (fst p)) (pixels N N) = map (fun p => INR (fst p)) (pixels N N)) by (apply map_ext; intros; ring).
  rewrite Ex, Ey, E. cbn [bind]. eexists. split; [reflexivity|]. split; [reflexivity|]. split; [reflexivity|].
  intros j i Hj Hi. cbn [px inx rimg]. apply nth_error_nth. rewrite nth_error_map, nth_pixels; auto.
Qed.

(** ** the Sersic model *)
Lemma amplitude_fin n : 0 < n -> worker_amplitude (Fin n) = Fin (100 / exp (bnR n)).
Proof.
  intros Hn. unfold worker_amplitude. rewrite bn_fin by auto. cbn [xexp nofZ ndiv XRnum]. apply xdiv_fin.
  apply Rgt_not_eq, exp_pos.
Qed.

Lemma sersic_computes A re n X Y e th x y : 0 < re -> 0 < n -> e < 1 ->
  astropy_sersic2d (Fin x) (Fin y) (Fin A) (Fin re) (Fin n) (Fin X) (Fin Y) (Fin e) (Fin th)
  = Fin (sersic2d (bnR n) A re n X Y e th x y).
Proof.
  intros Hre Hn He. unfold astropy_sersic2d. cbv zeta. rewrite bn_fin by auto.
  assert (Hb : (1 - e) * re <> 0) by (apply Rmult_integral_contrapositive_currified; lra).
  cbn [n1 n2 n0 nofZ nopp nmul nsub nadd ndiv nabs nsqrt XRnum xmul xsub xadd xopp xcos xsin].
  replace ((1 + - e) * re) with ((1 - e) * re) by ring.
  rewrite !xdiv_fin by (auto; lra). rewrite !xpow_sq. cbn [xadd].
  match goal with |- context [xsqrt (Fin ?z)] => assert (Hz : 0 <= z) by apply sumsq; cbn [xsqrt]; rewrite (Rltb_false z 0) by lra end.
  assert (0 < 1 / n) by (apply Rdiv_lt_0_compat; lra).
  rewrite xpow_nonneg by (auto; apply sqrt_pos).
  cbn [xadd xsub xopp xmul xexp]. f_equal. unfold sersic2d. f_equal. f_equal.
  replace ((x + - X) * cos th + (y + - Y) * sin th) with (along X Y th x y) by (unfold along; ring).
  replace ((0 + - (x + - X)) * sin th + (y + - Y) * cos th) with (across X Y th x y) by (unfold across; ring).
  ring.
Qed.

Section Image.
  Variables (rotate : img xr -> xr -> img xr) (h : Z) (re n : R).
  Hypothesis (Hh : (0 < h)%Z) (Hre : 0 < re) (Hn : 0 < n).

  Let N := Z.to_nat (2 * h).
  Let A := 100 / exp (bnR n).
  Let g := sersic2d (bnR n) A re n (IZR h) (IZR h) 0 0.
  Let ps := [Fin A; Fin re; Fin n; Fin (IZR h); Fin (IZR h); Fin 0; Fin 0].

  Let rx := map (fun p : nat * nat => INR (snd p)) (pixels N N).
  Let ry := map (fun p : nat * nat => INR (fst p)) (pixels N N).

  Lemma N_pos : (0 < N)%nat. Proof. unfold N. lia. Qed.

  Lemma px00 : In (0, 0)%nat (pixels N N).
  Proof. generalize N_pos. intros. eapply nth_error_In. apply (nth_pixels N N 0 0); auto. Qed.
  Lemma pxmm : In (N - 1, N - 1)%nat (pixels N N).
  Proof. generalize N_pos. intros. eapply nth_error_In. apply (nth_pixels N N (N - 1) (N - 1)); lia. Qed.

  Lemma min_rx : is_min 0 rx.
  Proof. split; [apply in_map_iff; exists (0, 0)%nat; split; [reflexivity|apply px00]|]. intros x Hx. apply in_map_iff in Hx as (p & <- & _). apply pos_INR. Qed.
  Lemma min_ry : is_min 0 ry.
  Proof. split; [apply in_map_iff; exists (0, 0)%nat; split; [reflexivity|apply px00]|]. intros x Hx. apply in_map_iff in Hx as (p & <- & _). apply pos_INR. Qed.
  Lemma max_rx : is_max (INR (N - 1)) rx.
  Proof.
    split; [apply in_map_iff; exists (N - 1, N - 1)%nat; split; [reflexivity|apply pxmm]|].
    intros x Hx. apply in_map_iff in Hx as (p & <- & Hp). apply in_pixels in Hp. apply le_INR. lia.
  Qed.
  Lemma max_ry : is_max (INR (N - 1)) ry.
  Proof.
    split; [apply in_map_iff; exists (N - 1, N - 1)%nat; split; [reflexivity|apply pxmm]|].
    intros x Hx. apply in_map_iff in Hx as (p & <- & Hp). apply in_pixels in Hp. apply le_INR. lia.
  Qed.

  Let fS (ps : list xr) (x y : xr) : xr := match ps with
                          | [amplitude; r_eff; n; x_0; y_0; ellip; theta] => astropy_sersic2d x y amplitude r_eff n x_0 y_0 ellip theta
                          | _ => NaN end.
  Lemma g_computes : S_PSF.computes fS ps g.
  Proof. intros x y. unfold ps. apply sersic_computes; auto. lra. Qed.

  Lemma centre_x : centre_is (sm_names sersic_sub) ps (VStr "x_0") (IZR h).
  Proof. exists 3%nat. split; [reflexivity|]. split; [|reflexivity]. intros k Hk. do 3 (destruct k as [|k]; [discriminate|]). lia. Qed.
  Lemma centre_y : centre_is (sm_names sersic_sub) ps (VStr "y_0") (IZR h).
  Proof. exists 4%nat. split; [reflexivity|]. split; [|reflexivity]. intros k Hk. do 4 (destruct k as [|k]; [discriminate|]). lia. Qed.

  Lemma start_h s : window_start (IZR h) s (h - s / 2).
  Proof. exists h. split; auto. left. rewrite Rminus_eq_0, Rabs_R0. lra. Qed.

  Lemma last_index : pixel_index 0 (INR (N - 1)) = (2 * h - 1)%Z.
  Proof. rewrite index_0. unfold N. lia. Qed.

  Lemma new_over o f : (0 < f)%Z ->
    (o = OInt f \/ exists a b s, o = OWin a b s f) ->
    new (T:=xr) None (match o with OInt f => VInt f | OWin a b s f => VSeq [a; b; VInt s; VInt f] end) VNone
    = Ok (mkpst (Some o) None None true 0 0 None None).
  Proof.
    intros Hf Ho. unfold new. cbn [set_psf fst]. unfold set_oversample. cbv zeta.
    destruct Ho as [->|(a & b & s & ->)]; cbv beta iota;
      (replace (f <=? 0)%Z with false by (symmetry; apply Z.leb_gt; lia)); unfold psf_factor; cbn; rewrite Z.mod_1_r; reflexivity.
  Qed.

  Lemma call_at st : worker_image rotate None st VNone (Fin re) (Fin n) (2 * h) h =
    do s <- new None st VNone;
    psf_model rotate sersic_sub s ps (Fin 0) (rimg N N (fun _ i => 0 + INR i)) (rimg N N (fun j _ => 0 + INR j)).
  Proof.
    unfold worker_image. destruct (new None st VNone) as [s|e]; auto. cbn [bind]. rewrite amplitude_fin by auto.
    rewrite (center_mode _ (VInt (2 * h)) false 1 (Some (VSeq [VInt h; VInt h])) (2 * h) (2 * h) 0 0); auto.
    - constructor. now left.
    - exists (IZR h), (IZR h). split; [left; eauto|]. split; [left; eauto|]. split; exists h; (split; [lia|ring]).
  Qed.

  Theorem image_pixels over k : sampled h over k ->
    exists m, worker_image rotate None over VNone (Fin re) (Fin n) (2 * h) h = Ok m /\
      image_of m N N (fun j i => mean_samples g (k j i) (INR i) (INR j)).
  Proof.
    intros Hs. rewrite call_at. destruct Hs as [|f Hf|s f Hf Hs0 Hs1 Hs2].
    - cbn [new set_psf fst set_oversample set_psf_oversample with_over with_psf_over bind]. cbn.
      eapply grid_call; [reflexivity|reflexivity|].
      etransitivity; [eapply (transparent rotate (sm_names sersic_sub) fS (mkpst None None None true 0 0 None None) rx ry ps (Fin 0) 0 0); auto using min_rx, min_ry|].
      2: { f_equal. unfold rx, ry. rewrite combine_same, map_map. apply map_ext. intros p. cbn [fst snd]. rewrite mean_one, !pix_0. apply g_computes. }
      + exists None, VNone, VNone, (mkpst None None None true 0 0 None None), []. split; reflexivity.
    - rewrite (new_over (OInt f) f Hf (or_introl eq_refl)). cbn [bind].
      eapply grid_call; [reflexivity|reflexivity|].
      destruct (oversampled rotate (sm_names sersic_sub) fS g (mkpst (Some (OInt f)) None None true 0 0 None None) f rx ry ps (Fin 0) 0 0) as [_ E]; auto using min_rx, min_ry, g_computes.
      + exists None, (VInt f), VNone, (mkpst (Some (OInt f)) None None true 0 0 None None), []. split; [apply (new_over (OInt f) f Hf (or_introl eq_refl))|reflexivity].
      + etransitivity; [exact E|]. f_equal. unfold rx, ry. rewrite combine_same, map_map. apply map_ext. intros p. cbn [fst snd]. now rewrite !pix_0.
    - assert (Hf0 : (0 < f)%Z) by lia.
      assert (En := new_over (OWin (VStr "x_0") (VStr "y_0") s f) f Hf0 (or_intror (ex_intro _ _ (ex_intro _ _ (ex_intro _ _ eq_refl))))).
      cbv beta iota in En. rewrite En. cbn [bind].
      eapply grid_call; [reflexivity|reflexivity|].
      etransitivity; [eapply (window_values rotate (sm_names sersic_sub) fS g (mkpst (Some (OWin (VStr "x_0") (VStr "y_0") s f)) None None true 0 0 None None)
         (VStr "x_0") (VStr "y_0") s f rx ry ps (Fin 0) 0 (INR (N - 1)) 0 (INR (N - 1)) (IZR h) (IZR h) (h - s / 2) (h - s / 2));
         auto using min_rx, min_ry, max_rx, max_ry, g_computes, centre_x, centre_y, start_h; try (rewrite last_index); try lia|].
      + exists None, (VSeq [VStr "x_0"; VStr "y_0"; VInt s; VInt f]), VNone, (mkpst (Some (OWin (VStr "x_0") (VStr "y_0") s f)) None None true 0 0 None None), []. split; [exact En|reflexivity].
      + f_equal. unfold rx, ry. rewrite combine_same, map_map. apply map_ext. intros p. cbn [fst snd]. rewrite !index_0, <- !INR_IZR_INZ.
        destruct (insideb (h - s / 2) s (Z.of_nat (snd p)) && insideb (h - s / 2) s (Z.of_nat (fst p))); auto.
        rewrite mean_one, !Rplus_0_l. reflexivity.
  Qed.

  (** an oversampling window that does not lie on the image *)
  Theorem image_window s f : (1 < s)%Z -> (1 < f)%Z -> ~ ((s / 2 <= h)%Z /\ (h - s / 2 + s <= 2 * h)%Z) ->
    worker_image rotate None (VSeq [VStr "x_0"; VStr "y_0"; VInt s; VInt f]) VNone (Fin re) (Fin n) (2 * h) h = Err ValueError.
  Proof.
    intros Hs Hf Hw. rewrite call_at.
    assert (Hf0 : (0 < f)%Z) by lia.
    assert (En := new_over (OWin (VStr "x_0") (VStr "y_0") s f) f Hf0 (or_intror (ex_intro _ _ (ex_intro _ _ (ex_intro _ _ eq_refl))))).
    cbv beta iota in En. rewrite En. cbn [bind]. unfold psf_model. rewrite !flat_rimg.
    replace (map (fun p : nat * nat => 0 + INR (snd p)) (pixels N N)) with rx by (apply map_ext; intros; ring).
    replace (map (fun p : nat * nat => 0 + INR (fst p)) (pixels N N)) with ry by (apply map_ext; intros; ring).
    match goal with |- bind ?e _ = _ => assert (E : e = Err ValueError); [|rewrite E; reflexivity] end.
    destruct (window_accept rotate (sm_names sersic_sub) fS g (mkpst (Some (OWin (VStr "x_0") (VStr "y_0") s f)) None None true 0 0 None None)
         (VStr "x_0") (VStr "y_0") s f rx ry ps (Fin 0) 0 (INR (N - 1)) 0 (INR (N - 1)) (IZR h) (IZR h) (h - s / 2) (h - s / 2)) as [[_ W] _];
         auto using min_rx, min_ry, max_rx, max_ry, g_computes, centre_x, centre_y, start_h; try lia.
    - exists None, (VSeq [VStr "x_0"; VStr "y_0"; VInt s; VInt f]), VNone, (mkpst (Some (OWin (VStr "x_0") (VStr "y_0") s f)) None None true 0 0 None None), []. split; [exact En|reflexivity].
    - apply W. intros [F _]. unfold fits_axis, gsize in F. rewrite last_index in F. assert (s / 2 * 2 <= s)%Z by (pose proof (Z.div_mod s 2); pose proof (Z.mod_pos_bound s 2); lia).
      destruct F as [F|F]; [apply Hw; lia|]. lia.
  Qed.
End Image.
