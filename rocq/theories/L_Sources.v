(** Proofs about arcsec radii, source getters, catalog arguments and the one-line models. *)
From Coq Require Import String.
From Verif Require Import Base Num Numpy M_Utils M_Petrosian M_Sersic M_Sources Gamma S_Utils S_Sersic S_Sources
  L_Numpy L_Utils2 L_Sersic.
Local Open Scope R_scope.

(** ** arcsec *)
Section Arcsec.
  Variable mk : kind -> list xr -> list xr -> result (xr -> xr).

  Lemma arcsec_fin w s u r : good_wcs w s u ->
    to_arcsec (Fin r) w = Ok (Fin (r * (3600 * (s * u)))).
  Proof.
    intros W. apply good_wcs_close in W as (Hs & Hc & Hu & Ps & Pu). unfold to_arcsec. cbn [nisnan XRnum negb].
    unfold pixel_to_angular. rewrite Hc, Hs, Hu. unfold assert_, q_to, arcsec. cbn [qval qunit].
    rewrite !(xdiv_fin 1 3600) by lra. rewrite !xdiv_fin by lra. cbn. do 2 f_equal. field.
  Qed.
  Lemma arcsec_back w s u r : good_wcs w s u -> exists v, to_arcsec (Fin r) w = Ok (Fin v) /\
    angular_to_pixel {| qval := Fin v; qunit := arcsec |} w = Ok (Fin r).
  Proof.
    intros H. exists (r * (3600 * (s * u))). split; [now apply arcsec_fin|].
    apply good_wcs_close in H as (Hs & Hc & Hu & Ps & Pu).
    unfold angular_to_pixel. rewrite Hc, Hs, Hu. unfold assert_, q_to, arcsec. cbn [qval qunit].
    rewrite !(xdiv_fin 1 3600) by lra. rewrite !xdiv_fin by lra. cbn [xmul].
    rewrite xdiv_fin. 2:{ apply Rgt_not_eq. apply Rmult_lt_0_compat; auto. apply Rdiv_lt_0_compat; lra. }
    do 2 f_equal. field. lra.
  Qed.

  Lemma pair_read o a get : pair_of mk o a get ->
    (exists e, read mk o a = Err e /\ forall w, get w = Err e) \/
    (exists r, read mk o a = Ok (VNum r) /\ forall w, get w = to_arcsec r w).
  Proof.
    intros [[-> ->]|[-> ->]]; cbn [read]; unfold num, r_half_light_arcsec, r_total_flux_arcsec;
      match goal with |- context [obj_fraction mk o ?f] => destruct (obj_fraction mk o f) as [v|e] end; cbn; eauto.
  Qed.

  Theorem arcsec_spec o a get : pair_of mk o a get ->
    (forall e w, read mk o a = Err e -> get w = Err e) /\
    (forall w, read mk o a = Ok (VNum NaN) -> get w = Ok NaN) /\
    (forall r w s u, read mk o a = Ok (VNum (Fin r)) -> good_wcs w s u ->
       get w = Ok (Fin (r * (3600 * (s * u)))) /\
       angular_to_pixel {| qval := Fin (r * (3600 * (s * u))); qunit := arcsec |} w = Ok (Fin r)) /\
    (forall r w p q, read mk o a = Ok (VNum (Fin r)) -> scale0 w = Fin p -> scale1 w = Fin q ->
       Rabs (p - q) > 1 / 100000000 + 1 / 100000 * Rabs q -> get w = Err AssertionError).
  Proof.
    intros P. destruct (pair_read o a get P) as [(e & E & G)|(r & E & G)].
    - rewrite E. split; [intros e' w H; injection H as <-; auto|].
      split; [discriminate|]. split; [discriminate|discriminate].
    - rewrite E. split; [discriminate|].
      split; [intros w H; injection H as ->; rewrite G; reflexivity|].
      split.
      + intros r' w s u H W. injection H as ->. rewrite G. split; [now apply arcsec_fin|].
        destruct (arcsec_back w s u r' W) as (v & V & B). rewrite (arcsec_fin w s u r' W) in V.
        injection V as <-. exact B.
      + intros r' w p q H Hp Hq D. injection H as ->. rewrite G. unfold to_arcsec. cbn [nisnan XRnum negb].
        assert (A : xallclose (scale0 w) (scale1 w) = false).
        { rewrite Hp, Hq. destruct (xallclose (Fin p) (Fin q)) eqn:X; auto. apply xallclose_fin in X. lra. }
        unfold pixel_to_angular. rewrite A. reflexivity.
  Qed.
End Arcsec.

(** ** getters *)
Lemma column_under cells name c : under cells name c -> column cells name = Ok c.
Proof.
  intros (b & a & -> & H). induction b as [|[n c0] b IH]; cbn.
  - now rewrite String.eqb_refl.
  - destruct (String.eqb_spec n name) as [->|N].
    + exfalso. apply (H c0). now left.
    + apply IH. intros c' I. apply (H c'). now right.
Qed.
Lemma column_without cells name : without cells name -> column cells name = Err KeyError.
Proof.
  induction cells as [|[n c] l IH]; intros H; auto. cbn.
  destruct (String.eqb_spec n name) as [->|N]; [exfalso; apply (H c); now left|].
  apply IH. intros c' I. apply (H c'). now right.
Qed.

Lemma pi_ne : PI <> 0. Proof. apply PI_neq0. Qed.
Lemma radian_fin : radian = Fin (180 / PI).
Proof. unfold radian, xpi. rewrite xdiv_fin; auto using pi_ne. Qed.
Lemma deg2rad_spec c d : angle_deg c d -> angle_rad (deg2rad c) (d * (PI / 180)).
Proof.
  intros [->|(v & u & -> & <-)]; unfold deg2rad, angle_rad.
  - left. unfold xpi. rewrite xdiv_fin by lra. reflexivity.
  - right. unfold q_to, degree, xpi. cbn [qval qunit]. rewrite !xdiv_fin by lra. cbn [xmul]. rewrite radian_fin.
    do 3 f_equal. field.
Qed.
Lemma cat_theta d u : u <> 0 -> q_to {| qval := Fin d; qunit := Fin u |} radian = Fin (d * u * (PI / 180)).
Proof.
  intros U. unfold q_to. cbn [qval qunit]. rewrite radian_fin.
  assert (180 / PI <> 0) by (apply Rgt_not_eq, Rdiv_lt_0_compat; [lra|apply PI_RGT_0]).
  rewrite xdiv_fin by auto. cbn [xmul]. f_equal. field. apply pi_ne.
Qed.

(** a catalog entry and a row of its table give the same *)
Theorem getters_spec x y e l v u cells cx cy ce cl co : u <> 0 ->
  under cells "maxval_xindex" cx -> whole cx x -> under cells "maxval_yindex" cy -> whole cy y ->
  under cells "elongation" ce -> number ce e -> under cells "ellipticity" cl -> number cl l ->
  under cells "orientation" co -> angle_deg co (v * u) ->
  let cat := GCat x y (Fin e) (Fin l) {| qval := Fin v; qunit := Fin u |} in
  forall s, s = cat \/ s = GRow cells ->
  get_source_position s = Ok (CInt x, CInt y) /\
  (exists c, get_source_elong s = Ok c /\ number c e) /\
  (exists c, get_source_ellip s = Ok c /\ number c l) /\
  (exists c, get_source_theta s = Ok c /\ angle_rad c (v * u * (PI / 180))).
Proof.
  intros U Hx Wx Hy Wy He Ne Hl Nl Ho Ao cat s [->| ->].
  - unfold cat. cbn. split; auto. split; [exists (CNum (Fin e)); split; [auto|now left]|].
    split; [exists (CNum (Fin l)); split; [auto|now left]|].
    eexists. split; [reflexivity|]. left. f_equal. now apply cat_theta.
  - cbn. rewrite (column_under _ _ _ Hx), (column_under _ _ _ Hy), (column_under _ _ _ He),
      (column_under _ _ _ Hl), (column_under _ _ _ Ho). cbn. rewrite Wx, Wy. split; auto.
    split; [eauto|]. split; [eauto|]. eexists. split; [reflexivity|]. now apply deg2rad_spec.
Qed.

Theorem getters_missing cells :
  (without cells "maxval_xindex" \/ without cells "maxval_yindex" -> get_source_position (GRow cells) = Err KeyError) /\
  (without cells "elongation" -> get_source_elong (GRow cells) = Err KeyError) /\
  (without cells "ellipticity" -> get_source_ellip (GRow cells) = Err KeyError) /\
  (without cells "orientation" -> get_source_theta (GRow cells) = Err KeyError) /\
  get_source_position GOther = Err TypeError /\ get_source_elong GOther = Err TypeError /\
  get_source_ellip GOther = Err TypeError /\ get_source_theta GOther = Err TypeError.
Proof.
  assert (K : forall n, column cells n = Err KeyError \/ exists c, column cells n = Ok c).
  { intros n. induction cells as [|[m c] t IH]; cbn; auto. destruct (String.eqb m n); eauto. }
  split.
  { intros [H|H]; cbn.
    - now rewrite (column_without _ _ H).
    - rewrite (column_without _ _ H). destruct (K "maxval_xindex"%string) as [->|[c ->]]; auto. }
  split; [intros H; cbn; now rewrite (column_without _ _ H)|].
  split; [intros H; cbn; now rewrite (column_without _ _ H)|].
  split; [intros H; cbn; now rewrite (column_without _ _ H)|].
  repeat split.
Qed.

(** ** make_catalog *)
Section CatalogArgs.
  Variables I S C Thr Wcs T : Type.
  Variable det : I -> Thr -> option Z -> result (option S).
  Variable deb : I -> option S -> option Z -> Z -> T -> result (option S).
  Variable cat : I -> option S -> option Wcs -> result C.
  Notation run := (make_catalog_args I S C Thr Wcs T det deb cat).

  Theorem catalog_args_spec i a thr w d np nl con : a = Bare I i \/ a = Holder I i ->
    (forall c s t, run a thr w d np nl con = Ok (c, s, t) <->
       det i thr np = Ok s /\
       ((d = true /\ deb i s np nl con = Ok t /\ cat i t w = Ok c) \/
        (d = false /\ t = None /\ cat i s w = Ok c))) /\
    (forall e, run a thr w d np nl con = Err e <->
       det i thr np = Err e \/
       exists s, det i thr np = Ok s /\
         ((d = true /\ (deb i s np nl con = Err e \/ exists t, deb i s np nl con = Ok t /\ cat i t w = Err e)) \/
          (d = false /\ cat i s w = Err e))).
  Proof.
    intros A. assert (D : data I a = i) by (destruct A; subst; auto).
    unfold make_catalog_args. rewrite D. unfold make_segments, deblend_segments.
    destruct (det i thr np) as [s0|e0]; cbn.
    2:{ split; [intros; split; [discriminate|intros [H _]; discriminate]|].
        intros e. split; [intros H; injection H as <-; auto|].
        intros [H|(s & H & _)]; [now injection H as <-|discriminate]. }
    destruct d; cbn.
    - destruct (deb i s0 np nl con) as [t0|e0] eqn:E; cbn.
      + destruct (cat i t0 w) as [c0|e0] eqn:F; cbn.
        * split.
          -- intros c s t. split.
             ++ intros H. injection H as <- <- <-. auto 7.
             ++ intros (H & [(_ & H1 & H2)|(H1 & _)]); [|discriminate]. congruence.
          -- intros e. split; [discriminate|].
             intros [H|(s & H & [(_ & [H1|(t & H1 & H2)])|(H1 & _)])]; congruence.
        * split.
          -- intros c s t. split; [discriminate|].
             intros (H & [(_ & H1 & H2)|(H1 & _)]); congruence.
          -- intros e. split.
             ++ intros H. injection H as <-. right. exists s0. split; auto. left. split; auto. right. exists t0. auto.
             ++ intros [H|(s & H & [(_ & [H1|(t & H1 & H2)])|(H1 & _)])]; congruence.
      + split.
        * intros c s t. split; [discriminate|].
          intros (H & [(_ & H1 & H2)|(H1 & _)]); congruence.
        * intros e. split.
          -- intros H. injection H as <-. right. exists s0. split; auto.
          -- intros [H|(s & H & [(_ & [H1|(t & H1 & H2)])|(H1 & _)])]; congruence.
    - destruct (cat i s0 w) as [c0|e0] eqn:F; cbn.
      + split.
        * intros c s t. split.
          -- intros H. injection H as <- <- <-. auto 7.
          -- intros (H & [(H1 & _)|(_ & -> & H2)]); [discriminate|]. congruence.
        * intros e. split; [discriminate|].
          intros [H|(s & H & [(H1 & _)|(_ & H1)])]; congruence.
      + split.
        * intros c s t. split; [discriminate|].
          intros (H & [(H1 & _)|(_ & -> & H2)]); congruence.
        * intros e. split.
          -- intros H. injection H as <-. right. exists s0. auto.
          -- intros [H|(s & H & [(H1 & _)|(_ & H1)])]; congruence.
  Qed.
End CatalogArgs.

(** ** one-line models *)
Theorem models_spec A re n e : 0 < value 1000 A -> 0 < value 30 re -> 0 < value 2 n -> value 0 e < 1 ->
  exists L total,
    computes (sersic_enclosed_model (option_map Fin A) (option_map Fin re) (option_map Fin n) (option_map Fin e)) L /\
    (forall b r, half_light (value 2 n) b -> 0 < r ->
       derivable_pt_lim L r
         (2 * PI * r * (1 - value 0 e) * sersic_law (value 1000 A) (value 30 re) (value 2 n) b r)) /\
    L 0 = 0 /\ tends_to_at_infinity L total /\ 2 * L (value 30 re) = total.
Proof.
  intros HA Hr Hn He. destruct (half_light_exists _ Hn) as (b & Hb & U).
  destruct (enclosed_spec _ _ _ _ b HA Hr Hn He Hb) as (L & tot & H1 & H2 & H3 & H4 & H5 & H6 & H7 & H8).
  exists L, tot. split; [|split; [|auto]].
  - intros r Hr0. rewrite <- (H1 r Hr0). unfold sersic_enclosed_model. destruct A, re, n, e; reflexivity.
  - intros b' r Hb' P. rewrite (U b' Hb'). auto.
Qed.
Theorem petro_model_spec re n r : 0 < value 1 re -> 0 < value 4 n -> 0 < r ->
  exists v, petrosian_model (option_map Fin re) (option_map Fin n) (Fin r) = Fin v /\ 0 < v < 1 /\
    (forall A e b L, 0 < A -> e < 1 -> half_light (value 4 n) b ->
       sersic_enclosed (Fin r) (Fin A) (Fin (value 1 re)) (Fin (value 4 n)) (Fin e) = Fin L ->
       v = sersic_law A (value 1 re) (value 4 n) b r / (L / (PI * (r * r) * (1 - e)))).
Proof.
  intros Hr Hn Pr. destruct (profile_spec _ _ r Hr Hn Pr) as (v & E & V & H & _).
  exists v. split; [|auto]. rewrite <- E. unfold petrosian_model. destruct re, n; reflexivity.
Qed.
