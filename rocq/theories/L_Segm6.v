(** Proofs about source_photometry with the 'center' method: sums over the pixels of the caller's image. *)
From Coq Require Import String FunctionalExtensionality.
From Verif Require Import Base Num Numpy M_Utils M_Photometry S_Photometry S_Petrosian S_Center M_PSF M_Fitting S_Fitting S_PetroR M_Segm S_Segm
  L_Numpy L_Photometry L_Center L_Segm L_Segm2 L_Segm3 L_Segm4 L_Segm5.
Local Open Scope list_scope.
Local Open Scope R_scope.

(** ** Reindexing sums *)
Definition inr (n : nat) (z : Z) : bool := ((0 <=? z) && (z <? Z.of_nat n))%Z.
Lemma inr_iff n z : inr n z = true <-> (0 <= z < Z.of_nat n)%Z.
Proof. unfold inr. rewrite andb_true_iff, Z.leb_le, Z.ltb_lt. tauto. Qed.

Lemma sum_to_ext n f g : (forall k, (k < n)%nat -> f k = g k) -> sum_to n f = sum_to n g.
Proof. induction n as [|n IH]; intros H; cbn; auto. rewrite IH, H; auto. Qed.
Lemma sum_to_plus n f g : sum_to n (fun k => f k + g k) = sum_to n f + sum_to n g.
Proof. induction n as [|n IH]; cbn; [lra|]. rewrite IH. lra. Qed.
Lemma sum_to_0 n : sum_to n (fun _ => 0) = 0.
Proof. induction n as [|n IH]; cbn; lra. Qed.

Lemma sum_delta n z g : sum_to n (fun Y => if (Z.of_nat Y =? z)%Z then g Y else 0) = if inr n z then g (Z.to_nat z) else 0.
Proof.
  induction n as [|n IH]; cbn [sum_to].
  - destruct (inr 0 z) eqn:E; auto. apply inr_iff in E. lia.
  - rewrite IH. destruct (Z.eqb_spec (Z.of_nat n) z) as [<-|N].
    + destruct (inr n (Z.of_nat n)) eqn:E; [apply inr_iff in E; lia|].
      destruct (inr (S n) (Z.of_nat n)) eqn:E2; [rewrite Nat2Z.id; lra|]. assert (inr (S n) (Z.of_nat n) = true) by (apply inr_iff; lia). congruence.
    + destruct (inr n z) eqn:E, (inr (S n) z) eqn:E2; try lra.
      * apply inr_iff in E. assert (inr (S n) z = true) by (apply inr_iff; lia). congruence.
      * apply inr_iff in E2. assert (inr n z = true) by (apply inr_iff; lia). congruence.
Qed.

Definition win (z0 : Z) (n : nat) (k : nat) : bool := ((z0 <=? Z.of_nat k) && (Z.of_nat k <? z0 + Z.of_nat n))%Z.

Lemma reindex n ny z0 g :
  sum_to n (fun j => if inr ny (z0 + Z.of_nat j) then g (Z.to_nat (z0 + Z.of_nat j)) else 0) =
  sum_to ny (fun Y => if win z0 n Y then g Y else 0).
Proof.
  induction n as [|n IH]; cbn [sum_to].
  - symmetry. transitivity (sum_to ny (fun _ => 0)); [|apply sum_to_0]. apply sum_to_ext. intros k _. unfold win.
    destruct (Z.leb_spec z0 (Z.of_nat k)), (Z.ltb_spec (Z.of_nat k) (z0 + Z.of_nat 0)); cbn [andb]; auto; lia.
  - rewrite IH, <- (sum_delta ny (z0 + Z.of_nat n) g), <- sum_to_plus. apply sum_to_ext. intros k _. unfold win.
    destruct (Z.leb_spec z0 (Z.of_nat k)), (Z.ltb_spec (Z.of_nat k) (z0 + Z.of_nat n)), (Z.ltb_spec (Z.of_nat k) (z0 + Z.of_nat (S n))),
      (Z.eqb_spec (Z.of_nat k) (z0 + Z.of_nat n)); cbn [andb]; try lra; exfalso; lia.
Qed.

Lemma reindex2 n ny nx y0 x0 (g : nat -> nat -> R) :
  sum2 n n (fun j i => if inr ny (y0 + Z.of_nat j) && inr nx (x0 + Z.of_nat i)
                       then g (Z.to_nat (y0 + Z.of_nat j)) (Z.to_nat (x0 + Z.of_nat i)) else 0) =
  sum2 ny nx (fun Y X => if win y0 n Y && win x0 n X then g Y X else 0).
Proof.
  unfold sum2.
  transitivity (sum_to n (fun j => if inr ny (y0 + Z.of_nat j)
     then (fun Y => sum_to nx (fun X => if win x0 n X then g Y X else 0)) (Z.to_nat (y0 + Z.of_nat j)) else 0)).
  - apply sum_to_ext. intros j _. destruct (inr ny (y0 + Z.of_nat j)); cbn [andb].
    + apply (reindex n nx x0 (fun X => g (Z.to_nat (y0 + Z.of_nat j)) X)).
    + apply sum_to_0.
  - etransitivity; [apply (reindex n ny y0 (fun Y => sum_to nx (fun X => if win x0 n X then g Y X else 0)))|].
    apply sum_to_ext. intros Y _. destruct (win y0 n Y); cbn [andb]; auto. symmetry. apply sum_to_0.
Qed.

Lemma inside_shift x y a b t px py d e :
  inside_ellipse x y a b t px py <-> inside_ellipse (x + d) (y + e) a b t (px + d) (py + e).
Proof. unfold inside_ellipse. split; intros (s & u & H & E1 & E2); exists s, u; repeat split; auto; lra. Qed.

Lemma inside_dec x y a b t px py : 0 < a -> 0 < b -> inside_ellipse x y a b t px py \/ ~ inside_ellipse x y a b t px py.
Proof.
  intros Ha Hb. destruct (in_ellipse a b t (px - x) (py - y)) eqn:E.
  - left. now apply in_ellipse_iff. - right. intros K. apply in_ellipse_iff in K; auto. congruence.
Qed.

Lemma inside_centre x y a b t : inside_ellipse x y a b t x y.
Proof. exists 0, 0. lra. Qed.

Section Flux.
  Variable sigma_clip : img xr -> xr -> img bool.
  Variable clipped_stats : img xr -> xr * xr.
  Variables M O : Type.
  Variable planar : M.
  Variable linear : fitter (T:=xr) M O.
  Variable opts : O.
  Variable evalM : M -> smodel (T:=xr).
  Notation sp := (source_photometry center_overlap sigma_clip clipped_stats M O planar linear opts evalM).

  Lemma wanted_dec l mb z : {wanted l mb z} + {~ wanted l mb z}.
  Proof.
    unfold wanted. destruct (Z.eq_dec z l); [left; auto|]. destruct (Z.eq_dec z 0), mb; try (right; intuition congruence). left; auto.
  Qed.

  Theorem source_flux k c image segm rs cs sigma kind mb (h : heap xr) size elong t v (ins : R -> nat -> nat -> bool) :
    valid h image -> a_type (deref h image) = DFloat ->
    iny segm = iny (a_img (deref h image)) -> inx segm = inx (a_img (deref h image)) ->
    (0 <= c_x c < Z.of_nat (inx segm))%Z -> (0 <= c_y c < Z.of_nat (iny segm))%Z ->
    c_elong c = Fin elong -> 0 < elong -> c_theta c = Fin t ->
    cutout_side cs (map Fin rs) = Ok size -> (0 < size)%Z -> (forall r, In r rs -> 0 < r) ->
    (forall Y X, (Y < iny segm)%nat -> (X < inx segm)%nat -> wanted (c_label c) mb (px segm Y X) -> px (a_img (deref h image)) Y X = Fin (v Y X)) ->
    (forall r Y X, In r rs -> ins r Y X = true <-> wanted (c_label c) mb (px segm Y X) /\ in_square (c_x c) (c_y c) size Y X /\
       inside_ellipse (IZR (c_x c)) (IZR (c_y c)) r (r / elong) t (INR X) (INR Y)) ->
    exists F A, fst (sp k (SCat c) image segm (map Fin rs) None cs false sigma kind mb h) =
      Ok (map Fin F, map Fin A, map (fun _ => NaN) rs) /\
      length F = length rs /\ length A = length rs /\
      forall i, (i < length rs)%nat ->
        rounded6 (sum2 (iny segm) (inx segm) (fun Y X => if ins (at_ rs i) Y X then v Y X else 0)) (at_ F i) /\
        rounded6 (sum2 (iny segm) (inx segm) (fun Y X => if ins (at_ rs i) Y X then 1 else 0)) (at_ A i).
  Proof.
    intros V HT Hy Hx Px Py He Hep Ht Hs Hp Hr Hv HI.
    assert (HE : Z.even size = true) by (eapply side_even; eauto).
    assert (HO : overlaps (a_img (deref h image)) (c_x c) (c_y c) size).
    { exists (c_y c), (c_x c). rewrite <- Hy, <- Hx. apply Z.even_spec in HE as (q & ->).
      rewrite Z.mul_comm, Z.div_mul by lia. lia. }
    destruct (plain center_overlap sigma_clip clipped_stats M O planar linear opts evalM k c image segm (map Fin rs) None cs sigma kind mb h size)
      as (kept & m & err & mask & K1 & K2 & K3 & K4 & ->); auto; [split; auto|discriminate|].
    destruct err; [contradiction|]. rewrite He, Ht. clear K3.
    destruct K1 as (Ky & Kx & Kp). destruct K2 as (My & Mx & Mp). destruct K4 as (Qy & Qx & Qp).
    assert (Hh : exists q, size = (2 * q)%Z /\ (size / 2 = q)%Z /\ (0 < q)%Z).
    { apply Z.even_spec in HE as (q & ->). exists q. rewrite Z.mul_comm, Z.div_mul by lia. split; [lia|]. split; [reflexivity|lia]. }
    destruct Hh as (q & Eq & Dq & Pq). rewrite Dq in Mp.
    set (n := Z.to_nat size) in *. assert (Ny : iny m = n) by (unfold n; lia). assert (Nx : inx m = n) by (unfold n; lia).
    set (y0 := (c_y c - q)%Z). set (x0 := (c_x c - q)%Z).
    (* pixels of the cutout *)
    assert (PX : forall j i, (j < n)%nat -> (i < n)%nat ->
      let Y := Z.to_nat (y0 + Z.of_nat j) in let X := Z.to_nat (x0 + Z.of_nat i) in
      (inr (iny segm) (y0 + Z.of_nat j) && inr (inx segm) (x0 + Z.of_nat i) = true /\ wanted (c_label c) mb (px segm Y X) /\ px m j i = Fin (v Y X)) \/
      ((inr (iny segm) (y0 + Z.of_nat j) && inr (inx segm) (x0 + Z.of_nat i) = true -> ~ wanted (c_label c) mb (px segm Y X)) /\ px m j i = NaN)).
    { intros j i Hj Hi Y X.
      destruct (Mp j i (y0 + Z.of_nat j) (x0 + Z.of_nat i))%Z as (A1 & A2); try lia. rewrite Ky, Kx, <- Hy, <- Hx in A1, A2.
      destruct (inr (iny segm) (y0 + Z.of_nat j) && inr (inx segm) (x0 + Z.of_nat i)) eqn:EI.
      - apply andb_true_iff in EI as [E1 E2]. apply inr_iff in E1, E2. rewrite A1 by auto. fold Y X.
        destruct (Kp Y X) as (B1 & B2); [unfold Y; lia|unfold X; lia|].
        destruct (wanted_dec (c_label c) mb (px segm Y X)) as [W|W].
        + left. split; auto. split; auto. rewrite B1 by auto. apply Hv; auto; unfold Y, X; lia.
        + right. split; auto.
      - right. split; [discriminate|]. apply A2. intros [E1 E2]. apply inr_iff in E1, E2. rewrite E1, E2 in EI. discriminate. }
    (* one radius *)
    assert (ONE : forall r, In r rs -> exists f a,
      radial_photometry center_overlap k m (Fin (IZR size / 2), Fin (IZR size / 2)) [Fin r] None (Some mask) (Fin elong) (Fin t) = Ok ([Fin f], [Fin a], [NaN]) /\
      rounded6 (sum2 (iny segm) (inx segm) (fun Y X => if ins r Y X then v Y X else 0)) f /\
      rounded6 (sum2 (iny segm) (inx segm) (fun Y X => if ins r Y X then 1 else 0)) a).
    { intros r Hin. pose proof (Hr r Hin) as R0. assert (B0 : 0 < r / elong) by (apply Rdiv_lt_0_compat; auto).
      set (C := IZR size / 2). assert (EC : C = IZR q) by (unfold C; rewrite Eq, mult_IZR; lra).
      set (insc := fun j i => in_ellipse r (r / elong) t (INR i - C) (INR j - C) && selects (Some mask) j i).
      set (vv := fun j i => v (Z.to_nat (y0 + Z.of_nat j)) (Z.to_nat (x0 + Z.of_nat i))).
      destruct (center_photometry k m vv C C t r None (Some mask) elong insc) as (f & a & e & E1 & E2 & E3 & E4 & _); auto.
      - cbn; auto.
      - cbn; auto.
      - intros j i. unfold insc. rewrite andb_true_iff, in_ellipse_iff by auto. tauto.
      - exists (Z.to_nat q), (Z.to_nat q). split; [lia|]. split; [lia|]. rewrite INR_IZR_INZ, Z2Nat.id, EC by lia. apply inside_centre.
      - intros j i Hj Hi K. unfold insc in K. apply andb_true_iff in K as [_ K]. cbn [selects] in K. apply Qp in K.
        destruct (PX j i ltac:(lia) ltac:(lia)) as [(_ & _ & P)|(_ & P)]; [exact P|contradiction].
      - discriminate.
      - exists f, a. rewrite (E4 eq_refl) in E1. split; [exact E1|].
        assert (SUM : forall g : nat -> nat -> R,
          sum2 (iny m) (inx m) (fun j i => if insc j i then g (Z.to_nat (y0 + Z.of_nat j)) (Z.to_nat (x0 + Z.of_nat i)) else 0) =
          sum2 (iny segm) (inx segm) (fun Y X => if ins r Y X then g Y X else 0)).
        { intros g.
          transitivity (sum2 n n (fun j i => if inr (iny segm) (y0 + Z.of_nat j) && inr (inx segm) (x0 + Z.of_nat i)
             then (fun Y X => if ins r Y X then g Y X else 0) (Z.to_nat (y0 + Z.of_nat j)) (Z.to_nat (x0 + Z.of_nat i)) else 0)).
          - rewrite Ny, Nx. apply sum2_ext. intros j i Hj Hi. set (Y := Z.to_nat (y0 + Z.of_nat j)). set (X := Z.to_nat (x0 + Z.of_nat i)).
            assert (SH : (0 <= y0 + Z.of_nat j)%Z -> (0 <= x0 + Z.of_nat i)%Z ->
              (inside_ellipse C C r (r / elong) t (INR i) (INR j) <->
               inside_ellipse (IZR (c_x c)) (IZR (c_y c)) r (r / elong) t (INR X) (INR Y))).
            { intros N1 N2. rewrite (inside_shift C C r (r / elong) t (INR i) (INR j) (IZR x0) (IZR y0)).
              replace (C + IZR x0) with (IZR (c_x c)) by (unfold x0; rewrite EC, minus_IZR; lra).
              replace (C + IZR y0) with (IZR (c_y c)) by (unfold y0; rewrite EC, minus_IZR; lra).
              replace (INR i + IZR x0) with (INR X) by (unfold X; rewrite !INR_IZR_INZ, Z2Nat.id, plus_IZR by auto; lra).
              replace (INR j + IZR y0) with (INR Y) by (unfold Y; rewrite !INR_IZR_INZ, Z2Nat.id, plus_IZR by auto; lra). reflexivity. }
            destruct (PX j i Hj Hi) as [(EI & W & P)|(W & P)].
            + rewrite EI. apply andb_true_iff in EI as [I1 I2]. apply inr_iff in I1, I2. cbn beta.
              assert (SQ : in_square (c_x c) (c_y c) size Y X) by (unfold in_square; rewrite Dq; unfold Y, X, y0, x0 in *; lia).
              replace (insc j i) with (ins r Y X); auto. apply Bool.eq_true_iff_eq. rewrite (HI r Y X Hin). unfold insc.
              rewrite andb_true_iff, in_ellipse_iff, SH by (auto; lia). cbn [selects]. rewrite Qp, P. intuition discriminate.
            + assert (E0 : insc j i = false).
              { unfold insc. cbn [selects]. destruct (px mask j i) eqn:EM; [|apply andb_false_r]. apply Qp in EM. contradiction. }
              rewrite E0. destruct (inr (iny segm) (y0 + Z.of_nat j) && inr (inx segm) (x0 + Z.of_nat i)) eqn:EI; auto. cbn beta.
              destruct (ins r Y X) eqn:ER; auto. apply (HI r Y X Hin) in ER as (K & _). now destruct (W eq_refl).
          - etransitivity; [apply (reindex2 n (iny segm) (inx segm) y0 x0 (fun Y X => if ins r Y X then g Y X else 0))|].
            apply sum2_ext. intros Y X HY HX. destruct (ins r Y X) eqn:ER.
            + apply (HI r Y X Hin) in ER as (_ & S & _). unfold in_square in S. rewrite Dq in S.
              assert (W1 : win y0 n Y = true) by (unfold win, y0; apply andb_true_iff; rewrite Z.leb_le, Z.ltb_lt; unfold n; lia).
              assert (W2 : win x0 n X = true) by (unfold win, x0; apply andb_true_iff; rewrite Z.leb_le, Z.ltb_lt; unfold n; lia).
              now rewrite W1, W2.
            + now destruct (_ && _)%bool. }
        split.
        + rewrite <- (SUM v). exact E2.
        + rewrite <- (SUM (fun _ _ => 1)). exact E3. }
    (* all radii *)
    set (pos := (Fin (IZR size / 2), Fin (IZR size / 2))) in *.
    assert (ALL : exists F A, length F = length rs /\ length A = length rs /\ forall i, (i < length rs)%nat ->
      radial_photometry center_overlap k m pos [Fin (at_ rs i)] None (Some mask) (Fin elong) (Fin t) = Ok ([Fin (at_ F i)], [Fin (at_ A i)], [NaN]) /\
      rounded6 (sum2 (iny segm) (inx segm) (fun Y X => if ins (at_ rs i) Y X then v Y X else 0)) (at_ F i) /\
      rounded6 (sum2 (iny segm) (inx segm) (fun Y X => if ins (at_ rs i) Y X then 1 else 0)) (at_ A i)).
    { clear - ONE. induction rs as [|r rs IH]; [exists [], []; repeat split; cbn in *; lia|].
      destruct IH as (F & A & LF & LA & H). { intros r' K. apply ONE. now right. }
      destruct (ONE r (or_introl eq_refl)) as (f & a & E). exists (f :: F), (a :: A). cbn [length]. split; [lia|]. split; [lia|].
      intros [|i] Hi; [exact E|]. cbn [length] in Hi. apply (H i). lia. }
    destruct ALL as (F & A & LF & LA & H). exists F, A. split.
    - apply rp_Ok. rewrite !map_length. repeat split; auto. intros i r Hnr.
      assert (Li : (i < length rs)%nat). { rewrite <- (map_length Fin rs). apply nth_error_Some. congruence. }
      destruct (H i Li) as (E & _). exists (Fin (at_ F i)), (Fin (at_ A i)), NaN.
      assert (r = Fin (at_ rs i)) as ->.
      { rewrite nth_error_map in Hnr. unfold at_. rewrite (nth_error_nth' rs 0 Li) in Hnr. cbn in Hnr. now injection Hnr as <-. }
      split; [exact E|]. rewrite !nth_error_map. unfold at_.
      rewrite (nth_error_nth' F 0) by lia. rewrite (nth_error_nth' A 0) by lia. rewrite (nth_error_nth' rs 0) by lia. auto.
    - split; auto. split; auto. intros i Hi. apply (H i Hi).
  Qed.

  (** default cutout: the square never cuts anything off *)
  Lemma square_covers r elong t x y size Y X : 0 < r -> 1 <= elong -> IZR size >= 3 * r -> Z.even size = true ->
    inside_ellipse (IZR x) (IZR y) r (r / elong) t (INR X) (INR Y) -> in_square x y size Y X.
  Proof.
    intros Hr He Hs HE (s & u & H & Ex & Ey). apply Z.even_spec in HE as (q & ->). unfold in_square. rewrite (Z.mul_comm 2 q), Z.div_mul by lia.
    rewrite mult_IZR in Hs. set (b := r / elong) in *.
    assert (Hb : 0 < b <= r). { unfold b. split; [apply Rdiv_lt_0_compat; lra|]. apply (Rmult_le_reg_r elong); [lra|]. replace (r / elong * elong) with r by (field; lra). nra. }
    pose proof (sc1 t) as SC.
    assert (D : forall p, p * p < r * r -> - r < p < r) by (intros p K; split; nra).
    assert (BX : (INR X - IZR x) * (INR X - IZR x) + (INR Y - IZR y) * (INR Y - IZR y) < r * r).
    { rewrite Ex, Ey. 
      replace ((IZR x + r * s * cos t - b * u * sin t - IZR x) * (IZR x + r * s * cos t - b * u * sin t - IZR x) +
               (IZR y + r * s * sin t + b * u * cos t - IZR y) * (IZR y + r * s * sin t + b * u * cos t - IZR y))
        with ((r * r * (s * s) + b * b * (u * u)) * (sin t * sin t + cos t * cos t)) by ring.
      rewrite SC. assert (0 <= s * s) by apply Rle_0_sqr. assert (0 <= u * u) by apply Rle_0_sqr. assert (b * b <= r * r) by nra.
      assert (b * b * (u * u) <= r * r * (u * u)) by (apply Rmult_le_compat_r; auto).
      assert (r * r * (s * s + u * u) < r * r * 1) by (apply Rmult_lt_compat_l; nra). lra. }
    assert (BX1 : - r < INR X - IZR x < r) by (apply D; assert (0 <= (INR Y - IZR y) * (INR Y - IZR y)) by apply Rle_0_sqr; lra).
    assert (BY1 : - r < INR Y - IZR y < r) by (apply D; assert (0 <= (INR X - IZR x) * (INR X - IZR x)) by apply Rle_0_sqr; lra).
    rewrite !INR_IZR_INZ in BX1, BY1.
    assert (T1 : (y - q < Z.of_nat Y)%Z) by (apply lt_IZR; rewrite minus_IZR; lra).
    assert (T2 : (Z.of_nat Y < y + q)%Z) by (apply lt_IZR; rewrite plus_IZR; lra).
    assert (T3 : (x - q < Z.of_nat X)%Z) by (apply lt_IZR; rewrite minus_IZR; lra).
    assert (T4 : (Z.of_nat X < x + q)%Z) by (apply lt_IZR; rewrite plus_IZR; lra). lia.
  Qed.

  Theorem source_flux_default k c image segm rs sigma kind mb (h : heap xr) elong t v (ins : R -> nat -> nat -> bool) :
    valid h image -> a_type (deref h image) = DFloat ->
    iny segm = iny (a_img (deref h image)) -> inx segm = inx (a_img (deref h image)) ->
    (0 <= c_x c < Z.of_nat (inx segm))%Z -> (0 <= c_y c < Z.of_nat (iny segm))%Z ->
    c_elong c = Fin elong -> 1 <= elong -> c_theta c = Fin t ->
    rs <> [] -> (forall r, In r rs -> 0 < r) ->
    (forall Y X, (Y < iny segm)%nat -> (X < inx segm)%nat -> wanted (c_label c) mb (px segm Y X) -> px (a_img (deref h image)) Y X = Fin (v Y X)) ->
    (forall r Y X, In r rs -> ins r Y X = true <-> wanted (c_label c) mb (px segm Y X) /\
       inside_ellipse (IZR (c_x c)) (IZR (c_y c)) r (r / elong) t (INR X) (INR Y)) ->
    exists F A, fst (sp k (SCat c) image segm (map Fin rs) None VNone false sigma kind mb h) =
      Ok (map Fin F, map Fin A, map (fun _ => NaN) rs) /\
      length F = length rs /\ length A = length rs /\
      forall i, (i < length rs)%nat ->
        rounded6 (sum2 (iny segm) (inx segm) (fun Y X => if ins (at_ rs i) Y X then v Y X else 0)) (at_ F i) /\
        rounded6 (sum2 (iny segm) (inx segm) (fun Y X => if ins (at_ rs i) Y X then 1 else 0)) (at_ A i).
  Proof.
    intros V HT Hy Hx Px Py He He1 Ht Hne Hr Hv HI.
    assert (exists hi, is_max rs hi) as (hi & Hhi).
    { clear - Hne. induction rs as [|r rs IH]; [congruence|]. destruct rs as [|r' rs].
      - exists r. split; [now left|]. intros x [<-|[]]. lra.
      - destruct IH as (m & M1 & M2); [discriminate|]. exists (Rmax r m). split.
        + unfold Rmax. destruct (Rle_dec r m); [right; auto|now left].
        + intros x [<-|K]; [apply Rmax_l|]. apply M2 in K. pose proof (Rmax_r r m). lra. }
    destruct (side_default rs hi Hhi) as (size & Es & HE & Hsz). destruct Hhi as [Hin Hmax]. pose proof (Hr hi Hin) as Hhi0.
    assert (Sp : (0 < size)%Z) by (apply lt_IZR; lra).
    destruct (source_flux k c image segm rs VNone sigma kind mb h size elong t v
      (fun r Y X => ins r Y X && win (c_y c - size / 2) (Z.to_nat size) Y && win (c_x c - size / 2) (Z.to_nat size) X)) as (F & A & E & LF & LA & H); auto; try lra.
    - intros r Y X Hir. rewrite !andb_true_iff, (HI r Y X Hir). unfold win, in_square. rewrite !andb_true_iff, !Z.leb_le, !Z.ltb_lt, Z2Nat.id by lia. tauto.
    - exists F, A. split; auto. split; auto. split; auto. intros i Hi. destruct (H i Hi) as [H1 H2].
      assert (RI : In (at_ rs i) rs) by (apply nth_In; auto). pose proof (Hr _ RI) as R0. pose proof (Hmax _ RI) as R1.
      assert (SAME : forall Y X, ins (at_ rs i) Y X && win (c_y c - size / 2) (Z.to_nat size) Y && win (c_x c - size / 2) (Z.to_nat size) X = ins (at_ rs i) Y X).
      { intros Y X. destruct (ins (at_ rs i) Y X) eqn:EI; auto. apply (HI _ Y X RI) in EI as (_ & EI).
        apply (square_covers (at_ rs i) elong t (c_x c) (c_y c) size Y X) in EI; auto; try lra.
        unfold in_square in EI. cbn [andb]. apply andb_true_iff. unfold win. rewrite !andb_true_iff, !Z.leb_le, !Z.ltb_lt, Z2Nat.id by lia. tauto. }
      split; [erewrite sum2_ext; [exact H1|]|erewrite sum2_ext; [exact H2|]]; intros Y X _ _; cbn beta; now rewrite SAME.
  Qed.
End Flux.
