(** Concrete cases for the overlap methods 'exact' and 'subpixel'. *)
From Coq Require Import String.
From Coquelicot Require Import Coquelicot.
From Verif Require Import Base Num Numpy M_Utils M_Photometry S_Petrosian S_Photometry S_Center S_Symm M_Ellipse M_Exact S_Exact
  L_Numpy L_Photometry L_Center L_Segm6 E_Center L_Symm E_Symm L_Ellipse L_Fubini L_Exact L_Exact2 L_Exact3.
Local Open Scope list_scope.
Local Open Scope R_scope.

Lemma disc x y r u v : 0 < r -> (inside_ellipse x y r r 0 u v <-> (u - x) * (u - x) + (v - y) * (v - y) < r * r).
Proof. intros Hr. rewrite <- (inside_circle x y r u v Hr). replace (r / 1) with r by field. tauto. Qed.
Lemma circle_box x y r u v : 0 < r -> inside_ellipse x y r r 0 u v -> x - r <= u <= x + r /\ y - r <= v <= y + r.
Proof.
  intros Hr H. apply disc in H; auto.
  pose proof (Rle_0_sqr (u - x)) as P1. pose proof (Rle_0_sqr (v - y)) as P2. unfold Rsqr in *.
  assert (Q : forall d, d * d < r * r -> - r <= d <= r) by (intros d Hd; split; nra).
  pose proof (Q (u - x) ltac:(nra)). pose proof (Q (v - y) ltac:(nra)). lra.
Qed.
Lemma circle_on x y r ny nx : 0 < r -> - (1 / 2) <= x - r -> x + r <= INR nx - 1 / 2 -> - (1 / 2) <= y - r -> y + r <= INR ny - 1 / 2 ->
  on_image x y r r 0 ny nx.
Proof. intros Hr H1 H2 H3 H4 u v Hi. apply circle_box in Hi; auto. lra. Qed.

(** a circle of diameter 1 on the middle of a pixel covers pi/4 of it, and nothing of the others *)
Lemma coin j i j' i' : pixel_area (INR i) (INR j) (1 / 2) (1 / 2) 0 j' i' = if (Nat.eqb j j' && Nat.eqb i i')%bool then PI / 4 else 0.
Proof.
  destruct (Nat.eqb_spec j j') as [<-|Hj]; [destruct (Nat.eqb_spec i i') as [<-|Hi]|]; cbn [andb].
  - transitivity (PI * (1 / 2) * (1 / 2)); [|field]. unfold pixel_area. apply is_RInt_unique.
    assert (W : sqrt (width2 (1 / 2) (1 / 2) 0) = 1 / 2).
    { unfold width2. rewrite cos_0, sin_0. replace (1 / 2 * 1 * (1 / 2 * 1) + 1 / 2 * 0 * (1 / 2 * 0)) with (1 / 2 * (1 / 2)) by ring. apply sqrt_square. lra. }
    apply (is_RInt_ext (fun u => 2 * chord_half (1 / 2) (1 / 2) 0 (u - INR i))).
    + intros u _. symmetry. apply part_full; try lra. intros dy Hd.
      destruct (circle_box (INR i) (INR j) (1 / 2) u (INR j + dy)) as [_ V]; [lra| |lra].
      apply inside_chord; lra.
    + apply whole_area; try lra; rewrite W; lra.
  - apply area_none; try lra. intros u v Hu Hv Hin. apply circle_box in Hin; [|lra].
    assert (E : INR i' <= INR i - 1 \/ INR i + 1 <= INR i').
    { rewrite <- S_INR. destruct (Nat.lt_total i i') as [L|[L|L]]; [right; apply le_INR; lia|lia|left]. apply le_INR in L. rewrite S_INR in L. lra. }
    lra.
  - apply area_none; try lra. intros u v Hu Hv Hin. apply circle_box in Hin; [|lra].
    assert (E : INR j' <= INR j - 1 \/ INR j + 1 <= INR j').
    { rewrite <- S_INR. destruct (Nat.lt_total j j') as [L|[L|L]]; [right; apply le_INR; lia|lia|left]. apply le_INR in L. rewrite S_INR in L. lra. }
    lra.
Qed.
Definition coin_ap : aperture xr := mkap (Fin 1) (Fin 1) (Fin (1 / 2)) (Fin (1 / 2)) (Fin 0).
Lemma coin_on : on_image 1 1 (1 / 2) (1 / 2) 0 3 3.
Proof. apply circle_on; cbn; lra. Qed.
Lemma C107_ex : exists w, exact_overlap coin_ap 3 3 = Some w /\ w 1%nat 1%nat = Fin (PI / 4) /\ w 1%nat 2%nat = Fin 0.
Proof.
  eexists. split; [apply exact_some; try lra; exact coin_on|].
  pose proof (coin 1 1) as C. change (INR 1) with 1 in C. cbn beta. rewrite !C. auto.
Qed.

(** an image of 2s: a circle of radius 1 on it holds a flux of 2 pi *)
Definition twos : img xr := mkimg 3 4 (fun _ _ => Fin 2).
Lemma C108_ex k : on_image (3 / 2) 1 1 (1 / 1) 0 3 4 /\
  exists f f0 A, radial_photometry exact_overlap k twos (Fin (3 / 2), Fin 1) [Fin 1] None None (Fin 1) (Fin 0) = Ok ([Fin f], [Fin A], [NaN]) /\
    rounded6 PI A /\ rounded6 f0 f /\ f0 = 2 * PI.
Proof.
  assert (On : on_image (3 / 2) 1 1 (1 / 1) 0 3 4) by (replace (1 / 1) with 1 by field; apply circle_on; cbn; lra). split; auto.
  destruct (exact_photometry k twos (fun _ _ => 2) (3 / 2) 1 1 1 0 2 2) as (f & f0 & A & E & FA & Ff & B); try lra; auto.
  - intros j i _ _. reflexivity.
  - intros; lra.
  - exists f, f0, A. replace (PI * 1 * (1 / 1)) with PI in * by field. repeat split; auto. lra.
Qed.
(** half of the circle is outside the image *)
Lemma C109_ex : exists w, exact_overlap (mkap (Fin 0) (Fin (- (1 / 4))) (Fin 1) (Fin (1 / 1)) (Fin 0)) 3 4 = Some w.
Proof.
  cbn [exact_overlap]. unfold box_misses. cbn zeta.
  assert (Hex : 0 < extent_x 1 (1 / 1) 0) by (apply sqrt_lt_R0, extent_pos; lra).
  assert (Hey : 0 < extent_y 1 (1 / 1) 0) by (apply sqrt_lt_R0, extent_pos'; lra).
  destruct (box_hit 0 _ 4 Hex ltac:(cbn; lra)) as [-> ->]. destruct (box_hit (- (1 / 4)) _ 3 Hey ltac:(cbn; lra)) as [-> ->]. cbn. eauto.
Qed.
Lemma monotone_ex : nondecreasing [1 / 2; 1; 3] /\ (forall i, (i < List.length [1 / 2; 1; 3])%nat -> 0 < at_ [1 / 2; 1; 3] i) /\
  exact_overlap (ap_of (Fin 1) (Fin 1) (Fin 0) 1 (at_ [1 / 2; 1; 3] 0)) 3 4 <> None /\
  subpixel_overlap 5 (ap_of (Fin 1) (Fin 1) (Fin 0) 1 (at_ [1 / 2; 1; 3] 0)) 3 4 <> None.
Proof.
  split; [|split].
  - intros i H. cbn in H. destruct i as [|[|[|i]]]; cbn; try lia; lra.
  - intros i H. cbn in H. destruct i as [|[|[|i]]]; cbn; try lia; lra.
  - unfold ap_of, at_. cbn [nth exact_overlap subpixel_overlap].
    assert (B : box_misses 1 1 (1 / 2) (1 / 2 / 1) 0 3 4 = false); [|rewrite B; split; discriminate].
    unfold box_misses. cbn zeta.
    assert (Hex : 0 < extent_x (1 / 2) (1 / 2 / 1) 0) by (apply sqrt_lt_R0, extent_pos; lra).
    assert (Hey : 0 < extent_y (1 / 2) (1 / 2 / 1) 0) by (apply sqrt_lt_R0, extent_pos'; lra).
    destruct (box_hit 1 _ 4 Hex ltac:(cbn; lra)) as [-> ->]. destruct (box_hit 1 _ 3 Hey ltac:(cbn; lra)) as [-> ->]. reflexivity.
Qed.

(** the coin on the pixel of value 1 of count9 *)
Lemma coin_flux k : exists f A, radial_photometry exact_overlap k count9 (Fin 1, Fin 0) [Fin (1 / 2)] None None (Fin 1) (Fin 0) = Ok ([Fin f], [Fin A], [NaN]) /\
  rounded6 (PI / 4) f /\ rounded6 (PI / 4) A.
Proof.
  assert (Hh : 1 / 2 / 1 = 1 / 2) by field.
  assert (On : on_image 1 0 (1 / 2) (1 / 2 / 1) 0 3 3) by (rewrite Hh; apply circle_on; cbn; lra).
  destruct (rp_value exact_overlap k count9 (fun j i => INR (3 * j + i)) (Fin 1) (Fin 0) (1 / 2) None None 1 (Fin 0) (pixel_area 1 0 (1 / 2) (1 / 2 / 1) 0) _
    ltac:(lra) ltac:(lra) I I (exact_some 1 0 (1 / 2) (1 / 2 / 1) 0 3 3 ltac:(lra) ltac:(lra) On)) as (f & A & e & E & Ff & Fa & Fe & _); auto; try discriminate.
  rewrite (Fe eq_refl) in E. exists f, A. split; [exact E|].
  rewrite weighted_all in Ff, Fa by (intros; apply area_bounds; lra).
  unfold sum2 in Ff, Fa. cbn [count9 iny inx sum_to] in Ff, Fa. rewrite Hh in Ff, Fa.
  pose proof (coin 0 1) as C. change (INR 1) with 1 in C. change (INR 0) with 0 in C. rewrite !C in Ff, Fa. cbn [Nat.eqb andb] in Ff, Fa.
  split.
  - match type of Ff with rounded6 ?u _ => replace u with (PI / 4) in Ff by (cbn; lra) end. auto.
  - match type of Fa with rounded6 ?u _ => replace u with (PI / 4) in Fa by lra end. auto.
Qed.
Lemma C110_ex k : exists f A, rounded6 (PI / 4) f /\ rounded6 (PI / 4) A /\
  radial_photometry exact_overlap k count9 (Fin 1, Fin 0) [Fin (1 / 2)] None None (Fin 1) (Fin (1 / 3)) = Ok ([Fin f], [Fin A], [NaN]) /\
  radial_photometry exact_overlap k (transposed count9) (Fin 0, Fin 1) [Fin (1 / 2)] None None (Fin 1) (Fin 0) = Ok ([Fin f], [Fin A], [NaN]) /\
  radial_photometry exact_overlap k (window 0 1 1 1 count9) (Fin 0, Fin 0) [Fin (1 / 2)] None None (Fin 1) (Fin 0) = Ok ([Fin f], [Fin A], [NaN]).
Proof.
  destruct (coin_flux k) as (f & A & E & F & Fa). exists f, A. split; auto. split; auto. split; [|split].
  - now rewrite (exact_circle k _ _ _ None None (1 / 3) 0).
  - rewrite (exact_circle k _ _ _ None None 0 (PI / 2 - 0)).
    pose proof (radial_transposed exact_overlap k count9 None None (Fin 1) (Fin 0) (Fin 1) (Fin 0) [Fin (1 / 2)] exact_transposes) as H.
    cbn [option_map] in H. rewrite E in H. exact H.
  - rewrite <- E. pose proof (exact_window 0 1 1 1 k count9 1 0 [1 / 2] None None 1 0) as H. cbn [map option_map INR] in H. rewrite <- H.
    + do 2 f_equal; f_equal; cbn; lra.
    + cbn; lia.
    + cbn; lia.
    + exact I.
    + exact I.
    + lra.
    + intros r [<-|[]]. lra.
    + cbn. lra.
    + cbn. lra.
    + intros r j i u v [<-|[]] Hj Hi Hu Hv Hin _. replace (1 / 2 / 1) with (1 / 2) in Hin by field. apply circle_box in Hin; [|lra].
      assert (J : (j < 1)%nat) by (apply INR_lt; cbn; lra). assert (I1 : (i < 2)%nat) by (apply INR_lt; cbn; lra).
      assert (I2 : (0 < i)%nat) by (apply INR_lt; cbn; lra). lia.
Qed.

(** 2 x 2 subpixels: the quarter points of a pixel, all in a circle of radius 1/2 on its middle *)
Lemma C111_ex : points_inside 1 1 (1 / 2) (1 / 2) 0 2 1 1 4 /\ points_inside 1 1 (1 / 3) (1 / 3) 0 2 1 1 0.
Proof.
  assert (Q : forall r p q, 0 < r -> (p < 2)%nat -> (q < 2)%nat -> (inside_ellipse 1 1 r r 0 (INR 1 - 1 / 2 + (INR q + 1 / 2) / INR 2) (INR 1 - 1 / 2 + (INR p + 1 / 2) / INR 2) <-> 1 / 8 < r * r)).
  { intros r p q Hr Hp Hq. rewrite disc by auto. destruct p as [|[|p]], q as [|[|q]]; try lia; cbn; split; lra. }
  split.
  - exists (pixels 2 2). split; [apply NoDup_pixels|]. split; [reflexivity|]. intros p q. rewrite in_pixels. split.
    + intros [Hp Hq]. split; auto. split; auto. apply Q; auto; lra.
    + tauto.
  - exists []. split; [constructor|]. split; [reflexivity|]. intros p q. split; [intros []|]. intros (Hp & Hq & H). apply Q in H; auto; lra.
Qed.
