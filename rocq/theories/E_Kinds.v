(** Concrete cases for the resolution of measured radii, the kinds of interpolation and uniform brightness. *)
From Verif Require Import Base Num Numpy M_Utils M_Petrosian M_Interp M_Cubic M_Kinds S_PetObj S_Zoom S_Utils S_Petrosian S_PetroR S_FracErr S_Conv S_Robust S_Noise S_Cubic S_Resolution S_Kinds
  L_Numpy L_Petrosian L_PetroR L_FracErr L_Conv2 E_Petrosian E_Zoom L_Resolution L_Kinds L_Kinds2 L_Kinds3.
Local Open Scope R_scope.

Lemma inc123 : increasing [1; 2; 3].
Proof. intros i Hi. cbn in Hi. destruct i as [|[|i]]; unfold at_; cbn [nth]; try lra. lia. Qed.
Lemma inc0123 : increasing [0; 1; 2; 3].
Proof. intros i Hi. cbn in Hi. destruct i as [|[|[|i]]]; unfold at_; cbn [nth]; try lra. lia. Qed.
Lemma inc149 : increasing [1; 4; 9].
Proof. intros i Hi. cbn in Hi. destruct i as [|[|i]]; unfold at_; cbn [nth]; try lra. lia. Qed.

(** ** C140 *)
Definition fall (t : R) : R := 1 - t / 4.
Definition grow (t : R) : R := 2 * t - 1.
Lemma line_at xs ys f a c : increasing xs -> length xs = length ys -> (2 <= length xs)%nat ->
  mk_linear KLinear (map Fin xs) (map Fin ys) = Ok f -> (forall i, (i < length xs)%nat -> at_ ys i = a + c * at_ xs i) ->
  forall t, at_ xs 0 <= t <= last_of xs -> f (Fin t) = Fin (a + c * t).
Proof.
  intros I Ln L2 E Y t Ht. unfold mk_linear in E. destruct (Nat.eqb _ _); [|discriminate]. injection E as <-.
  destruct (find_step xs t L2 Ht) as (i & Hi & Hti). destruct (linear_chord xs ys i t I Ln Hi Hti) as (y & -> & C). f_equal.
  rewrite !Y in C by lia. pose proof (I i Hi). apply Rmult_eq_reg_r with (at_ xs (S i) - at_ xs i); [|lra]. nra.
Qed.

Lemma C140_ex1 : exists f, mk_linear KLinear (map Fin [0; 1; 2; 3]) (Fin 1 :: map Fin [3 / 4; 1 / 2; 1 / 4]) = Ok f /\
  (forall t, 0 <= t <= last_of [1; 2; 3] -> f (Fin t) = Fin (fall t)) /\ falls_to (spacing 0 (last_of [1; 2; 3]) (Nat.max 10 4)) fall 0 (last_of [1; 2; 3]) (2 / 5) (12 / 5) /\
  spacing 0 (last_of [1; 2; 3]) (Nat.max 10 4) = 1 / 3.
Proof.
  eexists. split; [reflexivity|]. split; [|split].
  - intros t Ht. unfold last_of, at_ in Ht. cbn in Ht. rewrite (line_at [0; 1; 2; 3] [1; 3 / 4; 1 / 2; 1 / 4] (linear_at (map Fin [0; 1; 2; 3]) (map Fin [1; 3 / 4; 1 / 2; 1 / 4])) 1 (- / 4) inc0123); auto.
    + f_equal. unfold fall. lra.
    + cbn; lia.
    + intros i Hi. cbn in Hi. destruct i as [|[|[|[|i]]]]; unfold at_; cbn [nth]; try lra. lia.
  - unfold falls_to, fall, last_of, at_. cbn [length nth Nat.sub]. split; [lra|]. split; [lra|]. split; intros; lra.
  - unfold spacing, last_of, at_. cbn [length nth Nat.sub Nat.max INR]. lra.
Qed.
Lemma C140_ex2 : exists f, mk_linear KLinear (map Fin [1; 2; 3]) (map Fin [1; 3; 5]) = Ok f /\
  (forall t, at_ [1; 2; 3] 0 <= t <= last_of [1; 2; 3] -> f (Fin t) = Fin (grow t)) /\
  rises_to (spacing (at_ [1; 2; 3] 0) (last_of [1; 2; 3]) (Nat.max 10 3)) grow (at_ [1; 2; 3] 0) (last_of [1; 2; 3]) (grow (3 / 2 * 2) * (1 / 2 / 1)) (7 / 4).
Proof.
  eexists. split; [reflexivity|]. split.
  - intros t Ht. rewrite (line_at [1; 2; 3] [1; 3; 5] (linear_at (map Fin [1; 2; 3]) (map Fin [1; 3; 5])) (- 1) 2 inc123); auto.
    + f_equal. unfold grow. lra.
    + cbn; lia.
    + intros i Hi. cbn in Hi. destruct i as [|[|[|i]]]; unfold at_; cbn [nth]; try lra. lia.
  - unfold rises_to, falls_to, grow, last_of, at_. cbn [length nth Nat.sub]. split; [lra|]. split; [lra|]. split; intros; lra.
Qed.
Lemma C140_ex3 : calculate_petrosian_r mk_linear (NaN :: map Fin [1; 2; 3]) (NaN :: map Fin [9 / 10; 1 / 2; 1 / 10]) None (Fin (1 / 5)) None 5 = Ok (Fin 3, NaN) /\
  calculate_petrosian_r mk_linear (NaN :: map Fin [1; 2; 3]) (NaN :: map Fin [9 / 10; 1 / 2; 1 / 10]) None (Fin (3 / 10)) None 5 = Ok (Fin 2, NaN).
Proof.
  split.
  - rewrite (petrosian_samples mk_linear NaN [1; 2; 3] NaN [9 / 10; 1 / 2; 1 / 10] (1 / 5) 5 1); unfold at_; cbn [nth]; try lra; auto.
    + destruct Rle_dec; [lra|reflexivity].
    + intros i Hi. destruct i as [|i]; [cbn; lra|lia].
  - rewrite (petrosian_samples mk_linear NaN [1; 2; 3] NaN [9 / 10; 1 / 2; 1 / 10] (3 / 10) 5 1); unfold at_; cbn [nth]; try lra; auto.
    + destruct Rle_dec; [reflexivity|lra].
    + intros i Hi. destruct i as [|i]; [cbn; lra|lia].
Qed.

(** ** C141 *)
Definition lin (k : kind) : list xr -> list xr -> result (xr -> xr) := mk_linear k.
Lemma C141_ex : increasing [1; 2; 3] /\ scale_equivariant mk_linear /\ stretch_equivariant mk_linear /\
  exists f1 f2 f3 f4, mk_scipy mk_linear KNearest (map Fin [1; 2; 3]) (map Fin [5; 7; 6]) = Ok f1 /\ f1 (Fin (3 / 2)) = Fin 5 /\
    mk_scipy mk_linear KNearestUp (map Fin [1; 2; 3]) (map Fin [5; 7; 6]) = Ok f2 /\ f2 (Fin (3 / 2)) = Fin 7 /\
    mk_scipy mk_linear KPrevious (map Fin [1; 2; 3]) (map Fin [5; 7; 6]) = Ok f3 /\ f3 (Fin (8 / 3)) = Fin 7 /\
    mk_scipy mk_linear KNext (map Fin [1; 2; 3]) (map Fin [5; 7; 6]) = Ok f4 /\ f4 (Fin (8 / 3)) = Fin 6.
Proof.
  split; [exact inc123|]. split; [exact mk_linear_equivariant|]. split; [exact mk_linear_stretch|].
  do 4 eexists. split; [reflexivity|]. split; [|split; [reflexivity|split; [|split; [reflexivity|split; [|split; [reflexivity|]]]]]].
  - rewrite (step_fin nearest_ix [1; 2; 3] [5; 7; 6] (3 / 2) 0); [reflexivity| |cbn; lia].
    rewrite (nearest_at _ inc123 0 (3 / 2)); unfold at_; cbn [nth length]; [destruct Rlt_dec; [lra|auto]|lia|lra].
  - rewrite (step_fin nearest_up_ix [1; 2; 3] [5; 7; 6] (3 / 2) 1); [reflexivity| |cbn; lia].
    rewrite (nearest_up_at _ inc123 0 (3 / 2)); unfold at_; cbn [nth length]; [destruct Rle_dec; [auto|lra]|lia|lra].
  - rewrite (step_fin previous_ix [1; 2; 3] [5; 7; 6] (8 / 3) 1); [reflexivity| |cbn; lia].
    rewrite (previous_at _ inc123 1 (8 / 3)); unfold at_; cbn [nth length]; [destruct Rlt_dec; [auto|lra]|lia|lra].
  - rewrite (step_fin next_ix [1; 2; 3] [5; 7; 6] (8 / 3) 2); [reflexivity| |cbn; lia].
    rewrite (next_at _ inc123 1 (8 / 3)); unfold at_; cbn [nth length]; [destruct Rlt_dec; [auto|lra]|lia|lra].
Qed.

(** ** C142, C143: a uniform disc, with "nearest" and with "linear" *)
Definition setU (k : kind) : psettings xr := mkset (Fin (1 / 5)) (Fin 2) (Fin (99 / 100)) (Fin (99 / 100)) (Some k) 3.
Lemma C143_ex : exists o o', Petrosian_new (plain [1; 2; 3] [1; 4; 9] (map (Rmult 1) [1; 4; 9])) (setU KNearest) = Ok o /\
  read (mk_scipy mk_linear) o A_r_petrosian = Ok (VNum NaN) /\ read (mk_scipy mk_linear) o A_r_half_light = Ok (VNum (Fin 2)) /\
  Petrosian_new (plain [1; 2; 3] [1; 4; 9] (map (Rmult 1) [1; 4; 9])) (setU KLinear) = Ok o' /\
  read (mk_scipy mk_linear) o' A_r_petrosian = Ok (VNum NaN) /\ read (mk_scipy mk_linear) o' A_r_half_light = Ok (VNum NaN).
Proof.
  assert (A1 : (2 < length [1; 2; 3])%nat) by (cbn; lia). assert (A2 : length [1; 4; 9] = length [1; 2; 3]) by reflexivity.
  assert (A3 : 0 < at_ [1; 2; 3] 0) by (unfold at_; cbn; lra). assert (A4 : 0 < at_ [1; 4; 9] 0) by (unfold at_; cbn; lra).
  destruct (uniform_blind mk_linear [1; 2; 3] [1; 4; 9] 1 (1 / 5) 2 (99 / 100) (setU KNearest) KNearest A1 A2 inc123 A3 inc149 A4
    ltac:(lra) eq_refl ltac:(lra) eq_refl eq_refl ltac:(lra) eq_refl ltac:(unfold blind_to_nan; tauto) ltac:(lra)) as (o & Eo & Rp & Hf).
  destruct (uniform_seen mk_linear [1; 2; 3] [1; 4; 9] 1 (1 / 5) 2 (99 / 100) (setU KLinear) KLinear A1 A2 inc123 A3 inc149 A4
    ltac:(lra) eq_refl ltac:(lra) eq_refl eq_refl ltac:(lra) eq_refl ltac:(unfold sees_nan; tauto) ltac:(left; unfold uncurved; tauto)) as (o' & Eo' & Rp' & Hf' & _).
  exists o, o'. split; [exact Eo|]. split; [exact Rp|]. split; [|split; [exact Eo'|split; [exact Rp'|apply (Hf' (1 / 2)); right; left; auto]]].
  destruct (Hf (1 / 2)) as (g & q & v & Rs & Fr & Nv & Rd). rewrite (Rd A_r_half_light) by (right; left; auto).
  destruct Rs as (f & lo & hi & Ef & Hlo & Hhi & [Lg Hg] & Eq).
  assert (lo = 1) as ->. { apply Rle_antisym; [apply (proj2 Hlo); now left|]. destruct Hlo as [[<-|[<-|[<-|[]]]] _]; lra. }
  assert (hi = 3) as ->. { apply Rle_antisym; [destruct Hhi as [[<-|[<-|[<-|[]]]] _]; lra|apply (proj2 Hhi); cbn; auto]. }
  cbn [Nat.max s_num setU length] in Lg, Hg.
  assert (G : g = [1; 2; 3]).
  { destruct g as [|g0 [|g1 [|g2 [|]]]]; try discriminate.
    pose proof (Hg 0%nat ltac:(lia)) as G0. pose proof (Hg 1%nat ltac:(lia)) as G1. pose proof (Hg 2%nat ltac:(lia)) as G2.
    unfold at_ in *. cbn [nth Nat.sub INR] in *. f_equal; [lra|]. f_equal; [lra|]. f_equal. lra. }
  subst g. cbn [map] in Ef.
  assert (Q : q = map Fin [1; 4; 9]).
  { subst q. unfold mk_scipy in Ef. cbn [length Nat.eqb map] in Ef. injection Ef as <-. cbn [map].
    change (Fin 1 :: [Fin 2; Fin 3]) with (map Fin [1; 2; 3]). change (Fin (1 * 1) :: [Fin (1 * 4); Fin (1 * 9)]) with (map Fin [1 * 1; 1 * 4; 1 * 9]).
    rewrite (step_fin nearest_ix [1; 2; 3] [1 * 1; 1 * 4; 1 * 9] 1 0); [| |cbn; lia].
    2:{ rewrite (nearest_at _ inc123 0 1); unfold at_; cbn [nth length]; [destruct Rlt_dec; [lra|auto]|lia|lra]. }
    rewrite (step_fin nearest_ix [1; 2; 3] [1 * 1; 1 * 4; 1 * 9] 2 1); [| |cbn; lia].
    2:{ rewrite (nearest_at _ inc123 0 2); unfold at_; cbn [nth length]; [destruct Rlt_dec; [auto|lra]|lia|lra]. }
    rewrite (step_fin nearest_ix [1; 2; 3] [1 * 1; 1 * 4; 1 * 9] 3 2); [| |cbn; lia].
    2:{ rewrite (nearest_at _ inc123 1 3); unfold at_; cbn [nth length]; [destruct Rlt_dec; [auto|lra]|lia|lra]. }
    unfold at_. cbn [nth]. rewrite !Rmult_1_l. reflexivity. }
  subst q. destruct Fr as [[_ Fv]|[_ (i & a & -> & Ha & Hc)]].
  { exfalso. apply Nv; auto; lra. }
  destruct Hc as (c & x & Hc & Hic & Hx & Mn & _). { rewrite Q. repeat constructor; discriminate. }
  rewrite Q in *. unfold last_of, at_ in Mn, Hc. cbn [nth length Nat.sub] in Mn, Hc.
  assert (C2 : c = 2%nat).
  { destruct Hc as [(z & Hz & Hzc) _]. unfold crossed in Hzc. destruct c as [|[|[|c]]]; cbn in Hz; auto.
    - injection Hz as <-. apply xle_fin in Hzc. lra.
    - injection Hz as <-. apply xle_fin in Hzc. lra.
    - destruct c; discriminate. }
  subst c. pose proof (Mn 1%nat (Fin 4) ltac:(lia) eq_refl) as M1. unfold dist in M1.
  destruct i as [|[|[|i]]]; [| | |lia]; cbn in Hx, Ha; injection Hx as <-; injection Ha as <-; try reflexivity; exfalso;
    cbn in M1; apply xle_fin in M1; unfold Rabs in M1; repeat destruct Rcase_abs; lra.
Qed.
Lemma C142_ex : blind_to_nan KNearest /\ sees_nan KLinear /\ increasing [1; 2; 3] /\ 3 / 2 * 2 = last_of [1; 2; 3].
Proof. split; [now left|]. split; [now left|]. split; [exact inc123|]. unfold last_of, at_. cbn. lra. Qed.
