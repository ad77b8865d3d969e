(** Property theorems: disturbed measurements (C100-C101). *)
From Verif Require Import Base Num Numpy M_Utils M_Petrosian M_Interp S_Petrosian S_Conv S_Robust.
From Verif Require L_Robust2 L_Robust3 E_Robust.
Local Open Scope R_scope.

(** C100: a constant left in the background raises the Petrosian profile at every radius and never shrinks
    the Petrosian radius. *)
Theorem C100_profile : forall b rs A L, 0 <= b -> declining rs A L ->
  exists P P', calculate_petrosian DFloat (map Fin A) (map Fin L) None None = Ok (P, None) /\
    calculate_petrosian DFloat (map Fin A) (map Fin (with_sky b A L)) None None = Ok (P', None) /\
    forall i, (1 <= i < length rs)%nat -> exists p,
      nth_error P i = Some (Fin p) /\ nth_error P' i = Some (Fin (sky_ratio b A L i)) /\ p <= sky_ratio b A L i.
Proof. exact L_Robust2.sky_profile. Qed.
Print Assumptions C100_profile.

Theorem C100_radius : forall mk rs A L b eta s, 0 <= b -> declining rs A L -> s_eta s = Fin eta ->
  (forall k, s_kind s = Some k -> straight (mk k)) ->
  (forall i, (1 <= i)%nat -> (S i < length rs)%nat -> sky_ratio b A L (S i) < sky_ratio b A L i) ->
  sky_ratio b A L 1 < 1 ->
  exists o o' v v', Petrosian_new (plain rs A L) s = Ok o /\ Petrosian_new (plain rs A (with_sky b A L)) s = Ok o' /\
    read mk o A_r_petrosian = Ok (VNum v) /\ read mk o' A_r_petrosian = Ok (VNum v') /\
    forall a', v' = Fin a' -> exists a, v = Fin a /\ a <= a'.
Proof. exact L_Robust3.sky_radius_read. Qed.
Print Assumptions C100_radius.

Example C100_example : declining E_Robust.rsR E_Robust.AR E_Robust.LR /\ 0 <= E_Robust.bR /\ (forall k, straight (mk_linear k)) /\
  (forall i, (1 <= i)%nat -> (S i < length E_Robust.rsR)%nat ->
     sky_ratio E_Robust.bR E_Robust.AR E_Robust.LR (S i) < sky_ratio E_Robust.bR E_Robust.AR E_Robust.LR i) /\
  sky_ratio E_Robust.bR E_Robust.AR E_Robust.LR 1 < 1 /\
  exists o o', Petrosian_new (plain E_Robust.rsR E_Robust.AR E_Robust.LR) E_Robust.setR = Ok o /\
    Petrosian_new (plain E_Robust.rsR E_Robust.AR (with_sky E_Robust.bR E_Robust.AR E_Robust.LR)) E_Robust.setR = Ok o' /\
    read mk_linear o A_r_petrosian = Ok (VNum (Fin 3)) /\ read mk_linear o' A_r_petrosian = Ok (VNum (Fin 4)).
Proof. exact E_Robust.C100_ex. Qed.

(** C101: nor, beyond one step of the search grid, the radii of the curve of growth. *)
Theorem C101_fraction : forall mk rs A L b eta ep ef f s k, 0 <= b -> declining rs A L -> increasing L ->
  s_eta s = Fin eta -> s_epsilon s = Fin ep -> s_epsilon_fraction s = Fin ef -> s_kind s = Some k ->
  straight (mk k) -> (2 <= s_num s)%nat -> 0 < ep -> 0 < f <= ef ->
  (forall i, (1 <= i)%nat -> (S i < length rs)%nat -> sky_ratio b A L (S i) < sky_ratio b A L i) ->
  sky_ratio b A L 1 < 1 ->
  exists o o', Petrosian_new (plain rs A L) s = Ok o /\ Petrosian_new (plain rs A (with_sky b A L)) s = Ok o' /\
    forall a' w' x, read mk o' A_r_petrosian = Ok (VNum (Fin a')) -> radius_of s f x -> read mk o' x = Ok (VNum (Fin w')) ->
    exists a, read mk o A_r_petrosian = Ok (VNum (Fin a)) /\ a <= a' /\
      (at_ rs 0 <= a * ep -> exists w, read mk o x = Ok (VNum (Fin w)) /\
         w <= w' + (last_of rs - at_ rs 0) / INR (s_num s - 1)).
Proof. exact L_Robust3.sky_fraction. Qed.
Print Assumptions C101_fraction.

Example C101_example : exists o', Petrosian_new (plain E_Robust.rsR E_Robust.AR (with_sky E_Robust.bR E_Robust.AR E_Robust.LR)) E_Robust.setR = Ok o' /\
  increasing E_Robust.LR /\
  radius_of E_Robust.setR (1 / 2) A_r_half_light /\ radius_of E_Robust.setR (99 / 100) A_r_total_flux /\
  read mk_linear o' A_r_petrosian = Ok (VNum (Fin 4)) /\ at_ E_Robust.rsR 0 <= 3 * 1 /\
  (exists w, read mk_linear o' A_r_half_light = Ok (VNum (Fin w))) /\
  exists w, read mk_linear o' A_r_total_flux = Ok (VNum (Fin w)).
Proof. exact E_Robust.C101_ex. Qed.
