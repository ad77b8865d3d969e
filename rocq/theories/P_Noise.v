(** Property theorems: small errors in the fluxes (C103). *)
From Verif Require Import Base Num Numpy M_Utils M_Petrosian M_Interp S_Petrosian S_PetroR S_Conv S_Robust S_Noise.
From Verif Require L_Noise L_Noise2 E_Robust E_Noise.
Local Open Scope R_scope.

(** C103: errors of the fluxes up to d move the Petrosian profile by a bounded amount at every radius; *)
Theorem C103_profile : forall d A L L', (2 < length A)%nat -> length L = length A -> increasing A -> 0 < at_ A 0 ->
  (forall i, (1 <= i < length A)%nat -> Rabs (at_ L (i - 1)) <= at_ L i /\ d < at_ L i) -> near d L L' ->
  exists P P', calculate_petrosian DFloat (map Fin A) (map Fin L) None None = Ok (P, None) /\
    calculate_petrosian DFloat (map Fin A) (map Fin L') None None = Ok (P', None) /\
    forall i, (1 <= i < length A)%nat -> exists p p', nth_error P i = Some (Fin p) /\ nth_error P' i = Some (Fin p') /\
      Rabs (p' - p) <= at_ A i / (at_ A i - at_ A (i - 1)) * (2 * d / (at_ L i - d)).
Proof. exact L_Noise.noise_profile. Qed.
Print Assumptions C103_profile.

(** small enough errors leave the measured Petrosian radius exactly the same; *)
Theorem C103_radius : forall mk rs A L eta s, (2 < length rs)%nat -> length A = length rs -> length L = length rs ->
  increasing rs -> 0 < at_ rs 0 -> increasing A -> 0 < at_ A 0 -> nonzero_tail L -> s_eta s = Fin eta ->
  (forall k, s_kind s = Some k -> steady (mk k) (0 :: tl rs)) ->
  forall g y i, resampled mk (s_kind s) (s_num s) (0 :: tl rs) (map Fin (eta_profile A L)) g (map Fin y) ->
  clear_cut false eta y i ->
  exists d, 0 < d /\ forall L', near d L L' -> exists o,
    Petrosian_new (plain rs A L') s = Ok o /\ read mk o A_r_petrosian = Ok (VNum (Fin (at_ g i))).
Proof. exact L_Noise2.noise_radius. Qed.
Print Assumptions C103_radius.

(** nor do they move any radius read off the curve of growth. *)
Theorem C103_fraction : forall mk rs A L eta s, (2 < length rs)%nat -> length A = length rs -> length L = length rs ->
  increasing rs -> 0 < at_ rs 0 -> increasing A -> 0 < at_ A 0 -> nonzero_tail L -> s_eta s = Fin eta ->
  (forall k, s_kind s = Some k -> steady (mk k) (0 :: tl rs)) ->
  forall ep ef fr k g y i g2 z j f F,
  s_epsilon s = Fin ep -> s_epsilon_fraction s = Fin ef -> ef <> 0 -> s_kind s = Some k -> steady (mk k) rs ->
  resampled mk (s_kind s) (s_num s) (0 :: tl rs) (map Fin (eta_profile A L)) g (map Fin y) -> clear_cut false eta y i ->
  at_ rs 0 <= at_ g i * ep <= last_of rs -> mk k (map Fin rs) (map Fin L) = Ok f -> f (Fin (at_ g i * ep)) = Fin F ->
  resampled mk (s_kind s) (s_num s) rs (map Fin L) g2 (map Fin z) -> clear_cut true (F * (fr / ef)) z j ->
  exists d, 0 < d /\ forall L', near d L L' -> exists o,
    Petrosian_new (plain rs A L') s = Ok o /\
    forall x, radius_of s fr x -> read mk o x = Ok (VNum (Fin (at_ g2 j))).
Proof. exact L_Noise2.noise_fraction. Qed.
Print Assumptions C103_fraction.

Example C103_example : declining E_Robust.rsR E_Robust.AR E_Robust.LR /\ nonzero_tail E_Robust.LR /\
  steady (mk_linear KLinear) (0 :: tl E_Robust.rsR) /\ steady (mk_linear KLinear) E_Robust.rsR /\
  resampled mk_linear (s_kind E_Robust.setR) (s_num E_Robust.setR) (0 :: tl E_Robust.rsR)
    (map Fin (eta_profile E_Robust.AR E_Robust.LR)) E_Noise.gN (map Fin E_Noise.yN) /\
  clear_cut false (4 / 25) E_Noise.yN 3 /\ at_ E_Noise.gN 3 = 3 /\
  resampled mk_linear (s_kind E_Robust.setR) (s_num E_Robust.setR) E_Robust.rsR (map Fin E_Robust.LR) E_Noise.g2N (map Fin E_Noise.zN) /\
  (exists f, mk_linear KLinear (map Fin E_Robust.rsR) (map Fin E_Robust.LR) = Ok f /\ f (Fin (3 * 1)) = Fin 21) /\
  clear_cut true (21 * ((1 / 2) / (99 / 100))) E_Noise.zN 0 /\ at_ E_Noise.g2N 0 = 1 /\
  exists d, 0 < d /\ forall L', near d E_Robust.LR L' -> exists o, Petrosian_new (plain E_Robust.rsR E_Robust.AR L') E_Robust.setR = Ok o /\
    read mk_linear o A_r_petrosian = Ok (VNum (Fin 3)) /\ read mk_linear o A_r_half_light = Ok (VNum (Fin 1)).
Proof. exact E_Noise.C103_ex. Qed.
