(** C128: different ways of asking a Petrosian object for the same quantity agree. *)
From Verif Require Import Base Num Numpy M_Utils M_Petrosian M_Interp L_Numpy S_Utils S_Petrosian S_PetroR S_Robust.
From Verif Require L_Same E_Same E_Robust.

Theorem C128_aliases : forall (T : Type) (N : Num T) (G : NumLog T)
    (mk : kind -> list T -> list T -> result (T -> T)) o t,
  read mk o A_total_flux_fraction = Ok (VNum t) ->
  read mk o A_r_50 = read mk o A_r_half_light /\ read mk o A_r_50_err = read mk o A_r_half_light_err /\
  read mk o A_r_half_light = read mk o (A_fraction_to_r (nlit 1 2)) /\
  read mk o A_r_half_light_err = read mk o (A_fraction_to_r_err (nlit 1 2)) /\
  read mk o A_r_total_flux = read mk o (A_fraction_to_r t) /\
  read mk o A_r_total_flux_err = read mk o (A_fraction_to_r_err t).
Proof. exact @L_Same.aliases. Qed.
Print Assumptions C128_aliases.

Theorem C128_concentration : forall (mk : kind -> list xr -> list xr -> result (xr -> xr)) o f1 f2 a b,
  read mk o (A_fraction_to_r f1) = Ok (VNum a) -> read mk o (A_fraction_to_r f2) = Ok (VNum b) ->
  (a = NaN \/ b = NaN -> read mk o (A_concentration f1 f2) = Ok (VTriple NaN NaN NaN)) /\
  (forall x y, a = Fin x -> b = Fin y -> (0 < x)%R -> (0 < y)%R ->
     read mk o (A_concentration f1 f2) = Ok (VTriple a b (Fin (5 * (ln (y / x) / ln 10))))).
Proof. exact L_Same.concentration. Qed.
Print Assumptions C128_concentration.

Theorem C128_indices : forall (mk : kind -> list xr -> list xr -> result (xr -> xr)) o x y z x' y' z',
  read mk o (A_concentration (nlit 1 5) (nlit 4 5)) = Ok (VTriple x y z) ->
  read mk o (A_concentration (nlit 1 2) (nlit 9 10)) = Ok (VTriple x' y' z') ->
  read mk o A_c2080 = Ok (VNum z) /\ read mk o A_c5090 = Ok (VNum z').
Proof. exact L_Same.indices. Qed.
Print Assumptions C128_indices.

Theorem C128_fluxes : forall (mk : kind -> list xr -> list xr -> result (xr -> xr)) o r k f ef tf,
  2 <= length r -> d_r (p_data o) = map Fin r -> s_kind (p_set o) = Some k ->
  mk k (map Fin r) (d_flux (p_data o)) = Ok f ->
  (forall p lo hi, read mk o A_r_petrosian = Ok (VNum p) -> is_min r lo -> is_max r hi ->
     exists x, p = Fin x /\ exists eps, s_epsilon (p_set o) = Fin eps /\ (lo <= x * eps)%R) ->
  s_epsilon_fraction (p_set o) = Fin ef -> s_total_flux_fraction (p_set o) = Fin tf ->
  (forall a, read mk o A_r_total_flux = Ok (VNum (Fin a)) -> read mk o A_total_flux = Ok (VNum (f (Fin a)))) /\
  (forall a, read mk o A_r_half_light = Ok (VNum (Fin a)) -> read mk o A_half_flux = Ok (VNum (f (Fin a)))) /\
  (read mk o A_r_total_flux = Ok (VNum NaN) -> read mk o A_total_flux = Ok (VNum NaN)) /\
  (read mk o A_r_half_light = Ok (VNum NaN) -> read mk o A_half_flux = Ok (VNum NaN)).
Proof. exact L_Same.fluxes. Qed.
Print Assumptions C128_fluxes.

(** with total_flux_fraction = epsilon_fraction the total-flux radius is r_epsilon, up to the sampling step *)
Theorem C128_total_is_epsilon : forall (mk : kind -> list xr -> list xr -> result (xr -> xr)) o r k f (F : R -> R) p eps t lo hi v,
  2 <= length r -> d_r (p_data o) = map Fin r -> s_kind (p_set o) = Some k ->
  is_min r lo -> is_max r hi ->
  mk k (map Fin r) (d_flux (p_data o)) = Ok f ->
  (forall x, (lo <= x <= hi)%R -> f (Fin x) = Fin (F x)) ->
  (forall x y, (lo <= x < y)%R -> (y <= hi)%R -> (F x < F y)%R) ->
  read mk o A_r_petrosian = Ok (VNum (Fin p)) -> s_epsilon (p_set o) = Fin eps ->
  (lo <= p * eps <= hi)%R -> t <> 0%R ->
  s_total_flux_fraction (p_set o) = Fin t -> s_epsilon_fraction (p_set o) = Fin t ->
  read mk o A_r_total_flux = Ok (VNum v) ->
  exists a, v = Fin a /\
    (Rabs (a - p * eps) <= (hi - lo) / INR (Nat.max (s_num (p_set o)) (length r) - 1))%R.
Proof. exact L_Same.total_is_epsilon. Qed.
Print Assumptions C128_total_is_epsilon.

(** r_epsilon = 3 and r_total_flux = 13/4, found in steps of 3/4 *)
Example C128_example : exists o, Petrosian_new (plain E_Robust.rsR E_Robust.AR E_Robust.LR) E_Robust.setR = Ok o /\
  s_total_flux_fraction (p_set o) = Fin (99 / 100) /\ s_epsilon_fraction (p_set o) = Fin (99 / 100) /\
  read mk_linear o A_r_petrosian = Ok (VNum (Fin 3)) /\ s_epsilon (p_set o) = Fin 1 /\
  read mk_linear o A_r_total_flux = Ok (VNum (Fin (13 / 4))) /\
  read mk_linear o A_total_flux = Ok (VNum (Fin (847 / 40))) /\
  read mk_linear o A_r_50 = Ok (VNum (Fin 1)) /\ read mk_linear o A_half_flux = Ok (VNum (Fin 10)) /\
  (forall x, (1 <= x <= 4)%R -> linear_at (map Fin E_Robust.rsR) (map Fin E_Robust.LR) (Fin x) = Fin (E_Same.FR x)) /\
  (forall x y, (1 <= x < y)%R -> (y <= 4)%R -> (E_Same.FR x < E_Same.FR y)%R).
Proof. exact E_Same.same_example. Qed.
