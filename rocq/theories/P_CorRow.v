(** Property theorems for the rows of the correction grid: C78. *)
From Coq Require Import String.
From Verif Require Import Base Num Numpy M_Utils M_Petrosian S_Petrosian M_Correction S_Correction S_CorRow.
From Verif Require L_CorRow E_CorEx.
Local Open Scope list_scope.

(** C78. *)
Theorem C78_row_contents : forall (mk : kind -> list xr -> list xr -> result (xr -> xr)) sersic_total sersic_radius simulate r_eff n row,
  generate_row mk sersic_total sersic_radius simulate r_eff n = Ok row ->
  exists radii size x0 flux area p rp f rt r80 q,
    simulate r_eff n radii size x0 = Ok (flux, area) /\
    (* the input model *)
    (let total := nmul (sersic_total r_eff n) (Fin (99/100)) in
     entry row "n" n /\ entry row "r_eff" r_eff /\ entry row "sersic_L_inf" (sersic_total r_eff n) /\
     entry row "sersic_r_20" (sersic_radius r_eff n (nmul total (Fin (1/5)))) /\
     entry row "sersic_r_80" (sersic_radius r_eff n (nmul total (Fin (4/5)))) /\
     entry row "sersic_r_99" (sersic_radius r_eff n total) /\
     f total = Ok rt /\ f (nmul total (Fin (4/5))) = Ok r80) /\
    (* Petrosian radii of the image *)
    (pet radii area flux (Fin (1/5)) (Fin 2) = Ok p /\ obj_r_petrosian mk p = Ok rp) /\
    (forall eta name, eta_col eta name -> exists o x,
       pet radii area flux eta (Fin 2) = Ok o /\ obj_r_petrosian mk o = Ok x /\ entry row name x) /\
    (forall eta name x, (eta = Fin (1/2) /\ name = "p0502"%string) \/ (eta = Fin (3/10) /\ name = "p0302"%string) ->
       forall o, pet radii area flux eta (Fin 2) = Ok o -> obj_r_petrosian mk o = Ok x ->
       entry row name (nmul (Fin 5) (nlog10 (ndiv rp x)))) /\
    (* with epsilon = 2 *)
    (entry row "u_epsilon" (Fin 2) /\
     (exists x, has_fraction mk p (Fin (1/2)) x /\ entry row "u_r_50" x /\ entry row "u_epsilon_50" (ndiv x rp)) /\
     (exists x, has_fraction mk p (Fin (4/5)) x /\ entry row "u_r_80" x /\ entry row "u_epsilon_80" (ndiv x rp)) /\
     (exists x, has_fraction mk p (Fin (1/5)) x /\ entry row "u_r_20" x) /\
     (exists x, has_fraction mk p (Fin (99/100)) x /\ entry row "u_r_99" x) /\
     (exists x, has_concentration mk p (Fin (1/5)) (Fin (4/5)) x /\ entry row "u_c2080" x) /\
     (exists x, has_concentration mk p (Fin (1/2)) (Fin (9/10)) x /\ entry row "u_c5090" x)) /\
    (* the corrected epsilon *)
    (forall L, flux = map Fin L -> exists X J, distinct_of L X J /\
       interp1d mk (Some KLinear) (map Fin X) (map (fun j => nth j (map nofZ radii) NaN) J) = Ok f) /\
    entry row "c_epsilon" (ndiv rt rp) /\ entry row "c_epsilon_80" (ndiv r80 rp) /\
    pet radii area flux (Fin (1/5)) (ndiv rt rp) = Ok q /\
    (* with the corrected epsilon *)
    (exists x, has_fraction mk q (Fin (1/2)) x /\ entry row "c_r_50" x /\ entry row "c_epsilon_50" (ndiv x rp)) /\
    (exists x, has_fraction mk q (Fin (4/5)) x /\ entry row "c_r_80" x) /\
    (exists x, has_fraction mk q (Fin (1/5)) x /\ entry row "c_r_20" x) /\
    (exists x, has_fraction mk q (Fin (99/100)) x /\ entry row "c_r_99" x) /\
    (exists x, has_concentration mk q (Fin (1/5)) (Fin (4/5)) x /\ entry row "c_c2080" x) /\
    (exists x, has_concentration mk q (Fin (1/2)) (Fin (9/10)) x /\ entry row "c_c5090" x).
Proof. exact L_CorRow.row_contents. Qed.
Print Assumptions C78_row_contents.

Theorem C78_unique : forall L, exists X J, unique_index (map Fin L) = combine (map Fin X) J /\ distinct_of L X J.
Proof. exact L_CorRow.unique_ok. Qed.
Print Assumptions C78_unique.

Example C78_example : exists row a, (2 <= a)%R /\
  generate_row E_CorEx.mk_ex (fun _ _ => Fin 5) (fun _ _ _ => Fin 4) E_CorEx.sim_ex (Fin 8) (Fin 3) = Ok row /\
  entry row "p02" (Fin a) /\ entry row "c_epsilon" (Fin (3 / a)) /\ entry row "c_c2080" (Fin 0).
Proof. exact E_CorEx.row_entries_ex. Qed.
