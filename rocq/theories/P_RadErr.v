(** Property C162: the error of the Petrosian radius in double precision. *)
From Coq Require Import SpecFloat ZArith.
From Verif Require Import Base Num Numpy M_Utils M_Petrosian S_Petrosian S_Double S_Sums S_RadErr.
From Verif Require L_RadErr E_RadErr.
Local Open Scope R_scope.

(** with any interpolation: half the difference of the radii of the raised and the lowered profile *)
Theorem C162_runs : forall (mk : kind -> list f64 -> list f64 -> result (f64 -> f64)) r p0 p e0 e eta ik num x, length e = length p ->
  calculate_petrosian_r mk r (p0 :: p) None eta ik num = Ok (x, nnan) ->
  calculate_petrosian_r mk r (p0 :: p) (Some (e0 :: e)) eta ik num =
    if nisnan x then Ok (x, nnan)
    else do u <- calculate_petrosian_r mk r (p0 :: map2 nadd p e) None eta ik num;
         do l <- calculate_petrosian_r mk r (p0 :: map2 nsub p e) None eta ik num;
         Ok (x, ndiv (nsub (fst u) (fst l)) n2).
Proof. exact L_RadErr.three_runs. Qed.
Print Assumptions C162_runs.

Theorem C162_error : forall (mk : kind -> list f64 -> list f64 -> result (f64 -> f64)) r p0 p e0 e eta num,
  length r = S (length p) -> length e = length p -> double eta -> Forall double (tl r) -> Forall fair (map dval (tl r)) -> Forall double p -> Forall double e ->
  Rabs (dval eta) <= 2 ^ 1000 -> Forall (fun x => Rabs x <= 2 ^ 998) (map dval p) -> Forall (fun x => Rabs x <= 2 ^ 998) (map dval e) ->
  exists x dx, calculate_petrosian_r mk r (p0 :: p) (Some (e0 :: e)) eta None num = Ok (x, dx) /\
    reported (n0 :: tl r) (1 :: map dval p) (dval eta) x /\ (x = nnan -> dx = nnan) /\
    (x <> nnan -> exists U L xu xl, shifted 1 (map dval p) (map dval e) U /\ shifted (-1) (map dval p) (map dval e) L /\
      reported (n0 :: tl r) (1 :: U) (dval eta) xu /\ reported (n0 :: tl r) (1 :: L) (dval eta) xl /\
      ((xu = nnan \/ xl = nnan) -> dx = nnan) /\ (xu <> nnan -> xl <> nnan -> double dx /\ within 3 ((dval xu - dval xl) / 2) (dval dx))).
Proof. exact L_RadErr.radius_errors. Qed.
Print Assumptions C162_error.

(** radii 2, 5, 9 with the profile 0, -3, -8 and errors 1, 2, 3, searched for -4: the raised profile gives 9, the lowered one 5 *)
Example C162_example : length E_RadErr.r4 = S (length E_RadErr.p3) /\ length E_RadErr.e3 = length E_RadErr.p3 /\ double E_RadErr.m4 /\ Forall double (tl E_RadErr.r4) /\ Forall fair (map dval (tl E_RadErr.r4)) /\
  Forall double E_RadErr.p3 /\ Forall double E_RadErr.e3 /\ Rabs (dval E_RadErr.m4) <= 2 ^ 1000 /\ Forall (fun x => Rabs x <= 2 ^ 998) (map dval E_RadErr.p3) /\ Forall (fun x => Rabs x <= 2 ^ 998) (map dval E_RadErr.e3).
Proof. exact E_RadErr.meets. Qed.
Example C162_run : forall (mk : kind -> list f64 -> list f64 -> result (f64 -> f64)) num,
  calculate_petrosian_r mk E_RadErr.r4 (nnan :: E_RadErr.p3) (Some (nnan :: E_RadErr.e3)) E_RadErr.m4 None num = Ok (f64_ofZ 5, f64_ofZ 2).
Proof. exact E_RadErr.runs. Qed.
