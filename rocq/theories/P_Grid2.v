(** Property C154: radii enclosing a fraction of the flux in double precision. *)
From Coq Require Import SpecFloat ZArith.
From Verif Require Import Base Num Numpy M_Utils M_Petrosian M_Kinds S_Petrosian S_Kinds S_Double S_Sums S_Grid.
From Verif Require L_Grid4 E_Grid E_Grid2.
Local Open Scope R_scope.

(** v is the flux searched for, h the distance of the resampled radii, s the steepest slope of the curve, M its largest flux *)
Theorem C154_fraction : forall other k (r flux : list f64) num M s (rp ep f fe : f64),
  let X := map dval r in let Y := map dval flux in let n := Nat.max num (length r) in let R := end_of X in
  let P := dval rp * dval ep in let ratio := dval f / dval fe in
  chordal k -> length flux = length r -> (2 <= length r)%nat -> Forall double r -> Forall double flux ->
  Forall fair X -> Forall fair Y -> Forall (fun y => Rabs y <= M) Y -> increasing X -> 0 <= at_ X 0 ->
  / 2 ^ 100 <= R - at_ X 0 -> (Z.of_nat n <= 2 ^ 50)%Z -> resolved u64 (at_ X 0) R n ->
  (forall i, (S i < length X)%nat -> Rabs (at_ Y (S i) - at_ Y i) <= s * (at_ X (S i) - at_ X i)) ->
  / 2 ^ 200 <= M <= 2 ^ 200 -> double rp -> double ep -> double f -> double fe ->
  moderate P -> at_ X 0 <= P <= R -> moderate (dval f) -> moderate (dval fe) -> 0 < ratio <= 1 ->
  let h := (R - at_ X 0) / INR (n - 1) + 11 * u64 * R in
  exists x yp, fraction_to_r (mk_scipy other) f r flux rp None None ep fe (Some k) num = Ok (x, nnan) /\ chord_value X Y P yp /\
    let v := ratio * yp in
    (x = nnan /\ (forall t y, at_ X 0 <= t <= R -> chord_value X Y t y -> y < v + s * h + 35 * u64 * M) \/
     double x /\ at_ X 0 <= dval x <= R /\ exists y, chord_value X Y (dval x) y /\
       (dval x = at_ X 0 /\ v - s * h - 35 * u64 * M <= y \/
        Rabs (y - v) <= s * h + 70 * u64 * M /\ forall t y', at_ X 0 <= t <= dval x -> chord_value X Y t y' -> y' < v + s * h + 35 * u64 * M)).
Proof. exact L_Grid4.frac_chords. Qed.
Print Assumptions C154_fraction.

Theorem C154_missing : forall (mk : kind -> list f64 -> list f64 -> result (f64 -> f64)) (r flux : list f64) (rp ep f fe : f64) err rerr k num,
  let X := map dval r in let P := dval rp * dval ep in
  (1 <= length r)%nat -> Forall double r -> increasing X -> 0 <= at_ X 0 -> double rp -> double ep -> moderate P -> (1 + 2 * u64) * end_of X < P ->
  fraction_to_r mk f r flux rp err rerr ep fe k num = Ok (nnan, nnan).
Proof. exact L_Grid4.frac_missing. Qed.
Print Assumptions C154_missing.

Example C154_example : map dval E_Grid.rG = [1; 2; 4] /\ map dval E_Grid2.fH = [2; 6; 8] /\
  (Forall double E_Grid.rG /\ Forall double E_Grid2.fH /\ double E_Grid2.two /\ double E_Grid.halfd /\ double (f64_ofZ 1)) /\
  (Forall fair [1; 2; 4] /\ Forall fair [2; 6; 8] /\ Forall (fun y => Rabs y <= 8) [2; 6; 8] /\ increasing [1; 2; 4]) /\
  (forall i, (S i < 3)%nat -> Rabs (at_ [2; 6; 8] (S i) - at_ [2; 6; 8] i) <= 4 * (at_ [1; 2; 4] (S i) - at_ [1; 2; 4] i)) /\
  (/ 2 ^ 100 <= 4 - 1 /\ resolved u64 1 4 7 /\ moderate 4 /\ moderate (1 / 2) /\ moderate 1 /\ dval E_Grid2.two * dval E_Grid2.two = 4 /\ dval E_Grid.halfd / dval (f64_ofZ 1) = 1 / 2) /\
  fraction_to_r (mk_scipy E_Grid.otherG) E_Grid.halfd E_Grid.rG E_Grid2.fH E_Grid2.two None None E_Grid2.two (f64_ofZ 1) (Some KLinear) 7 = Ok (E_Grid2.onehalf, nnan) /\
  fraction_to_r (mk_scipy E_Grid.otherG) E_Grid.halfd E_Grid.rG E_Grid2.fH E_Grid2.two None None (f64_ofZ 3) (f64_ofZ 1) (Some KLinear) 7 = Ok (nnan, nnan).
Proof.
  split; [exact E_Grid2.XH|]. split; [exact E_Grid2.YH|]. split; [exact E_Grid2.dblH|]. split; [exact E_Grid2.fairH|]. split; [exact E_Grid2.slopeH|].
  split; [exact E_Grid2.numH|]. exact E_Grid2.runH.
Qed.
