(** Properties C150-C151: resampled curves in double precision. *)
From Coq Require Import SpecFloat ZArith.
From Verif Require Import Base Num Numpy M_Utils M_Petrosian M_Kinds S_Petrosian S_Kinds S_Double S_Sums S_Grid.
From Verif Require L_Grid L_Grid2 L_Grid3 E_Grid E_Double E_Sums.
Local Open Scope R_scope.

Theorem C150_grid : forall (lo hi : f64) n, double lo -> double hi -> fair (dval lo) -> moderate (dval hi) -> 0 <= dval lo < dval hi ->
  (1 <= n)%nat -> (Z.of_nat n <= 2 ^ 50)%Z ->
  let g := linspace lo hi (S n) in length g = S n /\ Forall double g /\
    (forall k, (k <= n)%nat -> Rabs (at_ (map dval g) k - (dval lo + INR k * ((dval hi - dval lo) / INR n))) <= 5 * u64 * dval hi) /\
    nth n g n0 = hi /\ at_ (map dval g) 0 = dval lo /\
    (10 * u64 * dval hi < (dval hi - dval lo) / INR n -> increasing (map dval g)).
Proof. exact L_Grid.linspace_double. Qed.
Print Assumptions C150_grid.

Theorem C150_resampled : forall other k (xs ys : list f64) num M,
  let X := map dval xs in let Y := map dval ys in let n := Nat.max num (length xs) in
  chordal k -> length ys = length xs -> (2 <= length xs)%nat -> Forall double xs -> Forall double ys ->
  Forall fair X -> Forall fair Y -> Forall (fun y => Rabs y <= M) Y -> increasing X -> 0 <= at_ X 0 ->
  / 2 ^ 100 <= end_of X - at_ X 0 -> (Z.of_nat n <= 2 ^ 50)%Z -> resolved u64 (at_ X 0) (end_of X) n ->
  exists gx gy, get_interpolated_values (mk_scipy other) xs ys num (Some k) = Ok (gx, gy) /\
    length gx = n /\ length gy = n /\ Forall double gx /\ Forall double gy /\ increasing (map dval gx) /\
    at_ (map dval gx) 0 = at_ X 0 /\ at_ (map dval gx) (n - 1) = end_of X /\
    (forall i, (i < n)%nat -> Rabs (at_ (map dval gx) i - even_point (at_ X 0) (end_of X) n i) <= 5 * u64 * end_of X) /\
    forall i, (i < n)%nat -> exists y, chord_value X Y (at_ (map dval gx) i) y /\ Rabs (at_ (map dval gy) i - y) <= 14 * u64 * M.
Proof. exact L_Grid2.resampled. Qed.
Print Assumptions C150_resampled.

Example C150_example : Forall fair [0; 2; 4] /\ Forall fair [1; 1 / 2; 1 / 4] /\ Forall (fun y => Rabs y <= 1) [1; 1 / 2; 1 / 4] /\ increasing [0; 2; 4] /\
  / 2 ^ 100 <= 4 /\ resolved u64 0 4 5 /\ linspace (f64_ofZ 0) (f64_ofZ 4) 5 = map f64_ofZ [0; 1; 2; 3; 4]%Z /\
  nth 1 (linspace (f64_ofZ 0) (f64_ofZ 1) 4) n0 = S754_finite false 6004799503160661 (-54).
Proof.
  split; [exact E_Grid.fairX|]. split; [exact E_Grid.fairY|]. split; [exact E_Grid.boundY|]. split; [exact E_Grid.incX|].
  split; [exact E_Grid.wideG|]. split; [exact (E_Grid.resG 5 (or_intror eq_refl))|]. split; [exact E_Grid.grid5|exact E_Grid.grid4].
Qed.

(** h is the distance of the resampled radii, s the steepest slope of the profile *)
Theorem C151_radius : forall other k r p0 p eta num M s,
  let X := 0 :: map dval (tl r) in let Y := 1 :: map dval p in let n := Nat.max num (length r) in let R := end_of X in
  chordal k -> length r = S (length p) -> (1 <= length p)%nat -> Forall double (tl r) -> Forall double p -> double eta ->
  Forall fair X -> Forall fair Y -> fair (dval eta) -> Forall (fun y => Rabs y <= M) Y -> increasing X -> / 2 ^ 100 <= R ->
  (Z.of_nat n <= 2 ^ 49)%Z -> (forall i, (S i < length X)%nat -> Rabs (at_ Y (S i) - at_ Y i) <= s * (at_ X (S i) - at_ X i)) ->
  M <= 2 ^ 200 -> dval eta < 1 - 14 * u64 * M ->
  let h := R / INR (n - 1) + 10 * u64 * R in
  exists x, calculate_petrosian_r (mk_scipy other) r (p0 :: p) None eta (Some k) num = Ok (x, nnan) /\
    (x = nnan /\ (forall t y, 0 <= t <= R -> chord_value X Y t y -> dval eta - s * h - 14 * u64 * M < y) \/
     double x /\ 0 <= dval x <= R /\ (exists y, chord_value X Y (dval x) y /\ Rabs (y - dval eta) <= s * h + 50 * u64 * M) /\
     forall t y, 0 <= t <= dval x -> chord_value X Y t y -> dval eta - s * h - 14 * u64 * M < y).
Proof. exact L_Grid3.petro_chords. Qed.
Print Assumptions C151_radius.

Example C151_example : 0 :: map dval (tl E_Grid.rG) = [0; 2; 4] /\ 1 :: map dval E_Grid.pG = [1; 1 / 2; 1 / 4] /\
  (Forall double (tl E_Grid.rG) /\ Forall double E_Grid.pG /\ double E_Double.quarter /\ fair (dval E_Double.quarter)) /\
  (forall i, (S i < 3)%nat -> Rabs (at_ [1; 1 / 2; 1 / 4] (S i) - at_ [1; 1 / 2; 1 / 4] i) <= 1 / 4 * (at_ [0; 2; 4] (S i) - at_ [0; 2; 4] i)) /\
  calculate_petrosian_r (mk_scipy E_Grid.otherG) E_Grid.rG (nnan :: E_Grid.pG) None E_Double.quarter (Some KLinear) 5 = Ok (f64_ofZ 4, nnan).
Proof.
  split; [exact E_Grid.XG|]. split; [exact E_Grid.YG|]. split; [exact E_Grid.dbl_rG|]. split; [exact E_Grid.slopeG|exact E_Grid.runG].
Qed.
