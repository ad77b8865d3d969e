(** Small specifications for the correction grid. *)
From Coq Require Import String.
From Verif Require Import Base Num Numpy M_Petrosian S_Petrosian.
Local Open Scope R_scope.

Fixpoint total (l : list R) : R := match l with [] => 0 | x :: t => x + total t end.
Definition average (l : list R) : R := total l / INR (List.length l).
(** population standard deviation *)
Definition deviation (l : list R) : R :=
  sqrt (average (map (fun x => (x - average l) * (x - average l)) l)).

Definition nonconstant (l : list R) : Prop :=
  exists i j, (i < List.length l)%nat /\ (j < List.length l)%nat /\ at_ l i <> at_ l j.

(** squared distance from row i to a measurement, each column in units of its deviation *)
Definition row_distance (X Y Z : list R) (x0 y0 z0 : R) (i : nat) : R :=
  let d l v := (at_ l i - v) / deviation l in
  d X x0 * d X x0 + d Y y0 * d Y y0 + d Z z0 * d Z z0.

(** a measurement lies between two entries of a column *)
Definition between (l : list R) (v : xr) : Prop :=
  exists v' i j, v = Fin v' /\ (i < List.length l)%nat /\ (j < List.length l)%nat /\
    at_ l i <= v' <= at_ l j.

(** for each object, the settings assigned to it in a history over several objects *)
Definition addressed {T} (i : nat) (h : list (nat * @assign T)) : list (@action T) :=
  map (fun x => Assign (snd x)) (filter (fun x => Nat.eqb (fst x) i) h).

(** the grid columns the settings refer to *)
Definition eta_col (eta : xr) (name : string) : Prop :=
  (eta = Fin (1/5) /\ name = "p02"%string) \/ (eta = Fin (3/10) /\ name = "p03"%string) \/
  (eta = Fin (2/5) /\ name = "p04"%string) \/ (eta = Fin (1/2) /\ name = "p05"%string).
Definition fraction_col (f : xr) (name : string) : Prop :=
  (f = Fin (4/5) /\ name = "c_r_80"%string) \/ (f = Fin (99/100) /\ name = "c_r_99"%string).


(** lists of integers in strictly increasing order *)
Fixpoint zincreasing (l : list Z) : Prop :=
  match l with
  | x :: ((y :: _) as tl) => (x < y)%Z /\ zincreasing tl
  | _ => True
  end.
(** lists of reals in strictly increasing order *)
Fixpoint increasing_list (l : list R) : Prop :=
  match l with
  | x :: ((y :: _) as tl) => x < y /\ increasing_list tl
  | _ => True
  end.
