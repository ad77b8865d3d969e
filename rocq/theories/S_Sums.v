(** Specifications for sums in double precision. *)
From Coq Require Import SpecFloat Permutation.
From Verif Require Import Base Num Numpy S_Double.
Local Open Scope R_scope.

Definition total (l : list R) : R := fold_right Rplus 0 l.
(** [s] is the outcome of adding up [l] in some order, with any grouping *)
Inductive added : list f64 -> f64 -> Prop :=
| added_one x : added [x] x
| added_two l m a b : added l a -> added m b -> added (l ++ m) (nadd a b)
| added_perm l m a : Permutation l m -> added l a -> added m a.
(** the numbers of a list are 0 or neither huge nor tiny *)
Definition fair (x : R) : Prop := x = 0 \/ moderate x.
Definition whole (x : R) : Prop := exists z : Z, x = IZR z.

(** the pixels of an ny x nx image with a positive weight that are not masked (mask True = ignore) *)
Definition covered (ny nx : nat) (w : nat -> nat -> R) (mask : option (img bool)) : list (nat * nat) :=
  filter (fun p => andb (Rltb 0 (w (fst p) (snd p))) (match mask with None => true | Some m => negb (px m (fst p) (snd p)) end))
    (list_prod (seq 0 ny) (seq 0 nx)).
Definition over (l : list (nat * nat)) (f : nat -> nat -> R) : R := total (map (fun p => f (fst p) (snd p)) l).
