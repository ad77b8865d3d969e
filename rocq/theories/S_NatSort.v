(** Specification of the natural order on strings, independent of the model. *)
From Verif Require Import Base M_Utils.
From Coq Require Import Ascii NArith.

(** [pieces s ps]: ps lists the maximal runs of s, non-digit and digit runs
    alternating, starting and ending with a (possibly empty) non-digit run. *)
Definition starts_with_digit (s : list ascii) : Prop :=
  exists c t, s = c :: t /\ is_digit c = true.

Inductive pieces : list ascii -> list (list ascii) -> Prop :=
| pieces_text t :
    Forall (fun c => is_digit c = false) t -> pieces t [t]
| pieces_more t d rest ps :
    Forall (fun c => is_digit c = false) t ->
    d <> [] -> Forall (fun c => is_digit c = true) d ->
    ~ starts_with_digit rest ->
    pieces rest ps -> pieces (t ++ d ++ rest) (t :: d :: ps).

(** decimal value of a digit run, most significant digit first *)
Fixpoint value (d : list ascii) : N :=
  match d with
  | [] => 0
  | c :: t => ((N_of_ascii c - 48) * 10 ^ N.of_nat (length t) + value t)%N
  end.

(** lexicographic order of strings by code point *)
Fixpoint lex (a b : list ascii) : comparison :=
  match a, b with
  | [], [] => Eq
  | [], _ => Lt
  | _, [] => Gt
  | x :: a', y :: b' =>
      match (N_of_ascii x ?= N_of_ascii y)%N with Eq => lex a' b' | c => c end
  end.

(** compare runs pairwise: digit runs by value, other runs as lower-case text *)
Fixpoint runs_cmp (digits : bool) (p q : list (list ascii)) : comparison :=
  match p, q with
  | [], [] => Eq
  | [], _ => Lt
  | _, [] => Gt
  | a :: p', b :: q' =>
      match (if digits then (value a ?= value b)%N else lex (map lower a) (map lower b)) with
      | Eq => runs_cmp (negb digits) p' q'
      | c => c
      end
  end.

Definition natural_cmp (s t : list ascii) (c : comparison) : Prop :=
  exists p q, pieces s p /\ pieces t q /\ runs_cmp false p q = c.

(** a string whose key cannot be computed: it has a run consisting only of
    superscript digits *)
Definition superscript_run (s : list ascii) : Prop :=
  exists ps r, pieces s ps /\ In r ps /\ r <> [] /\
    Forall (fun c => is_superscript c = true) r.

(** str(n): digits without superfluous leading zeros *)
Definition decimal_of (n : N) (d : list ascii) : Prop :=
  d <> [] /\ Forall (fun c => is_digit c = true) d /\ value d = n /\
  (d = ["0"%char] \/ exists c t, d = c :: t /\ c <> "0"%char).
