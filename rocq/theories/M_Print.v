(** modeling/fitting.py:324-327, print_model_params. *)
From Coq Require Import Ascii String NArith ZArith.
From Verif Require Import Base Num.
Local Open Scope list_scope.

(** one decimal digit *)
Definition digit (n : N) : ascii := ascii_of_N (48 + n).

(** str(n) of a natural number; the fuel is the number of bits *)
Fixpoint digits (fuel : nat) (n : N) : list ascii :=
  match fuel with
  | O => []
  | S f => if (n <? 10)%N then [digit n] else digits f (n / 10)%N ++ [digit (n mod 10)%N]
  end.
Definition str_N (n : N) : list ascii := digits (S (N.to_nat (N.size n))) n.

(** the four digits after the point *)
Definition four (n : N) : list ascii :=
  [digit (n / 1000 mod 10)%N; digit (n / 100 mod 10)%N; digit (n / 10 mod 10)%N; digit (n mod 10)%N].

(** "{:0.4f}".format(value): the number of ten thousandths nearest to the
    value, the even one on ties, with the sign of the value. The negative zero,
    printed as -0.0000, is not among the numbers of the model. *)
Definition format4 (x : xr) : list ascii :=
  match x with
  | NaN => ["n"; "a"; "n"]%char
  | PInf => ["i"; "n"; "f"]%char
  | NInf => ["-"; "i"; "n"; "f"]%char
  | Fin r =>
      let z := Z.abs_N (Rrint (r * 10000)) in
      (if Rltb r 0 then ["-"%char] else []) ++ str_N (z / 10000)%N ++ ["."%char] ++ four (z mod 10000)%N
  end.

(** fitting.py:326-327: the lines printed. zip stops with the shorter list;
    model.parameters is the flat list of values, one for each name when the
    parameters are scalars. *)
Definition print_model_params (names : list (list ascii)) (parameters : list xr) : list (list ascii) :=
  map2 (fun param value => format4 value ++ ["009"%char] ++ param) names parameters.
