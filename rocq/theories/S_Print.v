(** Reading a number printed with four decimals, independent of the model. *)
From Coq Require Import Ascii NArith ZArith.
From Verif Require Import Base Num M_Utils S_NatSort S_Photometry.
Local Open Scope list_scope.
Local Open Scope R_scope.

(** [shows text neg m]: the text is a number of [m] ten thousandths with
    exactly four decimals, no superfluous leading zero, and a minus sign
    iff [neg] *)
Definition shows (text : list ascii) (neg : bool) (m : N) : Prop :=
  exists d e a b, text = (if neg then ["-"%char] else []) ++ d ++ "."%char :: e /\
    decimal_of a d /\ List.length e = 4%nat /\ Forall (fun c => is_digit c = true) e /\ value e = b /\
    m = (a * 10000 + b)%N.

(** the text of a number *)
Definition text_of (x : xr) (text : list ascii) : Prop :=
  match x with
  | NaN => text = ["n"; "a"; "n"]%char
  | PInf => text = ["i"; "n"; "f"]%char
  | NInf => text = ["-"; "i"; "n"; "f"]%char
  | Fin r => exists neg m, shows text neg m /\ (neg = true <-> r < 0) /\
      nearest_even (Rabs r * 10000) (Z.of_N m)
  end.

(** the number a text stands for *)
Definition reads (text : list ascii) (v : R) : Prop :=
  exists neg m, shows text neg m /\ v = (if neg then -1 else 1) * (IZR (Z.of_N m) / 10000).
