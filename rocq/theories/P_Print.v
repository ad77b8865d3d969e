(** C129: the lines print_model_params prints. *)
From Coq Require Import Ascii NArith ZArith.
From Verif Require Import Base Num M_Utils S_NatSort S_Photometry M_Print S_Print.
From Verif Require L_Print.
Local Open Scope list_scope.

Theorem C129_lines : forall names parameters,
  List.length (print_model_params names parameters) = Nat.min (List.length names) (List.length parameters) /\
  forall i name x, nth_error names i = Some name -> nth_error parameters i = Some x ->
    exists text, nth_error (print_model_params names parameters) i = Some (text ++ "009"%char :: name) /\
      text_of x text.
Proof. exact L_Print.lines. Qed.
Print Assumptions C129_lines.

Theorem C129_close : forall r text, text_of (Fin r) text ->
  exists v, reads text v /\ (forall w, reads text w -> w = v) /\ (Rabs (v - r) <= 1 / 20000)%R.
Proof. exact L_Print.text_close_unique. Qed.
Print Assumptions C129_close.

Theorem C129_same_text : forall x y text, text_of x text -> text_of y text ->
  (exists r s, x = Fin r /\ y = Fin s /\ (Rabs (r - s) <= 1 / 10000)%R) \/ x = y.
Proof. exact L_Print.same_text. Qed.
Print Assumptions C129_same_text.

Example C129_example :
  print_model_params [["n"%char]] [Fin (-5 / 2)] =
  [["-"; "2"; "."; "5"; "0"; "0"; "0"; "009"; "n"]%char].
Proof. exact L_Print.example_line. Qed.
