(** Specifications for images of counts. *)
From Verif Require Import Base Num Numpy M_Utils M_Photometry S_Photometry S_Double S_Sums.
Local Open Scope R_scope.

(** the pixels of an ny x nx image with a positive weight that the mask argument selects (True = use) *)
Definition taken (ny nx : nat) (w : nat -> nat -> R) (mask : option (img bool)) : list (nat * nat) :=
  filter (fun p => andb (Rltb 0 (w (fst p) (snd p))) (selects mask (fst p) (snd p))) (list_prod (seq 0 ny) (seq 0 nx)).
(** 10^6 times it is at most 2^53 *)
Definition countable (x : R) : Prop := Rabs x * 1000000 <= 2 ^ 53.
(** the aperture of radius [r] takes whole pixels of the image (their weights [w] are 0 or 1), with whole values that are not too large *)
Definition counted (overlap : aperture f64 -> nat -> nat -> option (nat -> nat -> f64)) (k : flavour) (image : img f64) (pos : f64 * f64)
    (mask : option (img bool)) (elong theta : f64) (w : f64 -> nat -> nat -> f64) (r : f64) : Prop :=
  let P := taken (iny image) (inx image) (fun j i => dval (w r j i)) mask in
  (exists ap, radial_elliptical_aperture k pos r elong theta = Ok ap /\ overlap ap (iny image) (inx image) = Some (w r)) /\
  (forall j i, (j < iny image)%nat -> (i < inx image)%nat -> double (w r j i)) /\
  (forall j i, In (j, i) P -> double (px image j i) /\ whole (dval (px image j i)) /\ dval (w r j i) = 1) /\
  countable (over P (fun j i => Rabs (dval (px image j i)))) /\ countable (INR (length P)).
