(** Properties C148-C149: aperture sums in double precision. *)
From Coq Require Import SpecFloat ZArith.
From Verif Require Import Base Num Numpy M_Utils M_Photometry S_Photometry S_Double S_Sums.
From Verif Require L_Sums L_Sums2 E_Sums L_Double3.
Local Open Scope R_scope.

(** whatever the order in which the weighted pixels are added up *)
Theorem C148_flux : forall overlap ap (data : img f64) mask w, overlap ap (iny data) (inx data) = Some w -> fits mask data ->
  (forall j i, (j < iny data)%nat -> (i < inx data)%nat -> double (w j i)) ->
  let P := covered (iny data) (inx data) (fun j i => dval (w j i)) mask in
  (forall j i, In (j, i) P -> double (px data j i) /\ fair (dval (px data j i)) /\ moderate (dval (w j i))) ->
  INR (S (length P)) * u64 <= 1 ->
  exists s, do_photometry overlap ap data None mask = Ok (s, None) /\
    added (n0 :: map (fun p => nmul (px data (fst p) (snd p)) (w (fst p) (snd p))) P) s /\
    forall t, added (n0 :: map (fun p => nmul (px data (fst p) (snd p)) (w (fst p) (snd p))) P) t -> double t /\
      Rabs (dval t - over P (fun j i => dval (px data j i) * dval (w j i)))
        <= ((1 + u64) ^ (S (length P)) - 1) * over P (fun j i => Rabs (dval (px data j i) * dval (w j i))).
Proof. exact L_Sums2.flux_double. Qed.
Print Assumptions C148_flux.

Theorem C148_order : forall (l : list f64) s t, added l s -> added l t -> Forall double l -> total (map Rabs (map dval l)) <= 2 ^ 1000 ->
  INR (length l) * u64 <= 1 ->
  Rabs (dval s - dval t) <= 2 * ((1 + u64) ^ (length l - 1) - 1) * total (map Rabs (map dval l)).
Proof. exact L_Sums.orders. Qed.
Print Assumptions C148_order.

Example C148_example : covered 1 3 (fun _ _ => dval (n1 : f64)) None = [(0, 0); (0, 1); (0, 2)]%nat /\
  (forall j i, In (j, i) [(0, 0); (0, 1); (0, 2)]%nat -> double (px E_Sums.big j i) /\ fair (dval (px E_Sums.big j i)) /\ moderate (dval (n1 : f64))) /\
  INR 4 * u64 <= 1 /\ double (n1 : f64) /\
  do_photometry E_Sums.flat E_Sums.anyap E_Sums.big None None = Ok (f64_ofZ (2 ^ 53), None) /\
  added (n0 :: map (fun p => nmul (px E_Sums.big (fst p) (snd p)) n1) [(0, 0); (0, 1); (0, 2)]%nat) (f64_ofZ (2 ^ 53 + 2)).
Proof.
  split; [exact E_Sums.cover3|]. split; [exact E_Sums.big_ok|]. split; [exact E_Sums.four_small|]. split; [exact E_Sums.w_double|].
  split; apply E_Sums.big_sum.
Qed.

Theorem C149_counts : forall overlap ap (data : img f64) mask w, overlap ap (iny data) (inx data) = Some w -> fits mask data ->
  (forall j i, (j < iny data)%nat -> (i < inx data)%nat -> double (w j i)) ->
  let P := covered (iny data) (inx data) (fun j i => dval (w j i)) mask in
  (forall j i, In (j, i) P -> double (px data j i) /\ whole (dval (px data j i)) /\ dval (w j i) = 1) ->
  over P (fun j i => Rabs (dval (px data j i))) <= 2 ^ 53 ->
  exists s, do_photometry overlap ap data None mask = Ok (s, None) /\
    added (n0 :: map (fun p => nmul (px data (fst p) (snd p)) (w (fst p) (snd p))) P) s /\
    forall t, added (n0 :: map (fun p => nmul (px data (fst p) (snd p)) (w (fst p) (snd p))) P) t -> double t /\
      dval t = over P (fun j i => dval (px data j i)).
Proof. exact L_Sums2.counts_double. Qed.
Print Assumptions C149_counts.

Theorem C149_area : forall overlap ap (data : img f64) mask w, overlap ap (iny data) (inx data) = Some w -> fits mask data ->
  (forall j i, (j < iny data)%nat -> (i < inx data)%nat -> double (w j i)) ->
  let P := covered (iny data) (inx data) (fun j i => dval (w j i)) mask in
  (forall j i, In (j, i) P -> dval (w j i) = 1) -> INR (length P) <= 2 ^ 53 ->
  exists s, do_photometry overlap ap (ones_like data) None mask = Ok (s, None) /\ double s /\ dval s = INR (length P).
Proof. exact L_Sums2.area_double. Qed.
Print Assumptions C149_area.

Example C149_example :
  (forall j i, In (j, i) [(0, 0); (0, 1); (0, 2)]%nat -> double (px E_Sums.few j i) /\ whole (dval (px E_Sums.few j i)) /\ dval (n1 : f64) = 1) /\
  over [(0, 0); (0, 1); (0, 2)]%nat (fun j i => Rabs (dval (px E_Sums.few j i))) = 9 /\
  do_photometry E_Sums.flat E_Sums.anyap E_Sums.few None None = Ok (f64_ofZ 7, None).
Proof. exact E_Sums.few_ok. Qed.
