(** Property C160: oversampled images in double precision. *)
From Coq Require Import String SpecFloat ZArith.
From Verif Require Import Base Num Numpy M_PSF S_Photometry S_PSF S_Double S_Over.
From Verif Require L_Over2 L_Over3 E_Over.
Local Open Scope R_scope.

Theorem C160_coordinates : forall A size ox oy F j i, 1 <= A <= 2 ^ 30 -> Rabs (IZR ox) <= A -> Rabs (IZR oy) <= A -> IZR size <= 2 * A + 1 -> (1 <= F)%nat -> (Z.of_nat F <= 2 ^ 20)%Z ->
  let gr := make_grid size (f64_ofZ ox, f64_ofZ oy) (Z.of_nat F) in (j < iny (fst gr))%nat -> (i < inx (fst gr))%nat ->
  double (px (fst gr) j i) /\ Rabs (dval (px (fst gr) j i) - (IZR ox + (INR i + 1 / 2) / INR F - 1 / 2)) <= 32 * u64 * A /\
  double (px (snd gr) j i) /\ Rabs (dval (px (snd gr) j i) - (IZR oy + (INR j + 1 / 2) / INR F - 1 / 2)) <= 32 * u64 * A.
Proof. exact L_Over3.grid_double. Qed.
Print Assumptions C160_coordinates.

(** no rounding errors for factors 1, 2, 4, 8, ... *)
Theorem C160_powers : forall A size ox oy s j i, 1 <= A <= 2 ^ 30 -> Rabs (IZR ox) <= A -> Rabs (IZR oy) <= A -> IZR size <= 2 * A + 1 -> (s <= 20)%nat ->
  let gr := make_grid size (f64_ofZ ox, f64_ofZ oy) (Z.of_nat (2 ^ s)) in (j < iny (fst gr))%nat -> (i < inx (fst gr))%nat ->
  dval (px (fst gr) j i) = IZR ox + (INR i + 1 / 2) / 2 ^ s - 1 / 2 /\ dval (px (snd gr) j i) = IZR oy + (INR j + 1 / 2) / 2 ^ s - 1 / 2.
Proof. exact L_Over3.grid_powers. Qed.
Print Assumptions C160_powers.

Theorem C160_oversampled : forall (rotate : img f64 -> f64 -> img f64) names f ps pa g A B delta lip (st : pst f64) F zx zy,
  draws (f ps) g A B delta lip -> 1 <= A <= 2 ^ 30 -> 0 <= lip -> B + delta <= 2 ^ 100 -> (1 <= F)%nat -> (Z.of_nat F <= 2 ^ 20)%Z ->
  p_crange st = None -> p_over st = Some (OInt (Z.of_nat F)) -> p_psf st = None -> p_psf_over st = None ->
  (1 <= length zx)%nat -> length zy = length zx -> Forall (fun z => Rabs (IZR z) <= A) zx -> Forall (fun z => Rabs (IZR z) <= A) zy ->
  exists l, fst (evaluate rotate (mksm names (Fresh f)) st (map f64_ofZ zx) (map f64_ofZ zy) ps pa) = Ok l /\ length l = length zx /\
    forall i, (i < length zx)%nat -> let v := nth i l nnan in double v /\
      Rabs (dval v - mean_samples g F (IZR (nth i zx 0%Z)) (IZR (nth i zy 0%Z))) <= delta + lip * (64 * u64 * A) + mean_error (F * F) (B + delta).
Proof. exact L_Over2.evaluate_double. Qed.
Print Assumptions C160_oversampled.

(** the model x + y with oversampling by 3, at the pixels (3, 0) and (4, 5) *)
Example C160_example :
  (new None (VInt 3) VNone = Ok E_Over.obj3 /\ p_crange E_Over.obj3 = None /\ p_over E_Over.obj3 = Some (OInt (Z.of_nat 3)) /\ p_psf E_Over.obj3 = None /\ p_psf_over E_Over.obj3 = None) /\
  draws (E_Over.addxy []) (fun x y => x + y) 8 32 (64 * u64) 1 /\ (Forall (fun z => Rabs (IZR z) <= 8) [3; 4]%Z /\ Forall (fun z => Rabs (IZR z) <= 8) [0; 5]%Z) /\
  fst (evaluate (fun m _ => m) (mksm [] (Fresh E_Over.addxy)) E_Over.obj3 (map f64_ofZ [3; 4]%Z) (map f64_ofZ [0; 5]%Z) [] n0) = Ok (map f64_ofZ [3; 9]%Z).
Proof. exact (conj E_Over.obj3_new (conj E_Over.draws_addxy (conj E_Over.sizes E_Over.runs))). Qed.
