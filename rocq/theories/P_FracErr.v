(** C127: the error reported with a radius enclosing a fraction of the flux. *)
From Verif Require Import Base Num Numpy M_Utils M_Petrosian L_Numpy S_Utils S_Petrosian S_PetroR S_FracErr.
From Verif Require L_FracErr E_FracErr.

Theorem C127_value :
  forall (mk : kind -> list xr -> list xr -> result (xr -> xr))
    frac r flux p fe pe d eps ef ik num v err,
  2 <= length r -> length flux = length r -> length fe = length r ->
  (forall lo hi, is_min r lo -> is_max r hi -> (lo <= p * eps <= hi)%R) ->
  radius_error pe d ->
  fraction_to_r mk (Fin frac) (map Fin r) flux (Fin p) (Some fe) pe (Fin eps) (Fin ef) ik num = Ok (v, err) ->
  (v = NaN /\ err = NaN) \/
  v <> NaN /\ exists f fl fu g ql qu up lo,
    mk (match ik with None => KCubic | Some k => k end) (map Fin r) flux = Ok f /\
    mk (match ik with None => KCubic | Some k => k end) (map Fin r) (map2 xsub flux fe) = Ok fl /\
    mk (match ik with None => KCubic | Some k => k end) (map Fin r) (map2 xadd flux fe) = Ok fu /\
    resampled mk (Some KCubic) (Z.to_nat 5000) r (map2 xsub flux fe) g ql /\
    resampled mk (Some KCubic) (Z.to_nat 5000) r (map2 xadd flux fe) g qu /\
    (forall F L U, f (Fin (p * eps)) = Fin F -> fl (Fin (p * eps - d)) = Fin L -> fu (Fin (p * eps + d)) = Fin U ->
       found_radius true (F * (frac / ef) + (U - L) / 2) g ql up /\
       found_radius true (F * (frac / ef) - (U - L) / 2) g qu lo) /\
    err = xdiv (xsub up lo) (Fin 2).
Proof. exact L_FracErr.frac_err_spec. Qed.
Print Assumptions C127_value.

Theorem C127_no_exception :
  forall (mk : kind -> list xr -> list xr -> result (xr -> xr))
    frac r flux p fe pe d eps ef ik num lo hi a,
  2 <= length r -> length flux = length r -> length fe = length r ->
  is_min r lo -> is_max r hi -> radius_error pe d ->
  (forall k ys, length ys = length r -> exists f, mk k (map Fin r) ys = Ok f) ->
  (lo <= p * eps - d <= hi)%R -> (lo <= p * eps + d <= hi)%R ->
  fraction_to_r mk (Fin frac) (map Fin r) flux (Fin p) None pe (Fin eps) (Fin ef) ik num = Ok (Fin a, NaN) ->
  exists err, fraction_to_r mk (Fin frac) (map Fin r) flux (Fin p) (Some fe) pe (Fin eps) (Fin ef) ik num
    = Ok (Fin a, err).
Proof. exact L_FracErr.frac_err_total. Qed.
Print Assumptions C127_no_exception.

Theorem C127_zero :
  forall (mk : kind -> list xr -> list xr -> result (xr -> xr))
    frac r flux p pe eps ef ik num v err,
  2 <= length r -> length flux = length r ->
  (forall lo hi, is_min r lo -> is_max r hi -> (lo <= p * eps <= hi)%R) ->
  radius_error pe 0 ->
  (forall f, mk (match ik with None => KCubic | Some k => k end) (map Fin r) (map Fin flux) = Ok f ->
     exists F, f (Fin (p * eps)) = Fin F) ->
  fraction_to_r mk (Fin frac) (map Fin r) (map Fin flux) (Fin p) (Some (repeat (Fin 0) (length r))) pe
    (Fin eps) (Fin ef) ik num = Ok (v, err) ->
  (err = NaN \/ err = Fin 0) /\
  (ik = Some KCubic -> num = Z.to_nat 5000 -> v <> NaN -> err = Fin 0).
Proof. exact L_FracErr.frac_err_zero. Qed.
Print Assumptions C127_zero.

Theorem C127_sampling_ignored :
  forall (mk : kind -> list xr -> list xr -> result (xr -> xr))
    frac r flux p fe pe eps ef ik n1 n2 v1 v2 e1 e2,
  fraction_to_r mk frac r flux p (Some fe) pe eps ef ik n1 = Ok (v1, e1) ->
  fraction_to_r mk frac r flux p (Some fe) pe eps ef ik n2 = Ok (v2, e2) ->
  v1 <> NaN -> v2 <> NaN -> e1 = e2.
Proof. exact L_FracErr.frac_err_num. Qed.
Print Assumptions C127_sampling_ignored.

Theorem C127_nonnegative :
  forall (mk : kind -> list xr -> list xr -> result (xr -> xr))
    frac r flux p fe pe d eps ef ik num v err,
  2 <= length r -> length flux = length r -> length fe = length r ->
  (forall lo hi, is_min r lo -> is_max r hi -> (lo <= p * eps <= hi)%R) ->
  radius_error pe d ->
  (forall f fl fu, mk (match ik with None => KCubic | Some k => k end) (map Fin r) flux = Ok f ->
     mk (match ik with None => KCubic | Some k => k end) (map Fin r) (map2 xsub flux fe) = Ok fl ->
     mk (match ik with None => KCubic | Some k => k end) (map Fin r) (map2 xadd flux fe) = Ok fu ->
     exists F L U, f (Fin (p * eps)) = Fin F /\ fl (Fin (p * eps - d)) = Fin L /\
       fu (Fin (p * eps + d)) = Fin U /\ (L <= U)%R) ->
  (forall g g' ql qu, resampled mk (Some KCubic) (Z.to_nat 5000) r (map2 xsub flux fe) g ql ->
     resampled mk (Some KCubic) (Z.to_nat 5000) r (map2 xadd flux fe) g' qu ->
     Forall xok ql /\ Forall xok qu /\
     (forall i j a b, i < j -> nth_error ql i = Some a -> nth_error ql j = Some b -> xlt a b) /\
     (forall i a b, nth_error ql i = Some a -> nth_error qu i = Some b -> xle a b)) ->
  fraction_to_r mk (Fin frac) (map Fin r) flux (Fin p) (Some fe) pe (Fin eps) (Fin ef) ik num = Ok (v, err) ->
  err = NaN \/ exists s, err = Fin s /\ (0 <= s)%R.
Proof. exact L_FracErr.frac_err_nonneg. Qed.
Print Assumptions C127_nonnegative.

(** flux 1, 2, 3 at radii 1, 2, 3 with errors 1/2: radius 2, error (3 - 1) / 2 *)
Example C127_example :
  fraction_to_r E_FracErr.mk_off (Fin 1) (map Fin E_FracErr.r3) (map Fin E_FracErr.r3) (Fin 1)
    (Some E_FracErr.e3) None (Fin 2) (Fin 1) None 3 = Ok (Fin 2, Fin 1).
Proof. exact E_FracErr.frac_err_example. Qed.

(** the hypotheses of C127_nonnegative in that case *)
Example C127_sign_example :
  (forall f fl fu, E_FracErr.mk_off KCubic (map Fin E_FracErr.r3) (map Fin E_FracErr.r3) = Ok f ->
     E_FracErr.mk_off KCubic (map Fin E_FracErr.r3) (map2 xsub (map Fin E_FracErr.r3) E_FracErr.e3) = Ok fl ->
     E_FracErr.mk_off KCubic (map Fin E_FracErr.r3) (map2 xadd (map Fin E_FracErr.r3) E_FracErr.e3) = Ok fu ->
     exists F L U, f (Fin (1 * 2)) = Fin F /\ fl (Fin (1 * 2 - 0)) = Fin L /\
       fu (Fin (1 * 2 + 0)) = Fin U /\ (L <= U)%R) /\
  (forall g g' ql qu, resampled E_FracErr.mk_off (Some KCubic) (Z.to_nat 5000) E_FracErr.r3 (map2 xsub (map Fin E_FracErr.r3) E_FracErr.e3) g ql ->
     resampled E_FracErr.mk_off (Some KCubic) (Z.to_nat 5000) E_FracErr.r3 (map2 xadd (map Fin E_FracErr.r3) E_FracErr.e3) g' qu ->
     Forall xok ql /\ Forall xok qu /\
     (forall i j a b, i < j -> nth_error ql i = Some a -> nth_error ql j = Some b -> xlt a b) /\
     (forall i a b, nth_error ql i = Some a -> nth_error qu i = Some b -> xle a b)).
Proof. exact E_FracErr.sign_example. Qed.
