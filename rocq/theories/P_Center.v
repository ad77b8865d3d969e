(** Property theorems for the 'center' method: C76, C77. *)
From Coq Require Import String.
From Verif Require Import Base Num Numpy M_Photometry S_Photometry S_Petrosian S_Center M_PSF M_Fitting S_PetroR M_Segm S_Segm.
From Verif Require L_Center L_Segm6 E_Segm E_Center.
Local Open Scope list_scope.
Local Open Scope R_scope.

(** C76. *)
Theorem C76_weights : forall x y a b t ny nx w, 0 < a -> 0 < b ->
  center_overlap (mkap (Fin x) (Fin y) (Fin a) (Fin b) (Fin t)) ny nx = Some w ->
  forall j i, (inside_ellipse x y a b t (INR i) (INR j) -> w j i = Fin 1) /\ (~ inside_ellipse x y a b t (INR i) (INR j) -> w j i = Fin 0).
Proof. exact L_Center.center_weights. Qed.
Print Assumptions C76_weights.

Theorem C76_covers : forall x y a b t ny nx j i, 0 < a -> 0 < b -> (j < ny)%nat -> (i < nx)%nat ->
  inside_ellipse x y a b t (INR i) (INR j) -> center_overlap (mkap (Fin x) (Fin y) (Fin a) (Fin b) (Fin t)) ny nx <> None.
Proof. exact L_Center.center_covers. Qed.
Print Assumptions C76_covers.

Theorem C76_photometry : forall k image v x y t r error mask elong (ins : nat -> nat -> bool),
  0 < r -> 0 < elong -> fits error image -> fits mask image ->
  (forall j i, ins j i = true <-> inside_ellipse x y r (r / elong) t (INR i) (INR j) /\ selects mask j i = true) ->
  (exists j i, (j < iny image)%nat /\ (i < inx image)%nat /\ inside_ellipse x y r (r / elong) t (INR i) (INR j)) ->
  (forall j i, (j < iny image)%nat -> (i < inx image)%nat -> ins j i = true -> px image j i = Fin (v j i)) ->
  (forall e, error = Some e -> exists ev, finite_img e ev) ->
  let total f := sum2 (iny image) (inx image) (fun j i => if ins j i then f j i else 0) in
  exists f a e,
    radial_photometry center_overlap k image (Fin x, Fin y) [Fin r] error mask (Fin elong) (Fin t) = Ok ([Fin f], [Fin a], [e]) /\
    rounded6 (total v) f /\ rounded6 (total (fun _ _ => 1)) a /\
    (error = None -> e = NaN) /\
    (forall em ev, error = Some em -> finite_img em ev -> exists s, e = Fin s /\ rounded6 (sqrt (total (fun j i => ev j i * ev j i))) s).
Proof. exact L_Center.center_photometry. Qed.
Print Assumptions C76_photometry.

Example C76_example : forall k, exists f a,
  radial_photometry center_overlap k E_Center.ones (Fin 1, Fin 1) [Fin (6/5)] None None (Fin 1) (Fin 0) = Ok ([Fin f], [Fin a], [NaN]) /\
  rounded6 5 f /\ rounded6 5 a.
Proof. exact E_Center.plus_example. Qed.

(** C77. *)
Theorem C77_flux : forall sigma_clip clipped_stats M O planar linear opts evalM
    k c image segm rs cs sigma kind mb (h : heap xr) size elong t v (ins : R -> nat -> nat -> bool),
  valid h image -> a_type (deref h image) = DFloat ->
  iny segm = iny (a_img (deref h image)) -> inx segm = inx (a_img (deref h image)) ->
  (0 <= c_x c < Z.of_nat (inx segm))%Z -> (0 <= c_y c < Z.of_nat (iny segm))%Z ->
  c_elong c = Fin elong -> 0 < elong -> c_theta c = Fin t ->
  cutout_side cs (map Fin rs) = Ok size -> (0 < size)%Z -> (forall r, In r rs -> 0 < r) ->
  (forall Y X, (Y < iny segm)%nat -> (X < inx segm)%nat -> wanted (c_label c) mb (px segm Y X) -> px (a_img (deref h image)) Y X = Fin (v Y X)) ->
  (forall r Y X, In r rs -> ins r Y X = true <-> wanted (c_label c) mb (px segm Y X) /\ in_square (c_x c) (c_y c) size Y X /\
     inside_ellipse (IZR (c_x c)) (IZR (c_y c)) r (r / elong) t (INR X) (INR Y)) ->
  exists F A, fst (source_photometry center_overlap sigma_clip clipped_stats M O planar linear opts evalM k (SCat c) image segm (map Fin rs) None cs false sigma kind mb h) =
    Ok (map Fin F, map Fin A, map (fun _ => NaN) rs) /\
    length F = length rs /\ length A = length rs /\
    forall i, (i < length rs)%nat ->
      rounded6 (sum2 (iny segm) (inx segm) (fun Y X => if ins (at_ rs i) Y X then v Y X else 0)) (at_ F i) /\
      rounded6 (sum2 (iny segm) (inx segm) (fun Y X => if ins (at_ rs i) Y X then 1 else 0)) (at_ A i).
Proof. exact L_Segm6.source_flux. Qed.
Print Assumptions C77_flux.

Theorem C77_default_cutout : forall sigma_clip clipped_stats M O planar linear opts evalM
    k c image segm rs sigma kind mb (h : heap xr) elong t v (ins : R -> nat -> nat -> bool),
  valid h image -> a_type (deref h image) = DFloat ->
  iny segm = iny (a_img (deref h image)) -> inx segm = inx (a_img (deref h image)) ->
  (0 <= c_x c < Z.of_nat (inx segm))%Z -> (0 <= c_y c < Z.of_nat (iny segm))%Z ->
  c_elong c = Fin elong -> 1 <= elong -> c_theta c = Fin t ->
  rs <> [] -> (forall r, In r rs -> 0 < r) ->
  (forall Y X, (Y < iny segm)%nat -> (X < inx segm)%nat -> wanted (c_label c) mb (px segm Y X) -> px (a_img (deref h image)) Y X = Fin (v Y X)) ->
  (forall r Y X, In r rs -> ins r Y X = true <-> wanted (c_label c) mb (px segm Y X) /\
     inside_ellipse (IZR (c_x c)) (IZR (c_y c)) r (r / elong) t (INR X) (INR Y)) ->
  exists F A, fst (source_photometry center_overlap sigma_clip clipped_stats M O planar linear opts evalM k (SCat c) image segm (map Fin rs) None VNone false sigma kind mb h) =
    Ok (map Fin F, map Fin A, map (fun _ => NaN) rs) /\
    length F = length rs /\ length A = length rs /\
    forall i, (i < length rs)%nat ->
      rounded6 (sum2 (iny segm) (inx segm) (fun Y X => if ins (at_ rs i) Y X then v Y X else 0)) (at_ F i) /\
      rounded6 (sum2 (iny segm) (inx segm) (fun Y X => if ins (at_ rs i) Y X then 1 else 0)) (at_ A i).
Proof. exact L_Segm6.source_flux_default. Qed.
Print Assumptions C77_default_cutout.

Example C77_example : forall sigma_clip clipped_stats M O planar linear opts evalM k sigma kind, exists f0 f1 a0 a1,
  fst (source_photometry center_overlap sigma_clip clipped_stats M O planar linear opts evalM
    k (SCat E_Segm.one) 0%nat E_Segm.labels [Fin (1/2); Fin (3/2)] None VNone false sigma kind true E_Segm.memory) = Ok ([Fin f0; Fin f1], [Fin a0; Fin a1], [NaN; NaN]) /\
  rounded6 0 f0 /\ rounded6 1 a0 /\ rounded6 11 f1 /\ rounded6 3 a1.
Proof. exact E_Center.flux_example. Qed.
