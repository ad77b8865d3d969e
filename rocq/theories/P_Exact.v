(** Property theorems: overlap methods 'exact' and 'subpixel' (C107-C112). *)
From Coq Require Import String.
From Coquelicot Require Import Coquelicot.
From Verif Require Import Base Num Numpy M_Utils M_Photometry S_Petrosian S_Photometry S_Center S_Symm M_Exact S_Exact.
From Verif Require L_Exact L_Exact2 L_Exact3 E_Symm E_Exact.
Local Open Scope list_scope.
Local Open Scope R_scope.

(** C107: the weight of a pixel is the area of the ellipse on it *)
Theorem C107_weights : forall x y a b t ny nx w, 0 < a -> 0 < b ->
  exact_overlap (mkap (Fin x) (Fin y) (Fin a) (Fin b) (Fin t)) ny nx = Some w ->
  forall j i, exists A, w j i = Fin A /\ 0 <= A <= 1 /\ area_on_pixel x y a b t j i A.
Proof. exact L_Exact.exact_weights. Qed.
Print Assumptions C107_weights.

Theorem C107_unique : forall x y a b t j i A A', area_on_pixel x y a b t j i A -> area_on_pixel x y a b t j i A' -> A = A'.
Proof. exact L_Exact.area_unique. Qed.
Print Assumptions C107_unique.

Example C107_example : exists w, exact_overlap E_Exact.coin_ap 3 3 = Some w /\ w 1%nat 1%nat = Fin (PI / 4) /\ w 1%nat 2%nat = Fin 0.
Proof. exact E_Exact.C107_ex. Qed.

(** C108: an ellipse on the image *)
Theorem C108_on_image : forall k image v x y r elong t lo hi, 0 < r -> 0 < elong ->
  on_image x y r (r / elong) t (iny image) (inx image) -> finite_img image v ->
  (forall j i, (j < iny image)%nat -> (i < inx image)%nat -> lo <= v j i <= hi) ->
  exists f f0 A, radial_photometry exact_overlap k image (Fin x, Fin y) [Fin r] None None (Fin elong) (Fin t) = Ok ([Fin f], [Fin A], [NaN]) /\
    rounded6 (PI * r * (r / elong)) A /\ rounded6 f0 f /\ lo * (PI * r * (r / elong)) <= f0 <= hi * (PI * r * (r / elong)).
Proof. exact L_Exact.exact_photometry. Qed.
Print Assumptions C108_on_image.

Example C108_example : forall k, on_image (3 / 2) 1 1 (1 / 1) 0 3 4 /\
  exists f f0 A, radial_photometry exact_overlap k E_Exact.twos (Fin (3 / 2), Fin 1) [Fin 1] None None (Fin 1) (Fin 0) = Ok ([Fin f], [Fin A], [NaN]) /\
    rounded6 PI A /\ rounded6 f0 f /\ f0 = 2 * PI.
Proof. exact E_Exact.C108_ex. Qed.

(** C109: any ellipse, any mask *)
Theorem C109_bound : forall k image v x y r mask elong t w, 0 < r -> 0 < elong -> fits mask image -> finite_img image v ->
  exact_overlap (mkap (Fin x) (Fin y) (Fin r) (Fin (r / elong)) (Fin t)) (iny image) (inx image) = Some w ->
  exists f A A0, radial_photometry exact_overlap k image (Fin x, Fin y) [Fin r] None mask (Fin elong) (Fin t) = Ok ([Fin f], [Fin A], [NaN]) /\
    rounded6 A0 A /\ 0 <= A0 <= PI * r * (r / elong).
Proof. exact L_Exact3.exact_area_bound. Qed.
Print Assumptions C109_bound.

Theorem C109_monotone : forall k image v x y t rs mask elong, 0 < elong -> fits mask image -> finite_img image v ->
  (forall j i, (j < iny image)%nat -> (i < inx image)%nat -> 0 <= v j i) ->
  nondecreasing rs -> (forall i, (i < List.length rs)%nat -> 0 < at_ rs i) ->
  ((0 < List.length rs)%nat -> exact_overlap (ap_of (Fin x) (Fin y) (Fin t) elong (at_ rs 0)) (iny image) (inx image) <> None) ->
  exists F A, radial_photometry exact_overlap k image (Fin x, Fin y) (map Fin rs) None mask (Fin elong) (Fin t)
      = Ok (map Fin F, map Fin A, map (fun _ => NaN) rs) /\
    List.length F = List.length rs /\ List.length A = List.length rs /\ nondecreasing F /\ nondecreasing A /\
    forall i, (i < List.length rs)%nat -> 0 <= at_ F i /\ 0 <= at_ A i.
Proof. exact L_Exact3.exact_monotone. Qed.
Print Assumptions C109_monotone.

Theorem C109_monotone_subpixel : forall s k image v x y t rs mask elong, (0 < s)%nat -> 0 < elong -> fits mask image -> finite_img image v ->
  (forall j i, (j < iny image)%nat -> (i < inx image)%nat -> 0 <= v j i) ->
  nondecreasing rs -> (forall i, (i < List.length rs)%nat -> 0 < at_ rs i) ->
  ((0 < List.length rs)%nat -> subpixel_overlap s (ap_of (Fin x) (Fin y) (Fin t) elong (at_ rs 0)) (iny image) (inx image) <> None) ->
  exists F A, radial_photometry (subpixel_overlap s) k image (Fin x, Fin y) (map Fin rs) None mask (Fin elong) (Fin t)
      = Ok (map Fin F, map Fin A, map (fun _ => NaN) rs) /\
    List.length F = List.length rs /\ List.length A = List.length rs /\ nondecreasing F /\ nondecreasing A /\
    forall i, (i < List.length rs)%nat -> 0 <= at_ F i /\ 0 <= at_ A i.
Proof. exact L_Exact3.subpixel_monotone. Qed.
Print Assumptions C109_monotone_subpixel.

Example C109_example : exists w, exact_overlap (mkap (Fin 0) (Fin (- (1 / 4))) (Fin 1) (Fin (1 / 1)) (Fin 0)) 3 4 = Some w.
Proof. exact E_Exact.C109_ex. Qed.
Example C109_monotone_example : nondecreasing [1 / 2; 1; 3] /\ (forall i, (i < List.length [1 / 2; 1; 3])%nat -> 0 < at_ [1 / 2; 1; 3] i) /\
  exact_overlap (ap_of (Fin 1) (Fin 1) (Fin 0) 1 (at_ [1 / 2; 1; 3] 0)) 3 4 <> None /\
  subpixel_overlap 5 (ap_of (Fin 1) (Fin 1) (Fin 0) 1 (at_ [1 / 2; 1; 3] 0)) 3 4 <> None.
Proof. exact E_Exact.monotone_ex. Qed.

(** C110: turned, mirrored and cropped images (with C104, for all three methods) *)
Theorem C110_exact : transposes exact_overlap /\ mirrors exact_overlap /\ upends exact_overlap.
Proof. exact L_Exact3.exact_symmetries. Qed.
Print Assumptions C110_exact.

Theorem C110_subpixel : forall s, transposes (subpixel_overlap s) /\ mirrors (subpixel_overlap s) /\ upends (subpixel_overlap s).
Proof. exact L_Exact3.subpixel_symmetries. Qed.
Print Assumptions C110_subpixel.

Theorem C110_half_turn : forall k image pos rs error mask elong t,
  radial_photometry exact_overlap k image pos rs error mask elong (Fin (t + PI)) =
  radial_photometry exact_overlap k image pos rs error mask elong (Fin t).
Proof. exact L_Exact2.exact_half_turn. Qed.
Print Assumptions C110_half_turn.

Theorem C110_circle : forall k image pos rs error mask t t',
  radial_photometry exact_overlap k image pos rs error mask (Fin 1) (Fin t) =
  radial_photometry exact_overlap k image pos rs error mask (Fin 1) (Fin t').
Proof. exact L_Exact2.exact_circle. Qed.
Print Assumptions C110_circle.

Theorem C110_window : forall y0 x0 ny nx k image x y rs error mask elong t,
  (y0 + ny <= iny image)%nat -> (x0 + nx <= inx image)%nat -> fits error image -> fits mask image ->
  0 < elong -> (forall r, In r rs -> 0 < r) ->
  INR x0 - 1 / 2 <= x <= INR x0 + INR nx - 1 / 2 -> INR y0 - 1 / 2 <= y <= INR y0 + INR ny - 1 / 2 ->
  (forall r j i u v, In r rs -> (j < iny image)%nat -> (i < inx image)%nat ->
     INR i - 1 / 2 < u < INR i + 1 / 2 -> INR j - 1 / 2 < v < INR j + 1 / 2 -> inside_ellipse x y r (r / elong) t u v ->
     selects mask j i = true -> (y0 <= j < y0 + ny)%nat /\ (x0 <= i < x0 + nx)%nat) ->
  radial_photometry exact_overlap k (window y0 x0 ny nx image) (Fin (x - INR x0), Fin (y - INR y0)) (map Fin rs)
    (option_map (window y0 x0 ny nx) error) (option_map (window y0 x0 ny nx) mask) (Fin elong) (Fin t) =
  radial_photometry exact_overlap k image (Fin x, Fin y) (map Fin rs) error mask (Fin elong) (Fin t).
Proof. exact L_Exact2.exact_window. Qed.
Print Assumptions C110_window.

Example C110_example : forall k, exists f A, rounded6 (PI / 4) f /\ rounded6 (PI / 4) A /\
  radial_photometry exact_overlap k E_Symm.count9 (Fin 1, Fin 0) [Fin (1 / 2)] None None (Fin 1) (Fin (1 / 3)) = Ok ([Fin f], [Fin A], [NaN]) /\
  radial_photometry exact_overlap k (transposed E_Symm.count9) (Fin 0, Fin 1) [Fin (1 / 2)] None None (Fin 1) (Fin 0) = Ok ([Fin f], [Fin A], [NaN]) /\
  radial_photometry exact_overlap k (window 0 1 1 1 E_Symm.count9) (Fin 0, Fin 0) [Fin (1 / 2)] None None (Fin 1) (Fin 0) = Ok ([Fin f], [Fin A], [NaN]).
Proof. exact E_Exact.C110_ex. Qed.

(** C111: subpixels *)
Theorem C111_weights : forall x y a b t s ny nx w, 0 < a -> 0 < b -> (0 < s)%nat ->
  subpixel_overlap s (mkap (Fin x) (Fin y) (Fin a) (Fin b) (Fin t)) ny nx = Some w ->
  forall j i, exists n, w j i = Fin (INR n / INR (s * s)) /\ (n <= s * s)%nat /\ points_inside x y a b t s j i n.
Proof. exact L_Exact3.subpixel_weights. Qed.
Print Assumptions C111_weights.

Theorem C111_one : forall ap ny nx, subpixel_overlap 1 ap ny nx = center_overlap ap ny nx.
Proof. exact L_Exact3.subpixel_one. Qed.
Print Assumptions C111_one.

Example C111_example : points_inside 1 1 (1 / 2) (1 / 2) 0 2 1 1 4 /\ points_inside 1 1 (1 / 3) (1 / 3) 0 2 1 1 0.
Proof. exact E_Exact.C111_ex. Qed.

(** C112: the argument method *)
Theorem C112_known : forall k image pos rs error mask elong theta,
  radial_photometry_method "exact" k image pos rs error mask elong theta = radial_photometry exact_overlap k image pos rs error mask elong theta /\
  radial_photometry_method "center" k image pos rs error mask elong theta = radial_photometry center_overlap k image pos rs error mask elong theta /\
  radial_photometry_method "subpixel" k image pos rs error mask elong theta = radial_photometry (subpixel_overlap 5) k image pos rs error mask elong theta.
Proof. exact L_Exact3.method_known. Qed.
Print Assumptions C112_known.

Theorem C112_unknown : forall method k image pos r rs error mask elong theta,
  method <> "exact"%string -> method <> "center"%string -> method <> "subpixel"%string ->
  radial_photometry_method method k image pos [] error mask elong theta = Ok ([], [], []) /\
  exists e, radial_photometry_method method k image pos (r :: rs) error mask elong theta = Err e /\
    (e = ValueError \/ e = ZeroDivisionError /\ k = PyFloat /\ neqb elong n0 = true).
Proof. exact L_Exact3.method_unknown. Qed.
Print Assumptions C112_unknown.

Example C112_example : "mean"%string <> "exact"%string /\ "mean"%string <> "center"%string /\ "mean"%string <> "subpixel"%string.
Proof. repeat split; discriminate. Qed.
