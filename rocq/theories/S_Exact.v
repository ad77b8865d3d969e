(** Specifications for the overlap methods 'exact' and 'subpixel'. *)
From Coquelicot Require Import Coquelicot.
From Verif Require Import Base Num Numpy M_Photometry S_Center.
Local Open Scope R_scope.

(** the numbers satisfying P form an open interval of length l *)
Definition interval_length (P : R -> Prop) (l : R) : Prop :=
  exists p q, p <= q /\ l = q - p /\ forall v, P v <-> p < v < q.

(** A is the area of the part of the ellipse on pixel (j, i), measured along the columns *)
Definition area_on_pixel (x y a b t : R) (j i : nat) (A : R) : Prop :=
  exists len : R -> R,
    (forall u, interval_length (fun v => inside_ellipse x y a b t u v /\ INR j - 1/2 < v < INR j + 1/2) (len u)) /\
    is_RInt len (INR i - 1/2) (INR i + 1/2) A.

(** the ellipse lies on the ny x nx pixels of an image *)
Definition on_image (x y a b t : R) (ny nx : nat) : Prop :=
  forall u v, inside_ellipse x y a b t u v -> - (1/2) <= u <= INR nx - 1/2 /\ - (1/2) <= v <= INR ny - 1/2.

(** n of the s x s evenly spaced points of pixel (j, i) are in the ellipse *)
Definition points_inside (x y a b t : R) (s j i n : nat) : Prop :=
  exists l : list (nat * nat), NoDup l /\ List.length l = n /\
    forall p q, In (p, q) l <-> (p < s)%nat /\ (q < s)%nat /\
      inside_ellipse x y a b t (INR i - 1/2 + (INR q + 1/2) / INR s) (INR j - 1/2 + (INR p + 1/2) / INR s).
