(** Specifications for the Petrosian radius of an arbitrary image in double precision. *)
From Verif Require Import Base Num Numpy M_Utils M_Photometry S_Petrosian S_Photometry S_Double S_Sums S_Counts S_Photo6.
Local Open Scope R_scope.

Section Sums.
  Variables (image : img f64) (mask : option (img bool)) (w : f64 -> nat -> nat -> f64).

  (** area and flux within radius [r], in exact arithmetic, and what double precision may lose of them *)
  Definition pixels_of (r : f64) : list (nat * nat) := taken (iny image) (inx image) (fun j i => dval (w r j i)) mask.
  Definition area_of (r : f64) : R := over (pixels_of r) (fun j i => dval (w r j i)).
  Definition flux_of (r : f64) : R := over (pixels_of r) (fun j i => dval (px image j i) * dval (w r j i)).
  Definition area_loss (r : f64) : R := loss (length (pixels_of r) + 4) (area_of r).
  Definition flux_loss (r : f64) : R := loss (length (pixels_of r) + 4) (over (pixels_of r) (fun j i => Rabs (dval (px image j i) * dval (w r j i)))).

  (** the losses are a fraction [p] at most of areas, fluxes, areas of annuli and, up to radius number [c], of the flux an annulus would have at the mean surface brightness *)
  Definition clear_of (p : R) (rs : list f64) (c : nat) : Prop :=
    (forall r, In r rs -> / 2 ^ 199 <= area_of r <= 2 ^ 199 /\ / 2 ^ 199 <= flux_of r <= 2 ^ 199 /\ area_loss r <= p * area_of r /\ flux_loss r <= p * flux_of r) /\
    (forall j, (S j < length rs)%nat -> at_ (map area_of rs) j < at_ (map area_of rs) (S j) /\
       at_ (map area_loss rs) (S j) + at_ (map area_loss rs) j <= p * (at_ (map area_of rs) (S j) - at_ (map area_of rs) j)) /\
    (forall j, (S j <= c)%nat -> at_ (map flux_loss rs) (S j) + at_ (map flux_loss rs) j <=
       p * (at_ (map flux_of rs) (S j) / at_ (map area_of rs) (S j) * (at_ (map area_of rs) (S j) - at_ (map area_of rs) j))).
End Sums.
