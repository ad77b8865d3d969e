(** Small specifications for the Petrosian profile, on lists of reals,
    independent of the model. *)
From Verif Require Import Base Num.
Local Open Scope R_scope.

Definition at_ (l : list R) (i : nat) : R := nth i l 0.

Definition nondecreasing (l : list R) : Prop :=
  forall i, (S i < length l)%nat -> at_ l i <= at_ l (S i).
Definition increasing (l : list R) : Prop :=
  forall i, (S i < length l)%nat -> at_ l i < at_ l (S i).
(** every entry after the first is non-zero *)
Definition nonzero_tail (l : list R) : Prop :=
  forall i, (1 <= i < length l)%nat -> at_ l i <> 0.

(** surface brightness of annulus i (between apertures i-1 and i) and mean surface
    brightness within aperture i *)
Definition local_sb (A L : list R) (i : nat) : R :=
  (at_ L i - at_ L (i - 1)) / (at_ A i - at_ A (i - 1)).
Definition mean_sb (A L : list R) (i : nat) : R := at_ L i / at_ A i.

(** the Petrosian profile *)
Definition petro_ratio (A L : list R) (i : nat) : R := local_sb A L i / mean_sb A L i.

(** number of distinct values of [l] below its entry i *)
Definition distinct_below (l : list R) (i : nat) : nat :=
  length (nodup Req_EM_T (filter (fun a => Rltb a (at_ l i)) l)).

(** what the code stores at position j before it re-indexes by area rank: a flat
    (zero-area) annulus has surface brightness 0. *)
Definition raw_entry (A L : list R) (j : nat) : xr :=
  match j with
  | O => NaN
  | _ => xdiv (if Rltb (at_ A (j - 1)) (at_ A j) then Fin (local_sb A L j) else Fin 0)
              (xdiv (Fin (at_ L j)) (Fin (at_ A j)))
  end.

(** truncation towards zero *)
Definition truncated (x : R) (z : Z) : Prop :=
  (0 <= x /\ IZR z <= x < IZR z + 1) \/ (x < 0 /\ IZR z - 1 < x <= IZR z).
Definition is_integer (x : R) : Prop := exists z, x = IZR z.

(** first-order propagated error of the Petrosian value at i *)
Definition propagated_error (A L EA EL : list R) (i : nat) : R :=
  Rabs (petro_ratio A L i) *
  sqrt ( ((at_ EL (i-1))^2 + (at_ EL i)^2) / (at_ L i - at_ L (i-1))^2
       + ((at_ EA (i-1))^2 + (at_ EA i)^2) / (at_ A i - at_ A (i-1))^2
       + (at_ EL i / at_ L i)^2 + (at_ EA i / at_ A i)^2 ).

Definition zeros (n : nat) : list R := repeat 0 n.
