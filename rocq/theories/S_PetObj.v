(** Specification of a history of user actions on a Petrosian object: for each
    setting, the last value assigned to it. *)
From Verif Require Import Base Num M_Petrosian.

Section Hist.
  Context {T : Type}.

  (** the last [Some] produced by [pick] along the history, else the initial value *)
  Fixpoint last_of {A} (sel : @assign T -> option A) (init : A) (h : list (@action T)) : A :=
    match h with
    | [] => init
    | Assign a :: h' => last_of sel (match sel a with Some x => x | None => init end) h'
    | Read _ :: h' => last_of sel init h'
    end.

  Definition sel_eta (a : @assign T) := match a with Set_eta x => Some x | _ => None end.
  Definition sel_epsilon (a : @assign T) := match a with Set_epsilon x => Some x | _ => None end.
  Definition sel_epsilon_fraction (a : @assign T) :=
    match a with Set_epsilon_fraction x => Some x | _ => None end.
  Definition sel_total_flux_fraction (a : @assign T) :=
    match a with Set_total_flux_fraction x => Some x | _ => None end.
  Definition sel_kind (a : @assign T) := match a with Set_kind x => Some x | _ => None end.
  Definition sel_num (a : @assign T) := match a with Set_num x => Some x | _ => None end.

  Definition final_settings (s : psettings T) (h : list action) : psettings T :=
    {| s_eta := last_of sel_eta (s_eta s) h;
       s_epsilon := last_of sel_epsilon (s_epsilon s) h;
       s_epsilon_fraction := last_of sel_epsilon_fraction (s_epsilon_fraction s) h;
       s_total_flux_fraction := last_of sel_total_flux_fraction (s_total_flux_fraction s) h;
       s_kind := last_of sel_kind (s_kind s) h;
       s_num := last_of sel_num (s_num s) h |}.
End Hist.

(** flux data multiplied by [c] *)
Definition scale (c : R) (x : xr) : xr := xmul (Fin c) x.
Definition scaled_data (c : R) (d : pdata xr) : pdata xr :=
  {| d_dtype := d_dtype d; d_r := d_r d; d_area := d_area d;
     d_flux := map (scale c) (d_flux d);
     d_area_err := d_area_err d;
     d_flux_err := option_map (map (scale c)) (d_flux_err d) |}.

(** an interpolation method commutes with multiplying the values by a positive constant *)
Definition scale_equivariant (mk : kind -> list xr -> list xr -> result (xr -> xr)) : Prop :=
  forall c k xs ys, (0 < c)%R ->
    match mk k xs ys with
    | Err e => mk k xs (map (scale c) ys) = Err e
    | Ok f => exists g, mk k xs (map (scale c) ys) = Ok g /\ forall q, g q = scale c (f q)
    end.

Definition scale_result (c : R) (m : result xr) : result xr :=
  match m with Ok x => Ok (scale c x) | Err e => Err e end.
