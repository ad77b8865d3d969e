(** Model of the analytic profiles of petrofit/modeling/models.py (Sersic curve of growth,
    Petrosian profile, GenSersic2D, Nuker2D, CoreSersic2D, PetroApprox).

    Values are extended reals with exact arithmetic.  All functions act elementwise, so one
    array element is modelled.  scipy's gamma, gammainc and gammaincinv are the functions
    constructed in [Gamma], for a positive first argument (NaN for every other first argument:
    scipy's values there are not modelled and no theorem uses them).  Arguments are numpy
    floats; for plain Python floats a negative base with a fractional exponent would give a
    complex number instead of NaN, and zero to a negative power would raise. *)
From Verif Require Import Base Num Gamma.
Local Open Scope num_scope.

(** numpy's x ** y on floats (C99 pow), zero being unsigned *)
Definition Rwhole (b : R) : bool := Reqb (IZR (Int_part b)) b.
Definition xpow (x y : xr) : xr :=
  match y with
  | Fin b =>
      if Reqb b 0 then Fin 1 else
      match x with
      | NaN => NaN
      | PInf => if Rltb 0 b then PInf else Fin 0
      | NInf => if Rltb 0 b then (if Rwhole b && Z.odd (Int_part b) then NInf else PInf) else Fin 0
      | Fin a =>
          if Rltb 0 a then Fin (Rpower a b)
          else if Reqb a 0 then (if Rltb 0 b then Fin 0 else PInf)
          else if Rwhole b then Fin (powerRZ a (Int_part b)) else NaN
      end
  | NaN => match x with Fin a => if Reqb a 1 then Fin 1 else NaN | _ => NaN end
  | PInf =>
      match x with
      | NaN => NaN | PInf | NInf => PInf
      | Fin a => if Reqb (Rabs a) 1 then Fin 1 else if Rltb 1 (Rabs a) then PInf else Fin 0
      end
  | NInf =>
      match x with
      | NaN => NaN | PInf | NInf => Fin 0
      | Fin a => if Reqb (Rabs a) 1 then Fin 1 else if Rltb 1 (Rabs a) then Fin 0 else PInf
      end
  end.

Definition xcos (x : xr) : xr := match x with Fin a => Fin (cos a) | _ => NaN end.
Definition xsin (x : xr) : xr := match x with Fin a => Fin (sin a) | _ => NaN end.
Definition xpi : xr := Fin PI.

(** scipy.special.gamma *)
Definition xgamma (s : xr) : xr :=
  match s with Fin a => if Rltb 0 a then Fin (GammaR a) else NaN | PInf => PInf | _ => NaN end.
(** scipy.special.gammainc (regularised) *)
Definition xgammainc (s x : xr) : xr :=
  match s with
  | Fin a =>
      if Rltb 0 a then
        match x with
        | Fin b => if Rltb b 0 then NaN else Fin (gammaincR a b)
        | PInf => Fin 1
        | _ => NaN
        end
      else NaN
  | _ => NaN
  end.
(** scipy.special.gammaincinv *)
Definition xgammaincinv (s p : xr) : xr :=
  match s with
  | Fin a =>
      if Rltb 0 a then
        match p with
        | Fin q => if Rltb q 0 || Rltb 1 q then NaN else if Reqb q 1 then PInf else Fin (gammaincinvR a q)
        | _ => NaN
        end
      else NaN
  | _ => NaN
  end.

(** [bn = gammaincinv(2.0 * n, 0.5)], models.py:50,70,569,630,655,673,697 *)
Definition bn_of (n : xr) : xr := xgammaincinv (n2 * n) (nlit 1 2).

(** models.py:33-50 *)
Definition Ie_to_I0 (I_e n : xr) : xr := I_e * xexp (bn_of n).
(** models.py:53-70 *)
Definition I0_to_Ie (I_0 n : xr) : xr := I_0 / xexp (bn_of n).

(** models.py:653-668 *)
Definition sersic_enclosed (r amplitude r_eff n ellip : xr) : xr :=
  let bn := bn_of n in
  let x := bn * xpow (r / r_eff) (n1 / n) in
  let g := xgamma (n2 * n) * xgammainc (n2 * n) x in
  amplitude * xpow r_eff n2 * n2 * xpi * n * (xexp bn / xpow bn (n2 * n)) * g * (n1 - ellip).

(** models.py:671-686 *)
Definition sersic_enclosed_inv (f amplitude r_eff n ellip : xr) : xr :=
  let bn := bn_of n in
  let g := f / (amplitude * xpow r_eff n2 * n2 * xpi * n * (xexp bn / xpow bn (n2 * n)) * (n1 - ellip)) in
  let x := xgammaincinv (n2 * n) (g / xgamma (n2 * n)) in
  xpow (x / bn) n * r_eff.

(** models.py:695-703 *)
Definition petrosian_profile (r r_eff n : xr) : xr :=
  let bn := bn_of n in
  let x := bn * xpow (r / r_eff) (n1 / n) in
  let g := xgamma (n2 * n) * xgammainc (n2 * n) x in
  (xexp (nopp x) * xpow x (n2 * n)) / (n2 * n * g).

(** GenSersic2D.evaluate, models.py:571-591 *)
Definition gen_sersic2d (x y amplitude r_eff n x_0 y_0 ellip theta c_0 : xr) : xr :=
  let bn := bn_of n in
  let a := r_eff in
  let b := (n1 - ellip) * r_eff in
  let cos_theta := xcos theta in
  let sin_theta := xsin theta in
  let x_maj := (x - x_0) * cos_theta + (y - y_0) * sin_theta in
  let x_min := nopp (x - x_0) * sin_theta + (y - y_0) * cos_theta in
  let z := xpow (xpow (nabs (x_maj / a)) (c_0 + n2) + xpow (nabs (x_min / b)) (c_0 + n2)) (n1 / (c_0 + n2)) in
  amplitude * xexp (nopp bn * (xpow z (n1 / n) - n1)).

(** Nuker2D, models.py:594-608; the fit parameter names are the source's *)
Definition nuker2d (x y amplitude r_break x_0 y_0 alpha betta gam : xr) : xr :=
  let x_maj := (x - x_0) + (y - y_0) in
  let x_min := nopp (x - x_0) + (y - y_0) in
  let r := nsqrt (xpow x_maj n2 + xpow x_min n2) in
  let r := if r =? n0 then NaN else r in
  amplitude * xpow n2 ((betta - gam) / alpha) * xpow (r / r_break) (nopp gam)
    * xpow (n1 + xpow (r / r_break) alpha) ((gam - betta) / alpha).

(** CoreSersic2D, models.py:611-650 *)
Definition core_sersic2d (x y amplitude r_eff r_break n x_0 y_0 alpha gam ellip theta : xr) : xr :=
  let bn := bn_of n in
  let a := r_eff in
  let b := (n1 - ellip) * r_eff in
  let cos_theta := xcos theta in
  let sin_theta := xsin theta in
  let x_maj := (x - x_0) * cos_theta + (y - y_0) * sin_theta in
  let x_min := nopp (x - x_0) * sin_theta + (y - y_0) * cos_theta in
  let r := nsqrt (xpow (x_maj / a) n2 + xpow (x_min / b) n2) in
  let r := if r =? n0 then NaN else r in
  let I := amplitude * xpow n2 (nopp (gam / alpha))
           * xexp (bn * xpow (xpow n2 (n1 / alpha) * (r_break / r_eff)) (n1 / n)) in
  I * xpow (n1 + xpow (r_break / r) alpha) (gam / alpha)
    * xexp (nopp bn * xpow ((xpow r alpha + xpow r_break alpha) / xpow r_eff alpha) (n1 / (alpha * n))).

(** astropy's Polynomial1D (Horner) and Exponential1D *)
Fixpoint horner (cs : list xr) (x : xr) : xr :=
  match cs with [] => n0 | c :: tl => c + x * horner tl x end.
Definition exponential1d (amplitude tau x : xr) : xr := amplitude * xexp (x / tau).

(** decimal literal m * 10^-8 *)
Definition e8 (m : Z) : xr := nlit m 100000000.

(** PetroApprox, models.py:719-774 *)
Definition u2080_to_c2080 (u : xr) : xr :=
  horner [e8 226194802; e8 (-361130833); e8 382197580; e8 (-164146600); e8 38059409;
          e8 (-4503840); e8 221922] u.
Definition c2080_to_n (c : xr) : xr :=
  horner [e8 (-41844073); e8 20487513; e8 8626531; e8 1067070; e8 (-82523); e8 2486] c.
Definition n_to_epsilon (n : xr) : xr :=
  horner [e8 (-654870813); e8 (-215040843); e8 (-28993623); e8 (-4099376); e8 (-46837); e8 (-22305)] n
  + exponential1d (e8 748787292) (e8 268760550) n.
Definition p0502_to_epsilon (p : xr) : xr :=
  horner [e8 109339566; e8 (-14524911); e8 50361697; e8 (-12158090); e8 2533795; e8 (-196243); e8 9081] p
  + exponential1d (e8 3312881) (e8 183616642) p.
