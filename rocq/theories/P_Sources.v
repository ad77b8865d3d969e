(** Property theorems: radii in arcsec, source getters, catalog arguments, one-line models (C92-C95). *)
From Coq Require Import String.
From Verif Require Import Base Num Numpy M_Utils M_Petrosian M_Sersic M_Sources Gamma S_Utils S_Sersic S_Sources.
From Verif Require L_Utils2 L_Sources E_CorEx E_Sources.
Local Open Scope R_scope.

(** C92. *)
Theorem C92_arcsec_radii : forall mk (o : petrosian xr) a get, pair_of mk o a get ->
  (forall e w, read mk o a = Err e -> get w = Err e) /\
  (forall w, read mk o a = Ok (VNum NaN) -> get w = Ok NaN) /\
  (forall r w s u, read mk o a = Ok (VNum (Fin r)) -> good_wcs w s u ->
     get w = Ok (Fin (r * (3600 * (s * u)))) /\
     angular_to_pixel {| qval := Fin (r * (3600 * (s * u))); qunit := arcsec |} w = Ok (Fin r)) /\
  (forall r w p q, read mk o a = Ok (VNum (Fin r)) -> scale0 w = Fin p -> scale1 w = Fin q ->
     Rabs (p - q) > 1 / 100000000 + 1 / 100000 * Rabs q -> get w = Err AssertionError).
Proof. exact L_Sources.arcsec_spec. Qed.
Print Assumptions C92_arcsec_radii.

Example C92_example : good_wcs E_Sources.wcs_ex (1/3600) 1 /\
  r_half_light_arcsec E_CorEx.mk_ex E_CorEx.ex_p E_Sources.wcs_ex = Ok (Fin 1) /\
  r_half_light_arcsec E_CorEx.mk_ex E_CorEx.ex_p E_Sources.wcs_oblong = Err AssertionError.
Proof. exact E_Sources.C92_ex. Qed.

(** C93. *)
Theorem C93_getters : forall x y e l v u cells cx cy ce cl co, u <> 0 ->
  under cells "maxval_xindex" cx -> whole cx x -> under cells "maxval_yindex" cy -> whole cy y ->
  under cells "elongation" ce -> number ce e -> under cells "ellipticity" cl -> number cl l ->
  under cells "orientation" co -> angle_deg co (v * u) ->
  let cat := GCat x y (Fin e) (Fin l) {| qval := Fin v; qunit := Fin u |} in
  forall s, s = cat \/ s = GRow cells ->
  get_source_position s = Ok (CInt x, CInt y) /\
  (exists c, get_source_elong s = Ok c /\ number c e) /\
  (exists c, get_source_ellip s = Ok c /\ number c l) /\
  (exists c, get_source_theta s = Ok c /\ angle_rad c (v * u * (PI / 180))).
Proof. exact L_Sources.getters_spec. Qed.
Print Assumptions C93_getters.

Theorem C93_missing : forall cells,
  (without cells "maxval_xindex" \/ without cells "maxval_yindex" -> get_source_position (GRow cells) = Err KeyError) /\
  (without cells "elongation" -> get_source_elong (GRow cells) = Err KeyError) /\
  (without cells "ellipticity" -> get_source_ellip (GRow cells) = Err KeyError) /\
  (without cells "orientation" -> get_source_theta (GRow cells) = Err KeyError) /\
  get_source_position GOther = Err TypeError /\ get_source_elong GOther = Err TypeError /\
  get_source_ellip GOther = Err TypeError /\ get_source_theta GOther = Err TypeError.
Proof. exact L_Sources.getters_missing. Qed.
Print Assumptions C93_missing.

Example C93_example :
  get_source_position (GRow E_Sources.row_ex) = Ok (CInt 5, CInt 7) /\
  (exists c, get_source_theta (GRow E_Sources.row_ex) = Ok c /\ angle_rad c (PI / 2)) /\
  (exists c, get_source_theta (GCat 5 7 (Fin 2) (Fin (1/2)) {| qval := Fin 90; qunit := Fin 1 |}) = Ok c /\
             angle_rad c (PI / 2)).
Proof. exact E_Sources.C93_ex. Qed.

(** C94. *)
Theorem C94_arguments : forall I S C Thr Wcs T
    (det : I -> Thr -> option Z -> result (option S))
    (deb : I -> option S -> option Z -> Z -> T -> result (option S))
    (cat : I -> option S -> option Wcs -> result C) i a thr w d np nl con,
  a = Bare I i \/ a = Holder I i ->
  (forall c s t, make_catalog_args I S C Thr Wcs T det deb cat a thr w d np nl con = Ok (c, s, t) <->
     det i thr np = Ok s /\
     ((d = true /\ deb i s np nl con = Ok t /\ cat i t w = Ok c) \/
      (d = false /\ t = None /\ cat i s w = Ok c))) /\
  (forall e, make_catalog_args I S C Thr Wcs T det deb cat a thr w d np nl con = Err e <->
     det i thr np = Err e \/
     exists s, det i thr np = Ok s /\
       ((d = true /\ (deb i s np nl con = Err e \/ exists t, deb i s np nl con = Ok t /\ cat i t w = Err e)) \/
        (d = false /\ cat i s w = Err e))).
Proof. exact L_Sources.catalog_args_spec. Qed.
Print Assumptions C94_arguments.

Example C94_example :
  make_catalog_args nat nat nat nat nat nat E_Sources.det_ex E_Sources.deb_ex E_Sources.cat_ex
    (Holder nat 9%nat) 3%nat None true (Some 5%Z) 30 7%nat = Ok (19%nat, Some 12%nat, Some 19%nat) /\
  make_catalog_args nat nat nat nat nat nat E_Sources.det_ex E_Sources.deb_ex E_Sources.cat_ex
    (Bare nat 9%nat) 3%nat None false (Some 5%Z) 30 7%nat = Ok (12%nat, Some 12%nat, None) /\
  make_catalog_args nat nat nat nat nat nat E_Sources.det_ex E_Sources.deb_ex E_Sources.cat_ex
    (Bare nat 2%nat) 3%nat None false (Some 5%Z) 30 7%nat = Err TypeError.
Proof. exact E_Sources.C94_ex. Qed.

(** C95. *)
Theorem C95_enclosed_model : forall A re n e,
  0 < value 1000 A -> 0 < value 30 re -> 0 < value 2 n -> value 0 e < 1 ->
  exists L total,
    computes (sersic_enclosed_model (option_map Fin A) (option_map Fin re) (option_map Fin n) (option_map Fin e)) L /\
    (forall b r, half_light (value 2 n) b -> 0 < r ->
       derivable_pt_lim L r
         (2 * PI * r * (1 - value 0 e) * sersic_law (value 1000 A) (value 30 re) (value 2 n) b r)) /\
    L 0 = 0 /\ tends_to_at_infinity L total /\ 2 * L (value 30 re) = total.
Proof. exact L_Sources.models_spec. Qed.
Print Assumptions C95_enclosed_model.

Theorem C95_petrosian_model : forall re n r, 0 < value 1 re -> 0 < value 4 n -> 0 < r ->
  exists v, petrosian_model (option_map Fin re) (option_map Fin n) (Fin r) = Fin v /\ 0 < v < 1 /\
    (forall A e b L, 0 < A -> e < 1 -> half_light (value 4 n) b ->
       sersic_enclosed (Fin r) (Fin A) (Fin (value 1 re)) (Fin (value 4 n)) (Fin e) = Fin L ->
       v = sersic_law A (value 1 re) (value 4 n) b r / (L / (PI * (r * r) * (1 - e)))).
Proof. exact L_Sources.petro_model_spec. Qed.
Print Assumptions C95_petrosian_model.

Example C95_example :
  sersic_enclosed_model (Some (Fin 1)) (Some (Fin 1)) (Some (Fin (1/2))) None (Fin 1) = Fin (PI / ln 2) /\
  petrosian_model None (Some (Fin (1/2))) (Fin 1) = Fin (ln 2).
Proof. exact E_Sources.C95_ex. Qed.
