(** Property theorems for PSF convolution, oversampling, wrapping and default bounds
    (petrofit/modeling/models.py): C39-C47. *)
From Coq Require Import String.
From Verif Require Import Base Num Numpy S_Photometry M_PSF S_PSF M_Wrap S_Wrap.
From Verif Require L_Photometry L_PSF L_PSF2 L_PSF3 L_PSF4 L_PSF5 L_PSFErr L_Wrap E_PSF.
Local Open Scope string_scope.
Local Open Scope list_scope.

(** C39. *)
Theorem C39_symmetric_samples : forall (size f : nat) (ox oy : R), (1 <= f)%nat ->
  exists sx sy : nat -> R,
    make_grid (Z.of_nat size) (Fin ox, Fin oy) (Z.of_nat f) =
      (rimg (size * f) (size * f) (fun _ i => sx i), rimg (size * f) (size * f) (fun j _ => sy j)) /\
    symmetric_samples sx ox size f /\ symmetric_samples sy oy size f /\
    (f = 1%nat -> forall k, sx k = (ox + INR k)%R /\ sy k = (oy + INR k)%R).
Proof. exact L_PSF.make_grid_ok. Qed.
Print Assumptions C39_symmetric_samples.

Example C39_example : let g := make_grid 2 (Fin 3, Fin 0) 2 in
  map (fun i => px (fst g) 0 i) [0; 1; 2; 3]%nat = map Fin [11/4; 13/4; 15/4; 17/4]%R /\ inx (fst g) = 4%nat.
Proof. exact E_PSF.grid_example. Qed.

(** C40. *)
Theorem C40_transparent : forall (rotate : img xr -> xr -> img xr) names f (st : pst xr) ox oy (zx zy : list Z) ps pa,
  reachable rotate (mksm names (Fresh f)) st -> p_over st = None -> p_psf st = None -> p_psf_over st = None ->
  zx <> [] -> zy <> [] ->
  let rx := map (fun z => ox + IZR z)%R zx in
  let ry := map (fun z => oy + IZR z)%R zy in
  fst (evaluate rotate (mksm names (Fresh f)) st (map Fin rx) (map Fin ry) ps pa) =
  Ok (map (fun p => f ps (Fin (fst p)) (Fin (snd p))) (combine rx ry)).
Proof. exact L_PSF2.transparent_pixels. Qed.
Print Assumptions C40_transparent.

(** for coordinates that are not whole pixels apart: moved to the pixel grid of the smallest *)
Theorem C40_any_coordinates : forall (rotate : img xr -> xr -> img xr) names f (st : pst xr) rx ry ps pa mx my,
  reachable rotate (mksm names (Fresh f)) st -> p_over st = None -> p_psf st = None -> p_psf_over st = None ->
  is_min mx rx -> is_min my ry ->
  fst (evaluate rotate (mksm names (Fresh f)) st (map Fin rx) (map Fin ry) ps pa) =
  Ok (map (fun p => f ps (Fin (pix mx (fst p))) (Fin (pix my (snd p)))) (combine rx ry)).
Proof. exact L_PSF2.transparent. Qed.
Print Assumptions C40_any_coordinates.

Example C40_example : forall (rotate : img xr -> xr -> img xr) f ps pa,
  fst (evaluate rotate (mksm ["a"] (Fresh f)) E_PSF.plain_state (map Fin [7; 5; 6; 5]%R) (map Fin [2; 2; 0; 3]%R) ps pa) =
  Ok [f ps (Fin 7) (Fin 2); f ps (Fin 5) (Fin 2); f ps (Fin 6) (Fin 0); f ps (Fin 5) (Fin 3)].
Proof. exact E_PSF.transparent_example. Qed.

Example C40_example_between_pixels : forall (rotate : img xr -> xr -> img xr) f ps pa,
  fst (evaluate rotate (mksm ["a"] (Fresh f)) E_PSF.plain_state (map Fin [0; 3/2]%R) (map Fin [0; 0]%R) ps pa) =
  Ok [f ps (Fin 0) (Fin 0); f ps (Fin 1) (Fin 0)].
Proof. exact E_PSF.not_pixels_example. Qed.

(** C41. *)
Theorem C41_mean : forall (rotate : img xr -> xr -> img xr) names f g (st : pst xr) fz rx ry ps pa mx my,
  reachable rotate (mksm names (Fresh f)) st -> p_over st = Some (OInt fz) -> p_psf st = None -> p_psf_over st = None ->
  computes f ps g -> is_min mx rx -> is_min my ry ->
  (0 < fz)%Z /\
  fst (evaluate rotate (mksm names (Fresh f)) st (map Fin rx) (map Fin ry) ps pa) =
  Ok (map (fun p => Fin (mean_samples g (Z.to_nat fz) (pix mx (fst p)) (pix my (snd p)))) (combine rx ry)).
Proof. exact L_PSF2.oversampled. Qed.
Print Assumptions C41_mean.

Theorem C41_affine : forall (rotate : img xr -> xr -> img xr) names f a b c (st : pst xr) fz ox oy (zx zy : list Z) ps pa,
  reachable rotate (mksm names (Fresh f)) st -> p_over st = Some (OInt fz) -> p_psf st = None -> p_psf_over st = None ->
  computes f ps (fun x y => a + b * x + c * y)%R -> zx <> [] -> zy <> [] ->
  let rx := map (fun z => ox + IZR z)%R zx in
  let ry := map (fun z => oy + IZR z)%R zy in
  fst (evaluate rotate (mksm names (Fresh f)) st (map Fin rx) (map Fin ry) ps pa) =
  Ok (map (fun p => Fin (a + b * fst p + c * snd p)%R) (combine rx ry)).
Proof. exact E_PSF.affine_reproduced. Qed.
Print Assumptions C41_affine.

Example C41_example : forall (rotate : img xr -> xr -> img xr) ps pa,
  fst (evaluate rotate (mksm [] (Fresh (fun _ x y => nmul x x))) (E_PSF.over_state 2) (map Fin [3]%R) (map Fin [0]%R) ps pa) =
  Ok [Fin (9 + 1/16)%R].
Proof. exact E_PSF.square_example. Qed.

(** C42. *)
Theorem C42_from_origin : forall (rotate : img xr -> xr -> img xr) names f g (st : pst xr) cx cy size fz rx ry ps pa Mx My x0 y0 i0 j0,
  reachable rotate (mksm names (Fresh f)) st -> p_over st = Some (OWin cx cy size fz) -> p_psf st = None ->
  p_psf_over st = None -> computes f ps g -> is_min 0 rx -> is_max Mx rx -> is_min 0 ry -> is_max My ry ->
  centre_is names ps cx x0 -> centre_is names ps cy y0 -> window_start x0 size i0 -> window_start y0 size j0 ->
  (1 < fz)%Z -> (0 < size)%Z ->
  (0 <= i0)%Z -> (i0 + size <= pixel_index 0 Mx + 1)%Z -> (0 <= j0)%Z -> (j0 + size <= pixel_index 0 My + 1)%Z ->
  fst (evaluate rotate (mksm names (Fresh f)) st (map Fin rx) (map Fin ry) ps pa) =
  Ok (map (fun p =>
        Fin (if insideb i0 size (pixel_index 0 (fst p)) && insideb j0 size (pixel_index 0 (snd p))
             then mean_samples g (Z.to_nat fz) (pix 0 (fst p)) (pix 0 (snd p))
             else g (pix 0 (fst p)) (pix 0 (snd p)))) (combine rx ry)).
Proof. exact E_PSF.window_at_origin. Qed.
Print Assumptions C42_from_origin.

(** coordinates starting at (mx, my): window pixel (i, j) of the image gets the mean at (i, j) instead of (mx+i, my+j) *)
Theorem C42_shifted : forall (rotate : img xr -> xr -> img xr) names f g (st : pst xr) cx cy size fz rx ry ps pa mx Mx my My x0 y0 i0 j0,
  reachable rotate (mksm names (Fresh f)) st -> p_over st = Some (OWin cx cy size fz) -> p_psf st = None ->
  p_psf_over st = None -> computes f ps g -> is_min mx rx -> is_max Mx rx -> is_min my ry -> is_max My ry ->
  centre_is names ps cx x0 -> centre_is names ps cy y0 -> window_start x0 size i0 -> window_start y0 size j0 ->
  (1 < fz)%Z -> (0 < size)%Z ->
  (0 <= i0)%Z -> (i0 + size <= pixel_index mx Mx + 1)%Z -> (0 <= j0)%Z -> (j0 + size <= pixel_index my My + 1)%Z ->
  fst (evaluate rotate (mksm names (Fresh f)) st (map Fin rx) (map Fin ry) ps pa) =
  Ok (map (fun p =>
        let i := pixel_index mx (fst p) in
        let j := pixel_index my (snd p) in
        Fin (if insideb i0 size i && insideb j0 size j
             then mean_samples g (Z.to_nat fz) (IZR i) (IZR j)
             else g (mx + IZR i)%R (my + IZR j)%R)) (combine rx ry)).
Proof. exact L_PSF2.window_values. Qed.
Print Assumptions C42_shifted.

Theorem C42_shift_error : forall (rotate : img xr -> xr -> img xr) names f a b c (st : pst xr) cx cy size fz rx ry ps pa mx Mx my My x0 y0 i0 j0,
  reachable rotate (mksm names (Fresh f)) st -> p_over st = Some (OWin cx cy size fz) -> p_psf st = None ->
  p_psf_over st = None -> computes f ps (fun x y => a + b * x + c * y)%R ->
  is_min mx rx -> is_max Mx rx -> is_min my ry -> is_max My ry ->
  centre_is names ps cx x0 -> centre_is names ps cy y0 -> window_start x0 size i0 -> window_start y0 size j0 ->
  (1 < fz)%Z -> (0 < size)%Z ->
  (0 <= i0)%Z -> (i0 + size <= pixel_index mx Mx + 1)%Z -> (0 <= j0)%Z -> (j0 + size <= pixel_index my My + 1)%Z ->
  fst (evaluate rotate (mksm names (Fresh f)) st (map Fin rx) (map Fin ry) ps pa) =
  Ok (map (fun p =>
        Fin (a + b * pix mx (fst p) + c * pix my (snd p)
             - if insideb i0 size (pixel_index mx (fst p)) && insideb j0 size (pixel_index my (snd p))
               then b * mx + c * my else 0)%R) (combine rx ry)).
Proof. exact E_PSF.window_shift_error. Qed.
Print Assumptions C42_shift_error.

(** which windows of more than one pixel raise ValueError: all that are not inside the image, except one
    that starts exactly an image width to the left (or above) *)
Theorem C42_border : forall (rotate : img xr -> xr -> img xr) names f g (st : pst xr) cx cy size fz rx ry ps pa mx Mx my My x0 y0 i0 j0,
  reachable rotate (mksm names (Fresh f)) st -> p_over st = Some (OWin cx cy size fz) -> p_psf st = None ->
  p_psf_over st = None -> computes f ps g -> is_min mx rx -> is_max Mx rx -> is_min my ry -> is_max My ry ->
  centre_is names ps cx x0 -> centre_is names ps cy y0 -> window_start x0 size i0 -> window_start y0 size j0 ->
  (1 < fz)%Z -> (0 < size)%Z -> (1 < size)%Z ->
  let n := (Z.max (pixel_index mx Mx) (pixel_index my My) + 1)%Z in
  let fits last first := (0 <= first)%Z /\ (first + size <= last + 1)%Z \/ first = (- n)%Z /\ (size < n)%Z in
  (fst (evaluate rotate (mksm names (Fresh f)) st (map Fin rx) (map Fin ry) ps pa) = Err ValueError <->
   ~ (fits (pixel_index mx Mx) i0 /\ fits (pixel_index my My) j0)) /\
  (fits (pixel_index mx Mx) i0 /\ fits (pixel_index my My) j0 ->
   exists l, fst (evaluate rotate (mksm names (Fresh f)) st (map Fin rx) (map Fin ry) ps pa) = Ok l).
Proof. exact L_PSF2.window_accept. Qed.
Print Assumptions C42_border.

(** a centre that names no parameter of the model *)
Theorem C42_unknown_name : forall (rotate : img xr -> xr -> img xr) names f (st : pst xr) cx cy size fz rx ry ps pa s mx Mx my My,
  reachable rotate (mksm names (Fresh f)) st -> p_over st = Some (OWin cx cy size fz) -> p_psf_over st = None ->
  is_min mx rx -> is_max Mx rx -> is_min my ry -> is_max My ry ->
  ~ In s names -> cx = VStr s \/ (exists x0, centre_is names ps cx x0) /\ cy = VStr s -> (1 < fz)%Z ->
  fst (evaluate rotate (mksm names (Fresh f)) st (map Fin rx) (map Fin ry) ps pa) = Err AssertionError.
Proof. exact L_PSFErr.unknown_name. Qed.
Print Assumptions C42_unknown_name.

(** factor 1: the window has no effect, whatever its centre and size *)
Theorem C42_factor_one : forall (rotate : img xr -> xr -> img xr) names f (st : pst xr) cx cy size rx ry ps pa mx my,
  reachable rotate (mksm names (Fresh f)) st -> p_over st = Some (OWin cx cy size 1) -> p_psf st = None -> p_psf_over st = None ->
  is_min mx rx -> is_min my ry ->
  fst (evaluate rotate (mksm names (Fresh f)) st (map Fin rx) (map Fin ry) ps pa) =
  Ok (map (fun p => f ps (Fin (pix mx (fst p))) (Fin (pix my (snd p)))) (combine rx ry)).
Proof. exact L_PSFErr.factor_one. Qed.
Print Assumptions C42_factor_one.

Example C42_example_names : forall (rotate : img xr -> xr -> img xr) ps pa,
  fst (evaluate rotate (mksm ["slope"] (Fresh (fun _ x _ => x))) (L_PSFErr.named_state 2) (map Fin [1; 2]%R) (map Fin [0; 0]%R) ps pa) = Err AssertionError /\
  fst (evaluate rotate (mksm ["slope"] (Fresh (fun _ x _ => x))) (L_PSFErr.named_state 1) (map Fin [1; 2]%R) (map Fin [0; 0]%R) ps pa) = Ok [Fin 1; Fin 2].
Proof. exact L_PSFErr.named_example. Qed.

Example C42_example_shift : forall (rotate : img xr -> xr -> img xr) ps pa,
  fst (evaluate rotate (mksm [] (Fresh (fun _ x y => x))) (E_PSF.win_state 1 0 1 2) (map Fin [10; 11; 12]%R) (map Fin [0; 0; 0]%R) ps pa) =
  Ok [Fin 10; Fin 1; Fin 12].
Proof. exact E_PSF.window_shift_example. Qed.

Example C42_example_border : E_PSF.feval E_PSF.model_x (E_PSF.fwin 0 1 2 2) E_PSF.xs33 E_PSF.ys33 = Err ValueError.
Proof. exact E_PSF.window_border_example. Qed.

Example C42_example_wrapped : E_PSF.feval E_PSF.model_x (E_PSF.fwin (-2) 1 2 2) E_PSF.xs33 E_PSF.ys33 =
  Ok (map E_PSF.fl [-3; -2; 2; -3; -2; 2; 0; 1; 2]%Z).
Proof. exact E_PSF.window_wrap_example. Qed.

Example C42_example_one_pixel : E_PSF.feval E_PSF.model_x (E_PSF.fwin (-2) 1 1 2) E_PSF.xs33 E_PSF.ys33 =
  Ok (map E_PSF.fl [0; 1; 2; -2; -2; 2; 0; 1; 2]%Z).
Proof. exact E_PSF.window_smear_example. Qed.

(** C43. *)
Theorem C43_cache_invisible : forall (rotate : img xr -> xr -> img xr) names f (st : pst xr) xs ys ps pa,
  reachable rotate (mksm names (Fresh f)) st ->
  fst (evaluate rotate (mksm names (Fresh f)) st xs ys ps pa) =
  fst (evaluate rotate (mksm names (Fresh f)) (fresh_object st) xs ys ps pa).
Proof. exact (fun rotate names f st xs ys ps pa => L_PSF.cache_invisible rotate (mksm names (Fresh f)) st xs ys ps pa eq_refl). Qed.
Print Assumptions C43_cache_invisible.

(** the sub-model must not return its argument array itself *)
Theorem C43_identity_model_refuted : exists st : pst f64, reachable E_PSF.no_rotate (mksm [] ReturnsX) st /\
    fst (evaluate E_PSF.no_rotate (mksm [] ReturnsX) st E_PSF.xs10 E_PSF.ys10 [] (E_PSF.fl 0)) = Ok (map E_PSF.fl [10; 1; 12]%Z) /\
    fst (evaluate E_PSF.no_rotate (mksm [] ReturnsX) (fresh_object st) E_PSF.xs10 E_PSF.ys10 [] (E_PSF.fl 0)) = Ok (map E_PSF.fl [10; 11; 12]%Z).
Proof. exact E_PSF.alias_cache_witness. Qed.
Print Assumptions C43_identity_model_refuted.

Example C43_example : let st := prun E_PSF.no_rotate E_PSF.model_x (mkpst (T:=f64) None None None true 0 0 None None)
     [PEval E_PSF.xs33 E_PSF.ys33 [] (E_PSF.fl 0); PEval E_PSF.xs33 E_PSF.ys33 [] (E_PSF.fl 0); PSetOver (VInt 2); PEval E_PSF.xs33 E_PSF.ys33 [] (E_PSF.fl 0)] in
  p_csize st = 3%Z /\ p_cfactor st = 2%Z /\
  fst (evaluate E_PSF.no_rotate E_PSF.model_x st E_PSF.xs10 E_PSF.ys10 [] (E_PSF.fl 0)) = Ok (map E_PSF.fl [10; 11; 12]%Z).
Proof. exact E_PSF.cache_history_example. Qed.

(** C44. *)
Theorem C44_compatible : forall T (N : Num T) (rotate : img T -> T -> img T) sm psf o k (st0 : pst T) h,
  new psf o k = Ok st0 -> careful rotate sm st0 h -> compatible (prun rotate sm st0 h).
Proof. exact @L_PSF.setters_compatible. Qed.
Print Assumptions C44_compatible.

Theorem C44_rejected_unchanged : forall T (N : Num T) (rotate : img T -> T -> img T) sm (st : pst T) o e,
  is_setter o = true -> fst (pstep rotate sm st o) = Err e -> snd (pstep rotate sm st o) = st.
Proof. exact @L_PSF.rejected_unchanged. Qed.
Print Assumptions C44_rejected_unchanged.

Theorem C44_none_accepted : exists st : pst f64, new (Some E_PSF.delta5) (VInt 4) (VInt 2) = Ok st /\
    fst (set_oversample st VNone) = Ok tt /\ ~ compatible (snd (set_oversample st VNone)) /\
    fst (evaluate E_PSF.no_rotate E_PSF.model_x (snd (set_oversample st VNone)) E_PSF.xs33 E_PSF.ys33 [] (E_PSF.fl 0)) = Err IndexError.
Proof. exact E_PSF.none_accepted_witness. Qed.
Print Assumptions C44_none_accepted.

Theorem C44_psf_none_accepted : exists st : pst f64,
  new (Some E_PSF.delta5) (VInt 4) (VInt 2) = Ok st /\ ~ compatible (fst (set_psf st None)).
Proof. exact E_PSF.psf_none_witness. Qed.
Print Assumptions C44_psf_none_accepted.

(** afterwards no evaluation works *)
Theorem C44_none_breaks_evaluation : forall (rotate : img xr -> xr -> img xr) names f (st : pst xr) k X Y ps pa,
  reachable rotate (mksm names (Fresh f)) st -> p_over st = None -> p_psf_over st = Some k -> (1 < k)%Z ->
  X <> [] -> List.length X = List.length Y ->
  fst (evaluate rotate (mksm names (Fresh f)) st (map Fin X) (map Fin Y) ps pa) = Err IndexError.
Proof. exact L_PSF5.none_breaks. Qed.
Print Assumptions C44_none_breaks_evaluation.

Example C44_example :
  let st := match new (Some E_PSF.delta5) (VInt 4) (VInt 2) with Ok st => st | Err _ => blank end in
  careful E_PSF.no_rotate E_PSF.model_x st [PSetOver (VInt 3); PSetOver (VInt 6); PSetPsfOver VNone; PSetOver VNone; PSetPsfOver (VInt 1)] /\
  map (fun v => fst (set_oversample st v)) [VInt 3; VInt 6; VInt 0; VFloat (E_PSF.fl 2); E_PSF.fwin 0 0 5 2; VSeq [VInt 1]] =
    [Err ValueError; Ok tt; Err ValueError; Err TypeError; Ok tt; Err ValueError].
Proof. exact E_PSF.setter_example. Qed.

(** C45. *)
Theorem C45_wrap : forall T (N : Num T) tied (l : list (wop tied)) k (t : table tied), Forall wrap_op l ->
  let h := wrun tied [] l in
  nth_error h k = Some (Plain tied t) -> ~ In "psf_pa"%string (names tied t) ->
  wrap tied h k (no_kwargs tied) =
    Ok (h ++ [Wrapped tied k (map untied t ++ [fresh_param tied "psf_pa"%string n0])], List.length h).
Proof. exact @L_Wrap.wrap_history. Qed.
Print Assumptions C45_wrap.

Theorem C45_unwrap : forall T (N : Num T) tied (l : list (wop tied)) k s (t : table tied), Forall wrap_op l ->
  let h := wrun tied [] l in
  nth_error h k = Some (Wrapped tied s t) ->
  exists t0 t1 : table tied,
    nth_error h s = Some (Plain tied t0) /\
    names tied t = names tied t0 ++ ["psf_pa"%string] /\
    unwrap tied h k = Ok (h ++ [Plain tied t1], List.length h) /\
    Forall2 (fun p p1 => exists q, In q t /\ pa_name tied q = pa_name tied p /\
       p1 = mkparam tied (pa_name tied p) (pa_value tied q) (pa_fixed tied q) (pa_bounds tied q) (pa_tied tied p)) t0 t1.
Proof. exact E_PSF.unwrap_current. Qed.
Print Assumptions C45_unwrap.

Theorem C45_assignments_local : forall T tied (h : oheap (T:=T) tied) k s w j, j <> k ->
  nth_error (assign tied h k s w) j = nth_error h j.
Proof. exact @L_Wrap.assign_local. Qed.
Print Assumptions C45_assignments_local.

(** a wrapped model is not wrapped again *)
Theorem C45_no_double_wrap : forall T (N : Num T) tied (h : oheap tied) k s (t : table tied) kw,
  nth_error h k = Some (Wrapped tied s t) -> wrap tied h k kw = Err TypeError.
Proof. exact @L_Wrap.wrap_wrapped. Qed.
Print Assumptions C45_no_double_wrap.

(** with fixed=... the flags of the sub-model are not kept *)
Theorem C45_fixed_keyword : forall T (N : Num T) tied (h : oheap tied) k (t : table tied) d,
  nth_error h k = Some (Plain tied t) -> NoDup (names tied t) -> ~ In "psf_pa"%string (names tied t) ->
  unique_keys d -> (forall s, In s (map fst d) -> In s (names tied t) \/ s = "psf_pa"%string) ->
  exists t', wrap tied h k (mkkw tied [] (Some d) None []) = Ok (h ++ [Wrapped tied k t'], List.length h) /\
    names tied t' = names tied t ++ ["psf_pa"%string] /\
    forall p, In p t' -> pa_fixed tied p = match dget d (pa_name tied p) with Some b => b | None => false end.
Proof. exact @L_Wrap.wrap_fixed_keyword. Qed.
Print Assumptions C45_fixed_keyword.

Example C45_example :
  let h := wrun unit [] [WNew unit E_PSF.gal; WWrap unit 0 (no_kwargs unit); WAssign unit 1 "amplitude" (WValue unit (E_PSF.fl 7));
                         WAssign unit 1 "n" (WFixed unit false); WUnwrap unit 1] in
  nth_error h 0 = Some (Plain unit E_PSF.gal) /\
  nth_error h 1 = Some (Wrapped unit 0 [E_PSF.P "amplitude" 7 false (Some (E_PSF.fl 0), None) None; E_PSF.P "n" 4 false (None, None) None; E_PSF.P "psf_pa" 0 false (None, None) None]) /\
  nth_error h 2 = Some (Plain unit [E_PSF.P "amplitude" 7 false (Some (E_PSF.fl 0), None) None; E_PSF.P "n" 4 false (None, None) (Some tt)]) /\
  NoDup (names unit E_PSF.gal).
Proof. exact E_PSF.wrap_example. Qed.

Example C45_example_fixed :
  wrap unit [Plain unit E_PSF.gal] 0 (mkkw unit [] (Some [("amplitude", true)]) None []) =
  Ok ([Plain unit E_PSF.gal; Wrapped unit 0 [E_PSF.P "amplitude" 3 true (Some (E_PSF.fl 0), None) None; E_PSF.P "n" 4 false (None, None) None; E_PSF.P "psf_pa" 0 false (None, None) None]], 1%nat).
Proof. exact E_PSF.fixed_keyword_example. Qed.

(** C46. *)
Theorem C46_linear : forall ny nx c (g1 g2 : nat -> nat -> R) ph pw p, exists h1 h2 : nat -> nat -> R,
  convolve_same (rimg ny nx g1) (rimg ph pw p) = rimg ny nx h1 /\
  convolve_same (rimg ny nx g2) (rimg ph pw p) = rimg ny nx h2 /\
  convolve_same (rimg ny nx (fun j i => (c * g1 j i + g2 j i)%R)) (rimg ph pw p) = rimg ny nx (fun j i => (c * h1 j i + h2 j i)%R).
Proof. exact L_PSF3.convolve_linear. Qed.
Print Assumptions C46_linear.

(** the whole evaluation is linear in the sub-model, with every kind of oversampling and PSF *)
Theorem C46_evaluate_linear : forall names ps c (f1 f2 f3 : list xr -> xr -> xr -> xr) g1 g2,
  computes f1 ps g1 -> computes f2 ps g2 -> computes f3 ps (fun x y => (c * g1 x y + g2 x y)%R) ->
  forall (rotate : img xr -> xr -> img xr) (s1 s2 s3 : pst xr) rx ry pa,
  reachable rotate (mksm names (Fresh f1)) s1 -> reachable rotate (mksm names (Fresh f2)) s2 -> reachable rotate (mksm names (Fresh f3)) s3 ->
  p_over s1 = p_over s2 -> p_over s2 = p_over s3 -> p_psf s1 = p_psf s2 -> p_psf s2 = p_psf s3 ->
  p_psf_over s1 = p_psf_over s2 -> p_psf_over s2 = p_psf_over s3 ->
  match p_psf s1 with
  | Some p => exists ny nx g, (if neqb pa n0 then p else rotate p pa) = rimg ny nx g
  | None => True
  end ->
  let r1 := fst (evaluate rotate (mksm names (Fresh f1)) s1 (map Fin rx) (map Fin ry) ps pa) in
  let r2 := fst (evaluate rotate (mksm names (Fresh f2)) s2 (map Fin rx) (map Fin ry) ps pa) in
  let r3 := fst (evaluate rotate (mksm names (Fresh f3)) s3 (map Fin rx) (map Fin ry) ps pa) in
  (exists l1 l2, List.length l1 = List.length l2 /\ r1 = Ok (map Fin l1) /\ r2 = Ok (map Fin l2) /\
     r3 = Ok (map Fin (map (fun p => (c * fst p + snd p)%R) (combine l1 l2)))) \/
  (exists e, r1 = Err e /\ r2 = Err e /\ r3 = Err e).
Proof. exact L_PSF4.evaluate_linear. Qed.
Print Assumptions C46_evaluate_linear.

Theorem C46_delta : forall (rotate : img xr -> xr -> img xr) names f g (st : pst xr) r s X Y ps,
  reachable rotate (mksm names (Fresh f)) st -> computes f ps g ->
  p_psf st = Some (rimg (2 * r + 1) (2 * s + 1) (delta r s)) -> p_psf_over st = None ->
  fst (evaluate rotate (mksm names (Fresh f)) st (map Fin X) (map Fin Y) ps (Fin 0)) =
  fst (evaluate rotate (mksm names (Fresh f)) (with_psf (fresh_object st) None) (map Fin X) (map Fin Y) ps (Fin 0)).
Proof. exact L_PSF5.delta_invisible. Qed.
Print Assumptions C46_delta.

(** delta PSF sampled more finely than the image: same as plain oversampling *)
Theorem C46_delta_oversampled : forall (rotate : img xr -> xr -> img xr) names f g (st : pst xr) r s fz p X Y ps mx my,
  reachable rotate (mksm names (Fresh f)) st -> computes f ps g ->
  p_over st = Some (OInt fz) -> p_psf st = Some (rimg (2 * r + 1) (2 * s + 1) (delta r s)) -> p_psf_over st = Some p -> (fz mod p = 0)%Z ->
  is_min mx X -> is_min my Y ->
  fst (evaluate rotate (mksm names (Fresh f)) st (map Fin X) (map Fin Y) ps (Fin 0)) =
  Ok (map (fun q => Fin (mean_samples g (Z.to_nat fz) (pix mx (fst q)) (pix my (snd q)))) (combine X Y)).
Proof. exact L_PSF5.delta_oversampled. Qed.
Print Assumptions C46_delta_oversampled.

Theorem C46_flux : forall ny nx (g : nat -> nat -> R) r s p,
  exists h, convolve_same (rimg ny nx g) (rimg (2 * r + 1) (2 * s + 1) p) = rimg ny nx h /\
  ((forall j i, (j < ny)%nat -> (i < nx)%nat -> g j i <> 0%R -> (r <= j /\ j + r < ny /\ s <= i /\ i + s < nx)%nat) ->
   sum2 ny nx h = (sum2 ny nx g * sum2 (2 * r + 1) (2 * s + 1) p)%R) /\
  ((forall j i, (j < ny)%nat -> (i < nx)%nat -> (0 <= g j i)%R) ->
   (forall a b, (a < 2 * r + 1)%nat -> (b < 2 * s + 1)%nat -> (0 <= p a b)%R) ->
   (sum2 ny nx h <= sum2 ny nx g * sum2 (2 * r + 1) (2 * s + 1) p)%R).
Proof. exact E_PSF.convolve_flux. Qed.
Print Assumptions C46_flux.

(** the same for the values returned for all pixels of an n x n image *)
Theorem C46_evaluate_flux : forall (rotate : img xr -> xr -> img xr) names f g (st : pst xr) r s p n mx my ps,
  reachable rotate (mksm names (Fresh f)) st -> computes f ps g ->
  (p_over st = None \/ exists k, p_over st = Some (OInt k)) ->
  p_psf st = Some (rimg (2 * r + 1) (2 * s + 1) p) -> p_psf_over st = None -> (0 < n)%nat ->
  let F := Z.to_nat (over_factor st) in
  let G := fun j i => mean_samples g F (mx + INR i) (my + INR j) in
  let xs := flat_map (fun _ : nat => map (fun i => (mx + INR i)%R) (seq 0 n)) (seq 0 n) in
  let ys := flat_map (fun j => map (fun _ : nat => (my + INR j)%R) (seq 0 n)) (seq 0 n) in
  (forall j i, (j < n)%nat -> (i < n)%nat -> G j i <> 0%R -> (r <= j /\ j + r < n /\ s <= i /\ i + s < n)%nat) ->
  exists l, fst (evaluate rotate (mksm names (Fresh f)) st (map Fin xs) (map Fin ys) ps (Fin 0)) = Ok (map Fin l) /\
    List.length l = (n * n)%nat /\
    L_Photometry.rsum l = (sum2 n n G * sum2 (2 * r + 1) (2 * s + 1) p)%R.
Proof. exact E_PSF.evaluate_flux. Qed.
Print Assumptions C46_evaluate_flux.

Example C46_example_flux : L_PSF3.rconv 1 5 (fun _ i => if Nat.eqb i 2 then 8 else 0)%R 1 3 E_PSF.tri 0 1 = 2%R /\
  sum2 1 5 (L_PSF3.rconv 1 5 (fun _ i => if Nat.eqb i 2 then 8 else 0)%R 1 3 E_PSF.tri) = 8%R.
Proof. exact E_PSF.flux_example. Qed.

Example C46_example_delta : forall (rotate : img xr -> xr -> img xr) ps,
  fst (evaluate rotate (mksm [] (Fresh (fun _ x y => nmul x x))) (E_PSF.delta_state 2 (Some 2%Z)) (map Fin [3]%R) (map Fin [0]%R) ps (Fin 0)) =
  Ok [Fin (9 + 1/16)%R].
Proof. exact E_PSF.delta_example. Qed.

(** C47. *)
Theorem C47_defaults : forall T (N : Num T) pi (l : list bop) gen ov, Forall program_op l ->
  match ov with Some k => (2 <= k)%nat | None => True end ->
  let h := brun pi binit l in
  exists d : bdict,
    bcall pi h gen ov = (h ++ [d], List.length h) /\
    (forall k, dget d k = override_or (match ov with Some j => dget (nth j h []) k | None => None end) (default_bounds pi gen k)).
Proof. exact @L_Wrap.bounds_fresh. Qed.
Print Assumptions C47_defaults.

Example C47_example :
  let h := brun (E_PSF.fl 3) binit [BCall true None; BMutate 2 [("n", (None, None))]; BNew [("n", (Some (E_PSF.fl 1), None)); ("x_0", (None, None))]] in
  let '(h', b) := bcall (E_PSF.fl 3) h true (Some 3%nat) in
  dget (nth b h' []) "n" = Some (Some (E_PSF.fl 1), None) /\ dget (nth b h' []) "x_0" = Some (None, None) /\
  dget (nth b h' []) "c_0" = Some (Some (E_PSF.fl 0), Some (E_PSF.fl 2)) /\ dget (nth b h' []) "ellip" = Some (Some (E_PSF.fl 0), Some (nlit 99 100)) /\
  nth 3 h' [] = [("n", (Some (E_PSF.fl 1), None)); ("x_0", (None, None))].
Proof. exact E_PSF.bounds_example. Qed.
