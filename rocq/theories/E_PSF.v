(** Combined statements, concrete cases and witnesses for make_grid and PSFConvolvedModel2D. *)
From Coq Require Import String.
From Verif Require Import Base Num Numpy L_Numpy S_Photometry L_Photometry M_PSF S_PSF L_PSF L_PSF2 L_PSF3 L_PSF4 L_PSF5.
From Verif Require Import M_Wrap S_Wrap L_Wrap.
Local Open Scope string_scope.
Local Open Scope list_scope.

Ltac flist := repeat match goal with
  | |- _ :: _ = _ :: _ => apply f_equal2
  | |- Fin _ = Fin _ => apply f_equal
  | |- Ok _ = Ok _ => apply f_equal
  | |- [] = [] => reflexivity
  end.

(** ** Grid *)
Example grid_example : let g := make_grid 2 (Fin 3, Fin 0) 2 in
  map (fun i => px (fst g) 0 i) [0; 1; 2; 3]%nat = map Fin [11/4; 13/4; 15/4; 17/4]%R /\ inx (fst g) = 4%nat.
Proof.
  cbv zeta. rewrite make_grid_xr by lia. unfold rimg. cbn [fst px inx map].
  split; [|reflexivity]. unfold gx. change (Z.to_nat 2) with 2%nat. cbn [INR Nat.div]. flist; field.
Qed.

(** ** Transparency *)
Definition plain_state : pst xr := mkpst None None None true 0 0 None None.
Lemma plain_reachable rotate sm : reachable rotate sm plain_state.
Proof. exists None, VNone, VNone, plain_state, []. split; reflexivity. Qed.

Example transparent_example rotate f ps pa :
  fst (evaluate rotate (mksm ["a"] (Fresh f)) plain_state (map Fin [7; 5; 6; 5]%R) (map Fin [2; 2; 0; 3]%R) ps pa) =
  Ok [f ps (Fin 7) (Fin 2); f ps (Fin 5) (Fin 2); f ps (Fin 6) (Fin 0); f ps (Fin 5) (Fin 3)].
Proof.
  pose proof (transparent_pixels rotate ["a"] f plain_state 0 0 [7; 5; 6; 5]%Z [2; 2; 0; 3]%Z ps pa (plain_reachable _ _)
    eq_refl eq_refl eq_refl ltac:(discriminate) ltac:(discriminate)) as H.
  cbn [map combine fst snd] in H. rewrite !Rplus_0_l in H. exact H.
Qed.

(** coordinates that are not whole pixels apart are moved to the pixel grid of the smallest one *)
Example not_pixels_example rotate f ps pa :
  fst (evaluate rotate (mksm ["a"] (Fresh f)) plain_state (map Fin [0; 3/2]%R) (map Fin [0; 0]%R) ps pa) =
  Ok [f ps (Fin 0) (Fin 0); f ps (Fin 1) (Fin 0)].
Proof.
  rewrite (transparent rotate ["a"] f plain_state [0; 3/2]%R [0; 0]%R ps pa 0 0); try reflexivity.
  - cbn [combine map fst snd]. unfold pix.
    rewrite (Int_part_spec (0 - 0) 0), (Int_part_spec (3/2 - 0) 1) by lra. rewrite !Rplus_0_l. reflexivity.
  - apply plain_reachable.
  - split; [now left|]. intros x [<-|[<-|[]]]; lra.
  - split; [now left|]. intros x [<-|[<-|[]]]; lra.
Qed.

(** ** Integer oversampling *)
Definition over_state (f : Z) : pst xr := mkpst (Some (OInt f)) None None true 0 0 None None.
Lemma over_reachable rotate sm f : (0 < f)%Z -> reachable rotate sm (over_state f).
Proof.
  intros H. exists None, (VInt f), VNone, (over_state f), []. split; [|reflexivity].
  unfold new. cbn [set_psf fst set_oversample]. destruct (Z.leb_spec f 0); [lia|].
  unfold psf_factor, blank. cbn [with_psf p_psf_over]. rewrite Z.mod_1_r. reflexivity.
Qed.

(** an affine sub-model is reproduced at the requested pixels *)
Lemma affine_reproduced rotate names f a b c (st : pst xr) fz ox oy (zx zy : list Z) ps pa :
  reachable rotate (mksm names (Fresh f)) st -> p_over st = Some (OInt fz) -> p_psf st = None -> p_psf_over st = None ->
  computes f ps (fun x y => a + b * x + c * y)%R -> zx <> [] -> zy <> [] ->
  let rx := map (fun z => ox + IZR z)%R zx in
  let ry := map (fun z => oy + IZR z)%R zy in
  fst (evaluate rotate (mksm names (Fresh f)) st (map Fin rx) (map Fin ry) ps pa) =
  Ok (map (fun p => Fin (a + b * fst p + c * snd p)%R) (combine rx ry)).
Proof.
  intros R Eo Ep Epo Hc Nx Ny. cbv zeta.
  assert (G : forall o (zs : list Z), zs <> [] -> exists z0, is_min (o + IZR z0)%R (map (fun z => o + IZR z)%R zs)).
  { intros o zs Hz. destruct (min_exists (map (fun z => o + IZR z)%R zs)) as [m Hm].
    { destruct zs; [congruence|discriminate]. }
    destruct (Hm) as [H1 _]. apply in_map_iff in H1 as (z0 & <- & _). now exists z0. }
  destruct (G ox zx Nx) as [ax Hax]. destruct (G oy zy Ny) as [ay Hay].
  destruct (oversampled _ _ _ _ _ _ _ _ _ pa _ _ R Eo Ep Epo Hc Hax Hay) as [Pf E]. rewrite E. clear E.
  f_equal. apply map_ext_in. intros [x y] Hp. cbn [fst snd]. f_equal.
  assert (W : forall o a z, pix (o + IZR a) (o + IZR z) = (o + IZR z)%R).
  { intros o a' z. replace (o + IZR z)%R with (o + IZR a' + IZR (z - a'))%R by (rewrite minus_IZR; ring). apply pix_whole. }
  pose proof (in_combine_l _ _ _ _ Hp) as Ix. pose proof (in_combine_r _ _ _ _ Hp) as Iy.
  apply in_map_iff in Ix as (zx1 & <- & _). apply in_map_iff in Iy as (zy1 & <- & _). rewrite !W.
  apply mean_affine. lia.
Qed.

(** x^2 sampled with factor 2: mean of (x-1/4)^2 and (x+1/4)^2 *)
Example square_example rotate ps pa :
  fst (evaluate rotate (mksm [] (Fresh (fun _ x y => nmul x x))) (over_state 2) (map Fin [3]%R) (map Fin [0]%R) ps pa) =
  Ok [Fin (9 + 1/16)%R].
Proof.
  destruct (oversampled rotate [] (fun _ x y => nmul x x) (fun x _ => x * x)%R (over_state 2) 2 [3]%R [0]%R ps pa 3 0) as [_ E];
    try reflexivity.
  - apply over_reachable; lia.
  - intros x y; reflexivity.
  - split; [now left|]. intros x [<-|[]]; lra.
  - split; [now left|]. intros x [<-|[]]; lra.
  - rewrite E. cbn [combine map fst snd]. do 3 f_equal. unfold pix. rewrite (Int_part_spec (3 - 3) 0) by lra.
    unfold mean_samples, sum2. change (Z.to_nat 2) with 2%nat. cbn [sum_to INR]. field.
Qed.

(** ** Windows *)
Lemma window_at_origin rotate names f g (st : pst xr) cx cy size fz rx ry ps pa Mx My x0 y0 i0 j0 :
  reachable rotate (mksm names (Fresh f)) st -> p_over st = Some (OWin cx cy size fz) -> p_psf st = None ->
  p_psf_over st = None -> computes f ps g -> is_min 0 rx -> is_max Mx rx -> is_min 0 ry -> is_max My ry ->
  centre_is names ps cx x0 -> centre_is names ps cy y0 -> window_start x0 size i0 -> window_start y0 size j0 ->
  (1 < fz)%Z -> (0 < size)%Z ->
  (0 <= i0)%Z -> (i0 + size <= pixel_index 0 Mx + 1)%Z -> (0 <= j0)%Z -> (j0 + size <= pixel_index 0 My + 1)%Z ->
  fst (evaluate rotate (mksm names (Fresh f)) st (map Fin rx) (map Fin ry) ps pa) =
  Ok (map (fun p =>
        Fin (if insideb i0 size (pixel_index 0 (fst p)) && insideb j0 size (pixel_index 0 (snd p))
             then mean_samples g (Z.to_nat fz) (pix 0 (fst p)) (pix 0 (snd p))
             else g (pix 0 (fst p)) (pix 0 (snd p)))) (combine rx ry)).
Proof.
  intros. erewrite window_values; eauto. f_equal. apply map_ext. intros [x y]. cbv zeta. cbn [fst snd].
  unfold pix, pixel_index. rewrite !Rplus_0_l. reflexivity.
Qed.

(** the window of an affine model is off by the value of its slope times the first coordinates *)
Lemma window_shift_error rotate names f a b c (st : pst xr) cx cy size fz rx ry ps pa mx Mx my My x0 y0 i0 j0 :
  reachable rotate (mksm names (Fresh f)) st -> p_over st = Some (OWin cx cy size fz) -> p_psf st = None ->
  p_psf_over st = None -> computes f ps (fun x y => a + b * x + c * y)%R -> is_min mx rx -> is_max Mx rx -> is_min my ry -> is_max My ry ->
  centre_is names ps cx x0 -> centre_is names ps cy y0 -> window_start x0 size i0 -> window_start y0 size j0 ->
  (1 < fz)%Z -> (0 < size)%Z ->
  (0 <= i0)%Z -> (i0 + size <= pixel_index mx Mx + 1)%Z -> (0 <= j0)%Z -> (j0 + size <= pixel_index my My + 1)%Z ->
  fst (evaluate rotate (mksm names (Fresh f)) st (map Fin rx) (map Fin ry) ps pa) =
  Ok (map (fun p =>
        Fin (a + b * pix mx (fst p) + c * pix my (snd p)
             - if insideb i0 size (pixel_index mx (fst p)) && insideb j0 size (pixel_index my (snd p))
               then b * mx + c * my else 0)%R) (combine rx ry)).
Proof.
  intros. erewrite window_values; eauto. f_equal. apply map_ext. intros [x y]. cbv zeta. cbn [fst snd]. f_equal.
  unfold pix. destruct (_ && _).
  - rewrite mean_affine by lia. unfold pixel_index. ring.
  - unfold pixel_index. ring.
Qed.

Definition win_state (cx cy size f : Z) : pst xr := mkpst (Some (OWin (VInt cx) (VInt cy) size f)) None None true 0 0 None None.
Lemma win_reachable rotate sm cx cy size f : (0 < f)%Z -> reachable rotate sm (win_state cx cy size f).
Proof.
  intros H. exists None, (VSeq [VInt cx; VInt cy; VInt size; VInt f]), VNone, (win_state cx cy size f), []. split; [|reflexivity].
  unfold new. cbn [set_psf fst set_oversample]. destruct (Z.leb_spec f 0); [lia|].
  unfold psf_factor, blank. cbn [with_psf p_psf_over]. rewrite Z.mod_1_r. reflexivity.
Qed.

Lemma window_start_int z size : window_start (IZR z) size (z - size / 2)%Z.
Proof. exists z. split; auto. left. replace (IZR z - IZR z)%R with 0%R by ring. rewrite Rabs_R0. lra. Qed.

(** 3 x 1 image of the model x at columns 10, 11, 12 with the window on pixel (1, 0): column 11 comes out as 1 *)
Example window_shift_example rotate ps pa :
  fst (evaluate rotate (mksm [] (Fresh (fun _ x y => x))) (win_state 1 0 1 2) (map Fin [10; 11; 12]%R) (map Fin [0; 0; 0]%R) ps pa) =
  Ok [Fin 10; Fin 1; Fin 12].
Proof.
  rewrite (window_shift_error rotate [] (fun _ x y => x) 0 1 0 (win_state 1 0 1 2) (VInt 1) (VInt 0) 1 2 [10; 11; 12]%R [0; 0; 0]%R ps pa
    10 12 0 0 1 0 1 0); try reflexivity; try lia.
  - cbn [combine map fst snd]. unfold pix, pixel_index.
    rewrite (Int_part_spec (10 - 10) 0), (Int_part_spec (11 - 10) 1), (Int_part_spec (12 - 10) 2), (Int_part_spec (0 - 0) 0) by lra.
    cbn [insideb Z.leb Z.ltb Z.compare Z.add andb Pos.compare Pos.compare_cont Pos.add]. flist; ring.
  - apply win_reachable; lia.
  - intros x y. f_equal. ring.
  - split; [now left|]. intros x [<-|[<-|[<-|[]]]]; lra.
  - split; [right; right; now left|]. intros x [<-|[<-|[<-|[]]]]; lra.
  - split; [now left|]. intros x [<-|[<-|[<-|[]]]]; lra.
  - split; [now left|]. intros x [<-|[<-|[<-|[]]]]; lra.
  - exact (window_start_int 1 1).
  - exact (window_start_int 0 1).
  - unfold pixel_index. rewrite (Int_part_spec (12 - 10) 2) by lra. lia.
  - unfold pixel_index. rewrite (Int_part_spec (0 - 0) 0) by lra. lia.
Qed.

(** ** Execution in binary64: windows outside the image, and the cache *)
Definition fl (z : Z) : f64 := nofZ z.
Definition no_rotate : img f64 -> f64 -> img f64 := fun m _ => m.
Definition xs33 : list f64 := map fl [0; 1; 2; 0; 1; 2; 0; 1; 2]%Z.
Definition ys33 : list f64 := map fl [0; 0; 0; 1; 1; 1; 2; 2; 2]%Z.
Definition fwin (cx cy size f : Z) : pyv f64 := VSeq [VInt cx; VInt cy; VInt size; VInt f].
Definition feval (sm : submodel f64) (o : pyv f64) (xs ys : list f64) : result (list f64) :=
  do st <- new None o VNone; fst (evaluate no_rotate sm st xs ys [] (fl 0)).
Definition model_x : submodel f64 := mksm [] (Fresh (fun _ x _ => x)).

(** window of 2 pixels starting one pixel left of the image: ValueError *)
Example window_border_example : feval model_x (fwin 0 1 2 2) xs33 ys33 = Err ValueError.
Proof. vm_compute. reflexivity. Qed.
(** window of 2 pixels starting at column -3 = -(image size): silently written at columns 0, 1 *)
Example window_wrap_example : feval model_x (fwin (-2) 1 2 2) xs33 ys33 =
  Ok (map fl [-3; -2; 2; -3; -2; 2; 0; 1; 2]%Z).
Proof. vm_compute. reflexivity. Qed.
(** one-pixel window left of the image: its value is written to two pixels of the row *)
Example window_smear_example : feval model_x (fwin (-2) 1 1 2) xs33 ys33 =
  Ok (map fl [0; 1; 2; -2; -2; 2; 0; 1; 2]%Z).
Proof. vm_compute. reflexivity. Qed.

(** a sub-model that returns its own x argument lets the window write into the cached grid *)
Definition alias_x : submodel f64 := mksm [] ReturnsX.
Definition xs10 : list f64 := map fl [10; 11; 12]%Z.
Definition ys10 : list f64 := map fl [0; 0; 0]%Z.
Lemma alias_cache_witness :
  exists st : pst f64, reachable no_rotate alias_x st /\
    fst (evaluate no_rotate alias_x st xs10 ys10 [] (fl 0)) = Ok (map fl [10; 1; 12]%Z) /\
    fst (evaluate no_rotate alias_x (fresh_object st) xs10 ys10 [] (fl 0)) = Ok (map fl [10; 11; 12]%Z).
Proof.
  pose (st0 := mkpst (T:=f64) (Some (OWin (VInt 1) (VInt 0) 1 2)) None None true 0 0 None None).
  exists (prun no_rotate alias_x st0 [PEval xs10 ys10 [] (fl 0); PSetOver VNone]). split; [|split].
  - exists None, (fwin 1 0 1 2), VNone, st0, [PEval xs10 ys10 [] (fl 0); PSetOver VNone]. split; reflexivity.
  - vm_compute. reflexivity.
  - vm_compute. reflexivity.
Qed.

(** a history with cache hits, a changed factor and a changed range *)
Example cache_history_example : let st := prun no_rotate model_x (mkpst (T:=f64) None None None true 0 0 None None)
     [PEval xs33 ys33 [] (fl 0); PEval xs33 ys33 [] (fl 0); PSetOver (VInt 2); PEval xs33 ys33 [] (fl 0)] in
  p_csize st = 3%Z /\ p_cfactor st = 2%Z /\
  fst (evaluate no_rotate model_x st xs10 ys10 [] (fl 0)) = Ok (map fl [10; 11; 12]%Z).
Proof. vm_compute. auto. Qed.

(** ** Setters *)
Definition delta5 : img f64 := mkimg 1 1 (fun _ _ => fl 1).
(** oversample 4 and psf_oversample 2, then oversample = None: accepted, the factors no longer fit,
    and every evaluation fails *)
Lemma none_accepted_witness :
  exists st : pst f64, new (Some delta5) (VInt 4) (VInt 2) = Ok st /\
    fst (set_oversample st VNone) = Ok tt /\ ~ compatible (snd (set_oversample st VNone)) /\
    fst (evaluate no_rotate model_x (snd (set_oversample st VNone)) xs33 ys33 [] (fl 0)) = Err IndexError.
Proof.
  eexists. split; [vm_compute; reflexivity|]. split; [reflexivity|]. split.
  - intros [_ (_ & H & _)]. vm_compute in H. discriminate.
  - vm_compute. reflexivity.
Qed.
(** psf = None likewise leaves psf_oversample without a PSF *)
Lemma psf_none_witness :
  exists st : pst f64, new (Some delta5) (VInt 4) (VInt 2) = Ok st /\ ~ compatible (fst (set_psf st None)).
Proof.
  eexists. split; [vm_compute; reflexivity|]. intros [_ (_ & _ & H)]. apply H. reflexivity.
Qed.

Example setter_example :
  let st := match new (Some delta5) (VInt 4) (VInt 2) with Ok st => st | Err _ => blank end in
  careful no_rotate model_x st [PSetOver (VInt 3); PSetOver (VInt 6); PSetPsfOver VNone; PSetOver VNone; PSetPsfOver (VInt 1)] /\
  map (fun v => fst (set_oversample st v)) [VInt 3; VInt 6; VInt 0; VFloat (fl 2); fwin 0 0 5 2; VSeq [VInt 1]] =
    [Err ValueError; Ok tt; Err ValueError; Err TypeError; Ok tt; Err ValueError].
Proof. vm_compute. repeat split. Qed.

(** ** Convolution *)
Definition tri (a b : nat) : R := match b with 0%nat => 1/4 | 1%nat => 1/2 | _ => 1/4 end%R.
(** a single bright pixel in the middle of 5 keeps its flux *)
Example flux_example : rconv 1 5 (fun _ i => if Nat.eqb i 2 then 8 else 0)%R 1 3 tri 0 1 = 2%R /\
  sum2 1 5 (rconv 1 5 (fun _ i => if Nat.eqb i 2 then 8 else 0)%R 1 3 tri) = 8%R.
Proof.
  split.
  - unfold rconv, sum2, ext. cbn. change (Pos.to_nat 2) with 2%nat. change (Pos.to_nat 1) with 1%nat. cbn [Nat.eqb]. lra.
  - rewrite (rconv_flux 1 5 _ 0 1 tri).
    + unfold sum2. cbn. lra.
    + intros j i Hj Hi H. destruct (Nat.eqb_spec i 2) as [->|]; [lia|]. exfalso. now apply H.
Qed.

Definition delta_state (o : Z) (p : option Z) : pst xr := mkpst (Some (OInt o)) p (Some (delta_psf 1 1)) true 0 0 None None.
Lemma delta_reachable rotate sm o k : (0 < o)%Z -> (0 < k)%Z -> (o mod k = 0)%Z -> reachable rotate sm (delta_state o (Some k)).
Proof.
  intros Ho Hk Hm. exists (Some (delta_psf 1 1)), (VInt o), (VInt k), (delta_state o (Some k)), []. split; [|reflexivity].
  unfold new. cbn [set_psf fst set_oversample]. destruct (Z.leb_spec o 0); [lia|].
  unfold psf_factor, blank. cbn [with_psf p_psf_over]. rewrite Z.mod_1_r. cbn [Z.eqb negb set_psf_oversample with_over p_psf].
  destruct (Z.leb_spec k 0); [lia|]. unfold over_factor. cbn [p_over]. cbn [p_psf_over]. unfold blank; cbn -[Z.modulo]. rewrite ?Hm. reflexivity.
Qed.

Example delta_example rotate ps :
  fst (evaluate rotate (mksm [] (Fresh (fun _ x y => nmul x x))) (delta_state 2 (Some 2%Z)) (map Fin [3]%R) (map Fin [0]%R) ps (Fin 0)) =
  Ok [Fin (9 + 1/16)%R].
Proof.
  rewrite (delta_oversampled rotate [] (fun _ x y => nmul x x) (fun x _ => x * x)%R (delta_state 2 (Some 2%Z)) 1 1 2%Z 2%Z [3]%R [0]%R ps 3 0);
    try reflexivity.
  - cbn [combine map fst snd]. do 3 f_equal. unfold pix. rewrite (Int_part_spec (3 - 3) 0) by lra.
    unfold mean_samples, sum2. change (Z.to_nat 2) with 2%nat. cbn [sum_to INR]. field.
  - apply delta_reachable; reflexivity.
  - intros x y; reflexivity.
  - split; [now left|]. intros x [<-|[]]; lra.
  - split; [now left|]. intros x [<-|[]]; lra.
Qed.

(** image-level statement used for C46 *)
Lemma convolve_flux ny nx g r s p :
  exists h, convolve_same (rimg ny nx g) (rimg (2 * r + 1) (2 * s + 1) p) = rimg ny nx h /\
  ((forall j i, (j < ny)%nat -> (i < nx)%nat -> g j i <> 0%R -> (r <= j /\ j + r < ny /\ s <= i /\ i + s < nx)%nat) ->
   sum2 ny nx h = (sum2 ny nx g * sum2 (2 * r + 1) (2 * s + 1) p)%R) /\
  ((forall j i, (j < ny)%nat -> (i < nx)%nat -> (0 <= g j i)%R) ->
   (forall a b, (a < 2 * r + 1)%nat -> (b < 2 * s + 1)%nat -> (0 <= p a b)%R) ->
   (sum2 ny nx h <= sum2 ny nx g * sum2 (2 * r + 1) (2 * s + 1) p)%R).
Proof.
  exists (rconv ny nx g (2 * r + 1) (2 * s + 1) p). split; [apply convolve_rimg|].
  split; [apply rconv_flux|apply rconv_flux_le].
Qed.

(** ** Wrapping *)
Definition P (s : string) (v : Z) (fx : bool) (b : option f64 * option f64) (td : option unit) : param (T:=f64) unit :=
  mkparam unit s (fl v) fx b td.
Definition gal : table (T:=f64) unit := [P "amplitude" 3 false (Some (fl 0), None) None; P "n" 4 true (None, None) (Some tt)].
Example wrap_example :
  let h := wrun unit [] [WNew unit gal; WWrap unit 0 (no_kwargs unit); WAssign unit 1 "amplitude" (WValue unit (fl 7));
                         WAssign unit 1 "n" (WFixed unit false); WUnwrap unit 1] in
  nth_error h 0 = Some (Plain unit gal) /\
  nth_error h 1 = Some (Wrapped unit 0 [P "amplitude" 7 false (Some (fl 0), None) None; P "n" 4 false (None, None) None; P "psf_pa" 0 false (None, None) None]) /\
  nth_error h 2 = Some (Plain unit [P "amplitude" 7 false (Some (fl 0), None) None; P "n" 4 false (None, None) (Some tt)]) /\
  NoDup (names unit gal).
Proof. cbn. repeat split; try reflexivity. repeat constructor; cbn; intuition discriminate. Qed.

(** fixed={"amplitude": True}: the sub-model's fixed n becomes free *)
Example fixed_keyword_example :
  wrap unit [Plain unit gal] 0 (mkkw unit [] (Some [("amplitude", true)]) None []) =
  Ok ([Plain unit gal; Wrapped unit 0 [P "amplitude" 3 true (Some (fl 0), None) None; P "n" 4 false (None, None) None; P "psf_pa" 0 false (None, None) None]], 1%nat).
Proof. reflexivity. Qed.

(** ** Default bounds *)
Example bounds_example :
  let h := brun (fl 3) binit [BCall true None; BMutate 2 [("n", (None, None))]; BNew [("n", (Some (fl 1), None)); ("x_0", (None, None))]] in
  let '(h', b) := bcall (fl 3) h true (Some 3%nat) in
  dget (nth b h' []) "n" = Some (Some (fl 1), None) /\ dget (nth b h' []) "x_0" = Some (None, None) /\
  dget (nth b h' []) "c_0" = Some (Some (fl 0), Some (fl 2)) /\ dget (nth b h' []) "ellip" = Some (Some (fl 0), Some (nlit 99 100)) /\
  nth 3 h' [] = [("n", (Some (fl 1), None)); ("x_0", (None, None))].
Proof. cbn. repeat split. Qed.

Lemma evaluate_flux (rotate : img xr -> xr -> img xr) names f g (st : pst xr) r s p n mx my ps :
  reachable rotate (mksm names (Fresh f)) st -> computes f ps g ->
  (p_over st = None \/ exists k, p_over st = Some (OInt k)) ->
  p_psf st = Some (rimg (2 * r + 1) (2 * s + 1) p) -> p_psf_over st = None -> (0 < n)%nat ->
  let F := Z.to_nat (over_factor st) in
  let G := fun j i => mean_samples g F (mx + INR i) (my + INR j) in
  let xs := flat_map (fun _ : nat => map (fun i => (mx + INR i)%R) (seq 0 n)) (seq 0 n) in
  let ys := flat_map (fun j => map (fun _ : nat => (my + INR j)%R) (seq 0 n)) (seq 0 n) in
  (forall j i, (j < n)%nat -> (i < n)%nat -> G j i <> 0%R -> (r <= j /\ j + r < n /\ s <= i /\ i + s < n)%nat) ->
  exists l, fst (evaluate rotate (mksm names (Fresh f)) st (map Fin xs) (map Fin ys) ps (Fin 0)) = Ok (map Fin l) /\
    List.length l = (n * n)%nat /\
    rsum l = (sum2 n n G * sum2 (2 * r + 1) (2 * s + 1) p)%R.
Proof.
  intros R C O P1 P2 Hn. apply flux_conserved; auto. destruct O as [->|[k ->]]; exact I.
Qed.

Lemma unwrap_current T (N : Num T) tied (l : list (wop tied)) k s (t : table tied) : Forall wrap_op l ->
  let h := wrun tied [] l in
  nth_error h k = Some (Wrapped tied s t) ->
  exists t0 t1 : table tied,
    nth_error h s = Some (Plain tied t0) /\
    names tied t = names tied t0 ++ [psf_pa] /\
    unwrap tied h k = Ok (h ++ [Plain tied t1], List.length h) /\
    Forall2 (fun p p1 => exists q, In q t /\ pa_name tied q = pa_name tied p /\
       p1 = mkparam tied (pa_name tied p) (pa_value tied q) (pa_fixed tied q) (pa_bounds tied q) (pa_tied tied p)) t0 t1.
Proof.
  intros H h E. destruct (unwrap_history _ _ _ _ H E) as (t0 & E0 & En & Eu & C).
  exists t0, (map (current t) t0). repeat split; auto. clear - C.
  induction t0 as [|p t0 IH]; cbn [map]; constructor.
  - apply C. now left.
  - apply IH. intros q Hq. apply C. now right.
Qed.
