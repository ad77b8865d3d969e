(** Property theorems for petrofit/segmentation.py: C51-C56, C71-C75. *)
From Coq Require Import String Sorting.Permutation.
From Verif Require Import Base Num Numpy M_Photometry S_Photometry M_PSF S_PetroR M_Fitting S_Fitting M_Segm S_Segm.
From Verif Require L_Segm L_Segm3 L_Segm4 L_Segm5 E_Segm.
Local Open Scope list_scope.

(** C51. *)
Theorem C51_label : forall mem s segm mb,
  exists m, segm_mask mem (AItem s) segm mb = (Ok (Some m), mem) /\ iny m = iny segm /\ inx m = inx segm /\
    forall j i, px m j i = true <-> requested [s] mb (px segm j i).
Proof. exact L_Segm.mask_item. Qed.
Print Assumptions C51_label.

Theorem C51_list : forall mem l segm mb, (nth l mem [] <> [] \/ mb = false) ->
  exists m, fst (segm_mask mem (AList l) segm mb) = Ok (Some m) /\ iny m = iny segm /\ inx m = inx segm /\
    forall j i, px m j i = true <-> requested (nth l mem []) mb (px segm j i).
Proof. exact L_Segm.mask_list. Qed.
Print Assumptions C51_list.

(** an empty list gives None *)
Theorem C51_empty : forall mem l segm, nth l mem [] = [] -> segm_mask mem (AList l) segm true = (Ok None, mem).
Proof. exact L_Segm.mask_empty. Qed.
Print Assumptions C51_empty.

Theorem C51_other : forall mem segm mb, segm_mask mem AOther segm mb = (Err TypeError, mem).
Proof. exact L_Segm.mask_other. Qed.
Print Assumptions C51_other.

Example C51_example :
  exists m, segm_mask [[LInt 2; LCat 1]] (AList 0) E_Segm.labels false = (Ok (Some m), [[LInt 2; LCat 1; LInt 0]]) /\
    px m 0 1 = true /\ px m 1 1 = true /\ px m 3 3 = true.
Proof. exact E_Segm.mask_list_example. Qed.

(** C52. *)
Theorem C52_lists : forall h mem l, (l < List.length mem)%nat ->
  nth l (after mem h) [] = nth l mem [] ++ repeat (LInt 0) (List.length (filter (appends l) h)).
Proof. exact L_Segm.after_list. Qed.
Print Assumptions C52_lists.

Theorem C52_background_sticks : forall mem l h segm j i m, (l < List.length mem)%nat -> existsb (appends l) h = true ->
  fst (segm_mask (after mem h) (AList l) segm true) = Ok (Some m) -> px segm j i = 0%Z -> px m j i = true.
Proof. exact L_Segm.background_sticks. Qed.
Print Assumptions C52_background_sticks.

Theorem C52_background_clean : forall mem l h segm j i m, (l < List.length mem)%nat -> existsb (appends l) h = false ->
  (forall s, In s (nth l mem []) -> s <> LInt 0 /\ s <> LCat 0) ->
  fst (segm_mask (after mem h) (AList l) segm true) = Ok (Some m) -> px segm j i = 0%Z -> px m j i = false.
Proof. exact L_Segm.background_clean. Qed.
Print Assumptions C52_background_clean.

Theorem C52_unchanged : forall mem src segm mb, (mb = true \/ forall l, src <> AList l) ->
  snd (segm_mask mem src segm mb) = mem.
Proof. exact L_Segm.mem_unchanged. Qed.
Print Assumptions C52_unchanged.

Theorem C52_label_independent : forall mem1 mem2 s segm mb,
  fst (segm_mask mem1 (AItem s) segm mb) = fst (segm_mask mem2 (AItem s) segm mb).
Proof. exact L_Segm.item_independent. Qed.
Print Assumptions C52_label_independent.

Example C52_example :
  let mem := [[LInt 1]] in
  let h := [mkcall (AItem (LInt 2)) E_Segm.labels false; mkcall (AList 0) E_Segm.labels false] in
  existsb (appends 0) h = true /\ after mem h = [[LInt 1; LInt 0]] /\
  (exists m, fst (segm_mask mem (AList 0) E_Segm.labels true) = Ok (Some m) /\ px m 1 1 = false) /\
  (exists m, fst (segm_mask (after mem h) (AList 0) E_Segm.labels true) = Ok (Some m) /\ px m 1 1 = true).
Proof. exact E_Segm.history_example. Qed.

(** C53. *)
Theorem C53_masked_image : forall mem src (h : heap xr) image segm fill mb items y,
  valid h image -> items_of mem src = Some items -> (items <> [] \/ mb = false) ->
  iny segm = iny (a_img (deref h image)) -> inx segm = inx (a_img (deref h image)) ->
  fits_type (a_type (deref h image)) (match fill with None => NaN | Some f => f end) y ->
  exists a, masked_segm_image mem src image segm fill mb h =
    (Ok (List.length h, snd (segm_mask mem src segm mb)), h ++ [a]) /\
    a_type a = a_type (deref h image) /\
    iny (a_img a) = iny (a_img (deref h image)) /\ inx (a_img a) = inx (a_img (deref h image)) /\
    forall j i, (j < iny (a_img a))%nat -> (i < inx (a_img a))%nat ->
      (requested items mb (px segm j i) -> px (a_img a) j i = px (a_img (deref h image)) j i) /\
      (~ requested items mb (px segm j i) -> px (a_img a) j i = y).
Proof. exact L_Segm3.masked_new. Qed.
Print Assumptions C53_masked_image.

(** exceptions; the old arrays are unchanged here too *)
Theorem C53_rejected : forall mem src (h : heap xr) image segm fill mb, valid h image ->
  forall e, (items_of mem src = None /\ e = TypeError) \/
    (items_of mem src = Some [] /\ mb = true /\ e = TypeError) \/
    (exists items, items_of mem src = Some items /\ (items <> [] \/ mb = false) /\
       ~ (iny segm = iny (a_img (deref h image)) /\ inx segm = inx (a_img (deref h image))) /\ e = IndexError) \/
    (exists items, items_of mem src = Some items /\ (items <> [] \/ mb = false) /\
       iny segm = iny (a_img (deref h image)) /\ inx segm = inx (a_img (deref h image)) /\
       a_type (deref h image) = DInt /\ (fill = None \/ fill = Some NaN) /\ e = ValueError) ->
  exists t, masked_segm_image mem src image segm fill mb h = (Err e, h ++ t).
Proof. exact L_Segm3.masked_errors. Qed.
Print Assumptions C53_rejected.

Example C53_example : exists a,
  masked_segm_image [] (AItem (LInt 1)) 0 E_Segm.labels None true E_Segm.memory = (Ok (3%nat, []), E_Segm.memory ++ [a]) /\
  px (a_img a) 1 0 = Fin (INR 10) /\ px (a_img a) 1 1 = NaN.
Proof. exact E_Segm.masked_example. Qed.

Example C53_example_rejected :
  fst (masked_segm_image [[]] (AList 0) 0 E_Segm.labels None true E_Segm.memory) = Err TypeError /\
  fst (masked_segm_image [] (AItem (LInt 1)) 0 (mkimg 4 3 (px E_Segm.labels)) None true E_Segm.memory) = Err IndexError /\
  fst (masked_segm_image [] (AItem (LInt 1)) 2 E_Segm.labels None true E_Segm.memory) = Err ValueError.
Proof. exact E_Segm.masked_errors_example. Qed.

(** C54. *)
Theorem C54_centre : forall overlap sigma_clip clipped_stats M O planar linear opts evalM
    k c image segm r_list error cs bg_sub sigma kind mb (h : heap xr) size res,
  valid h image -> valid_error h error -> cutout_side cs r_list = Ok size ->
  fst (source_photometry overlap sigma_clip clipped_stats M O planar linear opts evalM
         k c image segm r_list error cs bg_sub sigma kind mb h) = Ok res ->
  exists r final err mask half, source_row c = Ok r /\
    Z.of_nat (iny final) = size /\ Z.of_nat (inx final) = size /\ size = (2 * half)%Z /\
    (forall j i, (j < iny final)%nat -> (i < inx final)%nat -> px mask j i = true <-> px final j i <> NaN) /\
    radial_photometry overlap k final (Fin (IZR half), Fin (IZR half)) r_list err (Some mask) (c_elong r) (c_theta r) = Ok res.
Proof. exact L_Segm4.centre. Qed.
Print Assumptions C54_centre.

Theorem C54_cutout : forall overlap sigma_clip clipped_stats M O planar linear opts evalM
    k c image segm r_list error cs sigma kind mb (h : heap xr) size,
  usable h image (c_x c) (c_y c) size -> (forall e, error = Some e -> usable h e (c_x c) (c_y c) size) ->
  iny segm = iny (a_img (deref h image)) -> inx segm = inx (a_img (deref h image)) ->
  cutout_side cs r_list = Ok size -> (0 < size)%Z ->
  exists kept m err mask,
    keeps (wanted (c_label c) mb) segm (a_img (deref h image)) kept /\ is_cutout kept (c_x c) (c_y c) size m /\
    error_cutout h error (c_x c) (c_y c) size err /\ mask_of m mask /\
    fst (source_photometry overlap sigma_clip clipped_stats M O planar linear opts evalM
           k (SCat c) image segm r_list error cs false sigma kind mb h) =
    radial_photometry overlap k m (Fin (IZR size / 2), Fin (IZR size / 2)) r_list err (Some mask) (c_elong c) (c_theta c).
Proof. exact L_Segm4.plain. Qed.
Print Assumptions C54_cutout.

Theorem C54_default_side : forall (rs : list R) hi, is_max rs hi ->
  exists n, cutout_side VNone (map Fin rs) = Ok n /\ smallest_even (3 * hi) n.
Proof. exact L_Segm5.side_default. Qed.
Print Assumptions C54_default_side.

Theorem C54_int_side : forall z (rs : list xr),
  exists n, cutout_side (VInt z) rs = Ok n /\ Z.even n = true /\ (z <= n <= z + 1)%Z.
Proof. exact L_Segm3.side_int. Qed.
Print Assumptions C54_int_side.

Theorem C54_float_side : forall x (rs : list xr),
  (forall r, x = Fin r -> 0 <= r -> exists n, cutout_side (VFloat x) rs = Ok n /\ Z.even n = true /\ r - 1 < IZR n <= r + 1)%R /\
  (x = NaN -> cutout_side (VFloat x) rs = Err ValueError) /\ (x = PInf \/ x = NInf -> cutout_side (VFloat x) rs = Err OverflowError).
Proof. exact L_Segm5.side_float. Qed.
Print Assumptions C54_float_side.

Example C54_example : (usable E_Segm.memory 0 (c_x E_Segm.one) (c_y E_Segm.one) 4 /\ usable E_Segm.memory 1 (c_x E_Segm.one) (c_y E_Segm.one) 8) /\
  forall rs : list xr, cutout_side (VInt 3) rs = Ok 4%Z /\ cutout_side (VInt 8) rs = Ok 8%Z.
Proof. exact (conj E_Segm.usable_example E_Segm.side_example). Qed.

Example C54_example_run :
  E_Segm.run64 3 false Clip true = Ok ([E_Segm.fz 11], [E_Segm.fz 3], [nnan]) /\
  E_Segm.run64 3 false Clip false = Ok ([E_Segm.fz 22], [E_Segm.fz 4], [nnan]) /\
  E_Segm.run64 3 true OtherKind false = E_Segm.run64 3 false Clip false /\
  E_Segm.run64 8 true OtherKind false = Err TypeError /\
  E_Segm.run64 8 true Clip true = Ok ([E_Segm.fz (-25)], [E_Segm.fz 3], [nnan]) /\
  E_Segm.run64 8 true Bound true = Ok ([E_Segm.fz (-1)], [E_Segm.fz 3], [nnan]).
Proof. exact E_Segm.run_example. Qed.

(** C55. *)
Theorem C55_sorted : forall argsort (table : list (string * list xr)) key keys, sorts argsort ->
  find (fun c => String.eqb (fst c) key) table = Some (key, keys) ->
  forall reverse, exists o, order_cat argsort table key reverse = Ok o /\
    Permutation o (seq 0 (List.length keys)) /\
    forall a b p q, nth_error o a = Some p -> nth_error o b = Some q -> (a < b)%nat ->
      if reverse then key_le (nth q keys NaN) (nth p keys NaN) else key_le (nth p keys NaN) (nth q keys NaN).
Proof. exact L_Segm.order_cat_sorted. Qed.
Print Assumptions C55_sorted.

Theorem C55_unknown_key : forall argsort (table : list (string * list xr)) key reverse,
  (forall c, In c table -> fst c <> key) -> order_cat argsort table key reverse = Err KeyError.
Proof. exact L_Segm.order_cat_key. Qed.
Print Assumptions C55_unknown_key.

(** NaN keys come first with reverse=True *)
Example C55_example : sorts E_Segm.argsort /\
  order_cat E_Segm.argsort [("label", [Fin 1; Fin 2; Fin 3; Fin 4]); ("area", [Fin 5; NaN; PInf; Fin 2])]%string "area"%string true
  = Ok [1; 2; 0; 3]%nat.
Proof. exact (conj E_Segm.argsort_sorts E_Segm.order_example). Qed.

(** C56. *)
Theorem C56_other_pixels : forall overlap sigma_clip clipped_stats M O planar linear opts evalM
    k c image1 image2 segm r_list error cs bg_sub sigma kind mb (h : heap xr),
  valid h image1 -> valid h image2 -> valid_error h error ->
  a_type (deref h image1) = a_type (deref h image2) ->
  agree_on (used_labels (c_label c) mb bg_sub) segm (a_img (deref h image1)) (a_img (deref h image2)) ->
  fst (source_photometry overlap sigma_clip clipped_stats M O planar linear opts evalM
         k (SCat c) image1 segm r_list error cs bg_sub sigma kind mb h) =
  fst (source_photometry overlap sigma_clip clipped_stats M O planar linear opts evalM
         k (SCat c) image2 segm r_list error cs bg_sub sigma kind mb h).
Proof. exact L_Segm4.others_irrelevant. Qed.
Print Assumptions C56_other_pixels.

Theorem C56_other_errors : forall overlap sigma_clip clipped_stats M O planar linear opts evalM
    k c image segm r_list e1 e2 cs bg_sub sigma kind mb (h : heap xr),
  valid h image -> valid h e1 -> valid h e2 -> a_type (deref h e1) = a_type (deref h e2) ->
  iny (a_img (deref h e1)) = iny (a_img (deref h image)) -> inx (a_img (deref h e1)) = inx (a_img (deref h image)) ->
  agree_on (wanted (c_label c) mb) segm (a_img (deref h e1)) (a_img (deref h e2)) ->
  fst (source_photometry overlap sigma_clip clipped_stats M O planar linear opts evalM
         k (SCat c) image segm r_list (Some e1) cs bg_sub sigma kind mb h) =
  fst (source_photometry overlap sigma_clip clipped_stats M O planar linear opts evalM
         k (SCat c) image segm r_list (Some e2) cs bg_sub sigma kind mb h).
Proof. exact L_Segm4.errors_irrelevant. Qed.
Print Assumptions C56_other_errors.

(** every array that existed before the call is unchanged, whatever the outcome *)
Theorem C56_arguments_unchanged : forall overlap sigma_clip clipped_stats M O planar linear opts evalM
    k src image segm r_list error cs bg_sub sigma kind mb (h : heap xr), valid h image -> valid_error h error ->
  exists t, snd (source_photometry overlap sigma_clip clipped_stats M O planar linear opts evalM
                   k src image segm r_list error cs bg_sub sigma kind mb h) = h ++ t.
Proof. exact L_Segm4.arguments_unchanged. Qed.
Print Assumptions C56_arguments_unchanged.

Example C56_example : forall mb,
  agree_on (used_labels 1 mb true) E_Segm.labels E_Segm.picture E_Segm.picture2 /\ px E_Segm.picture 3 3 <> px E_Segm.picture2 3 3.
Proof. exact E_Segm.agree_example. Qed.

(** C71. *)
Theorem C71_amplitude : forall (iso : xr -> result xr) (r : pyv xr) x, (r = VFloat x \/ exists z, r = VInt z /\ x = Fin (IZR z)) ->
  (forall a, iso x = Ok a -> get_amplitude_at_r iso r = Ok a) /\
  (forall e, iso x = Err e -> get_amplitude_at_r iso r = Ok NaN).
Proof. exact L_Segm.amplitude. Qed.
Print Assumptions C71_amplitude.

Example C71_example :
  get_amplitude_at_r (fun r => if (r <? Fin 1)%num then Err ValueError else Ok (Fin 7)) (VFloat NInf) = Ok NaN /\
  get_amplitude_at_r (fun r => if (r <? Fin 1)%num then Err ValueError else Ok (Fin 7)) (VFloat PInf) = Ok (Fin 7).
Proof. exact (conj eq_refl eq_refl). Qed.

(** C72. *)
Theorem C72_disc_inside : forall r side, (0 < r)%R -> smallest_even (3 * r) side ->
  (disc_inside r side <-> (r <= 1/2 \/ 2/3 < r)%R).
Proof. exact L_Segm5.disc_inside_iff. Qed.
Print Assumptions C72_disc_inside.

(** with C54_default_side *)
Theorem C72_default_cutout : forall (rs : list R) hi, is_max rs hi -> (0 < hi)%R ->
  exists n, cutout_side VNone (map Fin rs) = Ok n /\ (disc_inside hi n <-> (hi <= 1/2 \/ 2/3 < hi)%R).
Proof. exact L_Segm5.default_disc. Qed.
Print Assumptions C72_default_cutout.

Example C72_example : disc_inside (1/2) 2 /\ ~ disc_inside (3/5) 2 /\ disc_inside 1 4 /\ smallest_even (3 * (3/5)) 2.
Proof. exact E_Segm.disc_example. Qed.

(** C73. *)
Theorem C73_catalog : forall I S C (detect : I -> result (option S)) deblend_ (catalog : I -> option S -> result C) image deblend cat segm d,
  make_catalog I S C detect deblend_ catalog image deblend = Ok (cat, segm, d) <->
  detect image = Ok segm /\
  if deblend then deblend_ image segm = Ok d /\ catalog image d = Ok cat else d = None /\ catalog image segm = Ok cat.
Proof. exact L_Segm5.catalog_ok. Qed.
Print Assumptions C73_catalog.

Theorem C73_errors : forall I S C (detect : I -> result (option S)) (deblend_ : I -> option S -> result (option S))
    (catalog : I -> option S -> result C) image (deblend : bool) e,
  (detect image = Err e \/
   (exists segm, detect image = Ok segm /\
     if deblend then deblend_ image segm = Err e \/ exists d, deblend_ image segm = Ok d /\ catalog image d = Err e
     else catalog image segm = Err e)) ->
  make_catalog I S C detect deblend_ catalog image deblend = Err e.
Proof. exact L_Segm5.catalog_errors. Qed.
Print Assumptions C73_errors.

Example C73_example :
  make_catalog nat nat nat (fun i => Ok (Some (i + 1))) (fun i s => Ok (option_map (fun s => 10 * s) s))
    (fun i s => match s with Some s => Ok (i + s) | None => Err ValueError end) 2 true = Ok (32, Some 3, Some 30) /\
  make_catalog nat nat nat (fun i => Ok (Some (i + 1))) (fun i s => Ok (option_map (fun s => 10 * s) s))
    (fun i s => match s with Some s => Ok (i + s) | None => Err ValueError end) 2 false = Ok (5, Some 3, None).
Proof. exact (conj eq_refl eq_refl). Qed.

(** C74. *)
Theorem C74_few_pixels : forall overlap sigma_clip clipped_stats M O planar linear opts evalM
    k c image segm r_list error cs sigma kind mb (h : heap xr) size s l,
  usable h image (c_x c) (c_y c) size -> (forall e, error = Some e -> usable h e (c_x c) (c_y c) size) ->
  iny segm = iny (a_img (deref h image)) -> inx segm = inx (a_img (deref h image)) ->
  cutout_side cs r_list = Ok size -> (0 < size)%Z ->
  background h image segm (c_x c) (c_y c) size s ->
  row_major (fun j i => (j < iny s)%nat /\ (i < inx s)%nat /\ px s j i <> NaN) l -> (List.length l <= 10)%nat ->
  fst (source_photometry overlap sigma_clip clipped_stats M O planar linear opts evalM
         k (SCat c) image segm r_list error cs true sigma kind mb h) =
  fst (source_photometry overlap sigma_clip clipped_stats M O planar linear opts evalM
         k (SCat c) image segm r_list error cs false sigma kind mb h).
Proof. exact L_Segm4.few_skipped. Qed.
Print Assumptions C74_few_pixels.

Theorem C74_clip : forall overlap sigma_clip clipped_stats M O planar linear opts evalM
    k c image segm r_list error cs sigma mb (h : heap xr) size,
  usable h image (c_x c) (c_y c) size -> (forall e, error = Some e -> usable h e (c_x c) (c_y c) size) ->
  iny segm = iny (a_img (deref h image)) -> inx segm = inx (a_img (deref h image)) ->
  cutout_side cs r_list = Ok size -> (0 < size)%Z ->
  exists kept m s l err,
    keeps (wanted (c_label c) mb) segm (a_img (deref h image)) kept /\ is_cutout kept (c_x c) (c_y c) size m /\
    background h image segm (c_x c) (c_y c) size s /\
    row_major (fun j i => (j < iny s)%nat /\ (i < inx s)%nat /\ px s j i <> NaN) l /\
    error_cutout h error (c_x c) (c_y c) size err /\
    ((10 < List.length l)%nat ->
     let values {A} (a : img A) := map (fun p => px a (fst p) (snd p)) l in
     let fit := ft_run linear false planar (mkfd (map snd l) (map fst l) (values s) (Some (values (sigma_clip s sigma))) None)
                  (if ft_iterative linear then Some opts else None) in
     let res := fst (source_photometry overlap sigma_clip clipped_stats M O planar linear opts evalM
                       k (SCat c) image segm r_list error cs true sigma Clip mb h) in
     (forall e, fit = Err e -> res = Err e) /\
     (forall fm f g, fit = Ok fm -> evalM fm = pointwise f -> real_function f g ->
       exists final mask, minus_plane g m final /\ mask_of final mask /\
         res = radial_photometry overlap k final (Fin (IZR size / 2), Fin (IZR size / 2)) r_list err (Some mask) (c_elong c) (c_theta c))).
Proof. exact L_Segm4.subtract_clip. Qed.
Print Assumptions C74_clip.

Theorem C74_bound : forall overlap sigma_clip clipped_stats M O planar linear opts evalM
    k c image segm r_list error cs sg mb (h : heap xr) size,
  usable h image (c_x c) (c_y c) size -> (forall e, error = Some e -> usable h e (c_x c) (c_y c) size) ->
  iny segm = iny (a_img (deref h image)) -> inx segm = inx (a_img (deref h image)) ->
  cutout_side cs r_list = Ok size -> (0 < size)%Z ->
  exists kept m s err,
    keeps (wanted (c_label c) mb) segm (a_img (deref h image)) kept /\ is_cutout kept (c_x c) (c_y c) size m /\
    background h image segm (c_x c) (c_y c) size s /\
    error_cutout h error (c_x c) (c_y c) size err /\
    forall mean std, many_background s -> clipped_stats s = (Fin mean, Fin std) ->
     exists l, row_major (fun j i => (j < iny s)%nat /\ (i < inx s)%nat /\
         exists v, px s j i = Fin v /\ (mean - std * sg <= v <= mean + std * sg)%R) l /\
     let fit := ft_run linear false planar (mkfd (map snd l) (map fst l) (map (fun p => px s (fst p) (snd p)) l) None None)
                  (if ft_iterative linear then Some opts else None) in
     let res := fst (source_photometry overlap sigma_clip clipped_stats M O planar linear opts evalM
                       k (SCat c) image segm r_list error cs true (Fin sg) Bound mb h) in
     (forall e, fit = Err e -> res = Err e) /\
     (forall fm f g, fit = Ok fm -> evalM fm = pointwise f -> real_function f g ->
       exists final mask, minus_plane_clipped g (- sg) m final /\ mask_of final mask /\
         res = radial_photometry overlap k final (Fin (IZR size / 2), Fin (IZR size / 2)) r_list err (Some mask) (c_elong c) (c_theta c)).
Proof. exact L_Segm4.subtract_bound. Qed.
Print Assumptions C74_bound.

Theorem C74_other_type : forall overlap sigma_clip clipped_stats M O planar linear opts evalM
    k c image segm r_list error cs sigma mb (h : heap xr) size s,
  usable h image (c_x c) (c_y c) size -> (forall e, error = Some e -> usable h e (c_x c) (c_y c) size) ->
  iny segm = iny (a_img (deref h image)) -> inx segm = inx (a_img (deref h image)) ->
  cutout_side cs r_list = Ok size -> (0 < size)%Z ->
  background h image segm (c_x c) (c_y c) size s -> many_background s ->
  fst (source_photometry overlap sigma_clip clipped_stats M O planar linear opts evalM
         k (SCat c) image segm r_list error cs true sigma OtherKind mb h) = Err TypeError.
Proof. exact L_Segm4.other_type. Qed.
Print Assumptions C74_other_type.

Example C74_example :
  (background E_Segm.memory 0 E_Segm.labels 0 0 4 (E_Segm.shifted 4 E_Segm.bg_only) /\
   exists l, row_major (fun j i => (j < iny (E_Segm.shifted 4 E_Segm.bg_only))%nat /\ (i < inx (E_Segm.shifted 4 E_Segm.bg_only))%nat /\
       px (E_Segm.shifted 4 E_Segm.bg_only) j i <> NaN) l /\ List.length l = 1%nat) /\
  background E_Segm.memory 0 E_Segm.labels 0 0 8 (E_Segm.shifted 8 E_Segm.bg_only) /\ many_background (E_Segm.shifted 8 E_Segm.bg_only).
Proof. exact (conj E_Segm.background_few E_Segm.background_many). Qed.

(** C75. *)
Theorem C75_row : forall overlap sigma_clip clipped_stats M O planar linear opts evalM
    k c image segm r_list error cs bg_sub sigma kind mb (h : heap xr), valid h image -> valid_error h error ->
  (forall res, fst (source_photometry overlap sigma_clip clipped_stats M O planar linear opts evalM
                      k (SRow c) image segm r_list error cs bg_sub sigma kind mb h) <> Ok res) /\
  (error = None -> forall size, cutout_side cs r_list = Ok size ->
    fst (source_photometry overlap sigma_clip clipped_stats M O planar linear opts evalM
           k (SRow c) image segm r_list error cs bg_sub sigma kind mb h) = Err TypeError).
Proof. exact L_Segm4.row_rejected. Qed.
Print Assumptions C75_row.

Theorem C75_integer_image : forall overlap sigma_clip clipped_stats M O planar linear opts evalM
    k c image segm r_list cs bg_sub sigma kind mb (h : heap xr) size, valid h image ->
  a_type (deref h image) = DInt -> iny segm = iny (a_img (deref h image)) -> inx segm = inx (a_img (deref h image)) ->
  cutout_side cs r_list = Ok size ->
  fst (source_photometry overlap sigma_clip clipped_stats M O planar linear opts evalM
         k (SCat c) image segm r_list None cs bg_sub sigma kind mb h) = Err ValueError.
Proof. exact L_Segm4.int_rejected. Qed.
Print Assumptions C75_integer_image.

Theorem C75_no_overlap : forall overlap sigma_clip clipped_stats M O planar linear opts evalM
    k c image segm r_list cs bg_sub sigma kind mb (h : heap xr) size, valid h image ->
  a_type (deref h image) = DFloat -> iny segm = iny (a_img (deref h image)) -> inx segm = inx (a_img (deref h image)) ->
  (0 < iny segm)%nat -> (0 < inx segm)%nat -> cutout_side cs r_list = Ok size ->
  (0 < size)%Z -> ~ overlaps (a_img (deref h image)) (c_x c) (c_y c) size ->
  fst (source_photometry overlap sigma_clip clipped_stats M O planar linear opts evalM
         k (SCat c) image segm r_list None cs bg_sub sigma kind mb h) = Err ValueError.
Proof. exact L_Segm4.away_rejected. Qed.
Print Assumptions C75_no_overlap.

Example C75_example : a_type (deref E_Segm.memory 2) = DInt /\ valid E_Segm.memory 2 /\
  ~ overlaps E_Segm.picture 6 0 4 /\ overlaps E_Segm.picture 5 0 4.
Proof. exact E_Segm.rejected_example. Qed.
