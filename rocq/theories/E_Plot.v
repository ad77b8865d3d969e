(** Concrete figures, computed in doubles, and combined statements. *)
From Coq Require Import String.
From Verif Require Import Base Num Numpy M_Utils M_Photometry M_Petrosian M_Correction M_PSF M_Fitting M_Interp M_Plot S_Correction S_Plot.
From Verif Require L_Plot L_Plot2 L_Plot3 L_Plot4 L_Plot5 L_Plot6 L_Plot7 L_Plot8 L_Plot9 L_Plot10 M_Segm.
Local Open Scope list_scope.

(** ** Petrosian.plot in terms of attributes *)
Section Attr.
  Context {T : Type} {N : Num T} {NL : NumLog T}.
  Variable mk : kind -> list T -> list T -> result (T -> T).
  Lemma plot_drawn o plot_r title unit ax ea lg s a s' : built o ->
    plot mk o plot_r title unit ax ea lg s = (Ok a, s') ->
    let eta := s_eta (p_set o) in
    exists rp re d,
      read mk o A_r_petrosian = Ok (VNum rp) /\ read mk o A_r_petrosian_err = Ok (VNum re) /\ emitted s s' d /\
      a = on ax s /\ cv_cur s' = cv_cur s /\
      (forall b c, In (b, c) d -> b = a \/ (b = cv_cur s /\ c = Ticks true)) /\
      (forall b m, In (b, Ticks m) d <-> b = cv_cur s /\ m = true) /\
      (forall x y e, In (a, Errorbar x y e) d <-> x = d_r (p_data o) /\ y = p_list o /\ e = p_err o) /\
      (forall x l, In (a, VLine x l) d <->
         plot_r = true /\ nisnan rp = false /\ x = rp /\ l = L_rp eta rp (unit_text unit)) /\
      (forall y, In (a, HLine y) d <-> y = n0 \/ plot_r = true /\ y = eta) /\
      (forall x y e, In (a, PointErr x y e) d <->
         plot_r = true /\ nisnan rp = false /\ nisnan re = false /\ x = rp /\ y = eta /\ e = re) /\
      (forall x y, In (a, Point x y) d <->
         plot_r = true /\ nisnan rp = false /\ nisnan re = true /\ x = rp /\ y = eta) /\
      (forall x lo hi, In (a, Fill x lo hi) d <-> shaded ea /\ exists e, p_err o = Some e /\
         x = d_r (p_data o) /\ lo = map2 nsub (p_list o) e /\ hi = map2 nadd (p_list o) e) /\
      (forall t, In (a, XLabel t) d <-> t = radius_axis unit) /\
      (forall t, In (a, Title t) d <-> t = title) /\
      (In (a, Legend) d <-> lg = true).
  Proof.
    intros B H eta. destruct (L_Plot.plot_drawn mk o plot_r title unit ax ea lg s a s' B H) as (rp & re & d & H1 & H2 & R).
    exists rp, re, d. split; [now apply L_Plot9.read_rp|]. split; [now apply L_Plot9.read_rp_err|]. exact R.
  Qed.
End Attr.

Lemma plot_outcome mk (o : petrosian xr) plot_r title unit ax ea lg s : built o ->
  (forall rp re, read mk o A_r_petrosian = Ok (VNum rp) -> read mk o A_r_petrosian_err = Ok (VNum re) ->
     (plot_r = true /\ nisnan rp = false /\ nltb re n0 = true ->
        fst (plot mk o plot_r title unit ax ea lg s) = Err ValueError) /\
     (~ (plot_r = true /\ nisnan rp = false /\ nltb re n0 = true) ->
        fst (plot mk o plot_r title unit ax ea lg s) = Ok (on ax s))) /\
  (forall e, read mk o A_r_petrosian = Err e -> fst (plot mk o plot_r title unit ax ea lg s) = Err e).
Proof.
  intros B. pose proof (L_Plot3.plot_outcome mk o plot_r title unit ax ea lg s B) as H. split.
  - intros rp re H1 H2. apply L_Plot9.read_rp in H1. apply L_Plot9.read_rp_err in H2. rewrite H1, H2 in H. rewrite H.
    destruct plot_r, (nisnan rp), (nltb re n0); cbn [andb negb]; split; intros X; try reflexivity; try (destruct X as (? & ? & ?); discriminate);
    exfalso; apply X; auto.
  - intros e H1. apply L_Plot9.read_rp_fail in H1. rewrite H1 in H. exact H.
Qed.

(** ** examples in doubles *)
Definition q (n d : Z) : f64 := nlit n d.
Definition blank_canvas : canvas (T:=f64) := mkcanvas 7 9 [].

(** profile with one uncertain annulus: the lower curve crosses eta after the upper curve *)
Definition neg_data : pdata f64 := mkdata DFloat (map nofZ [1;2;3;4;5]%Z) (map nofZ [1;2;3;4;5]%Z)
  [q 1 1; q 11173 10000; q 12415 10000; q 12733 10000; q 12862 10000] None (Some [q 0 1; q 0 1; q 393 10000; q 0 1; q 0 1]).
Definition neg_set : psettings f64 := mkset (q 1 5) (q 2 1) (q 99 100) (q 99 100) None 5.
Lemma negative_error : exists o, Petrosian_new neg_data neg_set = Ok o /\
  obj_r_petrosian mk_linear o = Ok (q 2 1) /\ obj_r_petrosian_err mk_linear o = Ok (q (-1) 2) /\
  fst (plot mk_linear o true "Petrosian" (Some "pix"%string) None None true blank_canvas) = Err ValueError.
Proof. eexists. split; [vm_compute; reflexivity|]. vm_compute. auto. Qed.

Definition pl_data : pdata f64 := mkdata DFloat (map nofZ [1;2;3;4]%Z) (map nofZ [1;4;9;16]%Z) (map nofZ [100;180;190;195]%Z) None
  (Some (map nofZ [1;1;1;1]%Z)).
Definition pl_set : psettings f64 := mkset (q 1 5) (q 1 1) (q 99 100) (q 29 100) (Some KLinear) 9.
(** the label of the radius axis is empty without a unit; the tick frame goes to the current axes *)
Lemma plot_example : exists o s', Petrosian_new pl_data pl_set = Ok o /\
  plot mk_linear o true "T" None (Some 3%nat) None false blank_canvas = (Ok 3%nat, s') /\
  In (3%nat, XLabel "") (cv_trace s') /\ In (7%nat, Ticks true) (cv_trace s') /\
  obj_r_petrosian mk_linear o = Ok (q 3 1) /\
  In (3%nat, VLine (q 3 1) (L_rp (q 1 5) (q 3 1) "")) (cv_trace s').
Proof. do 2 eexists. split; [vm_compute; reflexivity|]. split; [vm_compute; reflexivity|]. vm_compute. auto 25. Qed.

(** without uncertainties *)
Definition bare_data : pdata f64 := mkdata DFloat (map nofZ [1;2;3;4]%Z) (map nofZ [1;4;9;16]%Z) (map nofZ [100;180;190;195]%Z) None None.
Definition area_data : pdata f64 := mkdata DFloat (map nofZ [1;2;3;4]%Z) (map nofZ [1;4;9;16]%Z) (map nofZ [100;180;190;195]%Z)
  (Some (map nofZ [0;0;0;0]%Z)) None.
Lemma cog_example : exists o o' o'' s' s'', Petrosian_new pl_data pl_set = Ok o /\ Petrosian_new area_data pl_set = Ok o' /\
  Petrosian_new bare_data pl_set = Ok o'' /\
  plot_cog mk_linear o false "T" None None None (Some (q 1 5)) false blank_canvas = (Ok 7%nat, s') /\
  In (7%nat, Fill (d_r pl_data) (map nofZ [99;179;189;194]%Z) (map nofZ [101;181;191;196]%Z)) (cv_trace s') /\
  fst (plot_cog mk_linear o' true "T" None None None (Some (q 1 5)) false blank_canvas) = Err TypeError /\
  plot_cog mk_linear o'' true "T" None None None (Some (q 1 5)) false blank_canvas = (Ok 7%nat, s'') /\
  exists r, In (7%nat, VLine r (L_total 28 r "")) (cv_trace s'').
Proof.
  do 5 eexists. split; [vm_compute; reflexivity|]. split; [vm_compute; reflexivity|]. split; [vm_compute; reflexivity|].
  split; [vm_compute; reflexivity|]. split; [vm_compute; auto 12|]. split; [vm_compute; reflexivity|].
  split; [vm_compute; reflexivity|]. eexists. vm_compute. auto 25.
Qed.

Lemma radii_example : exists o s', Petrosian_new bare_data pl_set = Ok o /\
  plot_radii mk_linear o 2 (Some "arcsec"%string) blank_canvas = (Ok tt, s') /\ List.length (cv_trace s') = 3%nat /\
  In (2%nat, VLine (q 3 1) (L_rp (q 1 5) (q 3 1) "arcsec")) (cv_trace s').
Proof. do 2 eexists. split; [vm_compute; reflexivity|]. split; [vm_compute; reflexivity|]. vm_compute. auto. Qed.

Lemma imshow_example : exists o s' r, Petrosian_new bare_data pl_set = Ok o /\
  imshow mk_linear NpFloat o (q 10 1, q 20 1) (q 2 1) (q 0 1) blank_canvas = (Ok tt, s') /\
  obj_r_half_light mk_linear o = Ok r /\
  In (7%nat, Ellipse (mkap (q 10 1) (q 20 1) r (ndiv r (q 2 1)) (q 0 1)) (L_name "r_half_light")) (cv_trace s').
Proof.
  do 3 eexists. split; [vm_compute; reflexivity|]. split; [vm_compute; reflexivity|]. split; [vm_compute; reflexivity|].
  vm_compute. auto.
Qed.

(** ** correction grid *)
Definition gtable : table f64 := mktable ["p02"; "u_r_50"; "u_c2080"; "n"]%string
  [[q 1 1; q 1 1; q 2 1; q 1 2]; [q 3 1; q 2 1; q 3 1; q 4 1]; [q 50 1; q 50 1; q 50 1; q 7 1]].
