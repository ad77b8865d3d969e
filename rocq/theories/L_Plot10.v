(** source_photometry with plot=True. *)
From Coq Require Import String.
From Verif Require Import Base Num Numpy M_Utils M_Photometry M_Petrosian M_Correction M_PSF M_Fitting M_Plot S_Correction S_Plot.
From Verif Require Import S_PetroR L_Numpy L_Photometry L_Correction L_FracR L_Plot4 L_Plot7.
From Verif Require M_Segm.
Local Open Scope list_scope.

Section Cutout.
  Context {T : Type} {N : Num T} {NL : NumLog T}.
  Variable overlap : aperture T -> nat -> nat -> option (nat -> nat -> T).
  Variable sigma_clip : img T -> T -> img bool.
  Variable clipped_stats : img T -> T * T.
  Variables M O : Type.
  Variable planar : M.
  Variable linear : fitter (T:=T) M O.
  Variable opts : O.
  Variable evalM : M -> smodel (T:=T).
  Notation cutout := (M_Segm.source_cutout sigma_clip clipped_stats M O planar linear opts evalM).
  Notation photometry := (M_Segm.source_photometry overlap sigma_clip clipped_stats M O planar linear opts evalM).
  Notation photometry_plot := (source_photometry_plot overlap sigma_clip clipped_stats M O planar linear opts evalM).

  (** what happens before the photometry does not depend on what follows *)
  Definition followed {A B} (r : result A * M_Segm.heap T) (F : A -> M_Segm.io (T:=T) B) : result B * M_Segm.heap T :=
    match r with (Ok a, h) => F a h | (Err e, h) => (Err e, h) end.
  Lemma tail_bind {A B C} (m : M_Segm.io (T:=T) C) (g0 : C -> M_Segm.io A) (g1 : C -> M_Segm.io B) (F : A -> M_Segm.io B) h :
    (forall a h', g1 a h' = followed (g0 a h') F) -> M_Segm.bindio m g1 h = followed (M_Segm.bindio m g0 h) F.
  Proof. intros H. unfold M_Segm.bindio. destruct (m h) as [[a|e] h']; [apply H|reflexivity]. Qed.

  Lemma cutout_followed {B} src image segm r_list error size bg sigma kind mb (f : _ -> _ -> _ -> M_Segm.io B) (h : M_Segm.heap T) :
    cutout src image segm r_list error size bg sigma kind mb f h =
    followed (cutout src image segm r_list error size bg sigma kind mb (fun c m e => M_Segm.ret (c, m, e)) h)
      (fun t => f (fst (fst t)) (snd (fst t)) (snd t)).
  Proof. unfold M_Segm.source_cutout. repeat (apply tail_bind; intros). reflexivity. Qed.

  Lemma plotted_same k src image segm r_list error size bg sigma kind mb vmin vmax h s :
    r_list <> [] -> (forall n : nat, exists z, int_of (ndiv (nofnat n) n2) = Ok z) ->
    fst (photometry_plot k src image segm r_list error size bg sigma kind mb vmin vmax h s) =
    photometry k src image segm r_list error size bg sigma kind mb h.
  Proof.
    intros Hr Hn. unfold source_photometry_plot, M_Segm.source_photometry.
    rewrite (cutout_followed _ _ _ _ _ _ _ _ _ _ (fun c final err => M_Segm.ret _)).
    rewrite (cutout_followed _ _ _ _ _ _ _ _ _ _ (fun c final err => M_Segm.lift _)).
    destruct (cutout src image segm r_list error size bg sigma kind mb (fun c m e => M_Segm.ret (c, m, e)) h) as [[[[c final] err]|e] h'];
      [|reflexivity].
    cbn [followed fst snd M_Segm.ret]. unfold M_Segm.lift.
    destruct (radial_photometry overlap k final (ndiv (nofnat (iny final)) n2, ndiv (nofnat (inx final)) n2) r_list err
                (Some (M_Segm.not_nan final)) (M_Segm.c_elong c) (M_Segm.c_theta c)) as [v|e] eqn:P.
    - pose proof (source_run overlap k final (ndiv (nofnat (iny final)) n2, ndiv (nofnat (inx final)) n2) err
        (Some (M_Segm.not_nan final)) (M_Segm.c_elong c) (M_Segm.c_theta c) r_list vmin vmax s v P) as R.
      cbn [fst snd] in R. destruct (Hn (inx final)) as (z1 & E1). destruct (Hn (iny final)) as (z2 & E2). rewrite E1, E2 in R.
      destruct r_list as [|r rs]; [congruence|]. cbn [pymax] in R. rewrite R. reflexivity.
    - pose proof (source_failed overlap k final (ndiv (nofnat (iny final)) n2, ndiv (nofnat (inx final)) n2) err
        (Some (M_Segm.not_nan final)) (M_Segm.c_elong c) (M_Segm.c_theta c) r_list vmin vmax s e P) as R.
      destruct (source_plots _ _ _ _ _ _ _ _ _ _ _ s) as [r s']. cbn [fst] in R. subst r. reflexivity.
  Qed.

  Lemma plotted_empty k src image segm error size bg sigma kind mb vmin vmax h s h' v :
    photometry k src image segm [] error size bg sigma kind mb h = (Ok v, h') ->
    v = ([], [], []) /\
    fst (photometry_plot k src image segm [] error size bg sigma kind mb vmin vmax h s) = (Err ValueError, h').
  Proof.
    unfold source_photometry_plot, M_Segm.source_photometry.
    rewrite (cutout_followed _ _ _ _ _ _ _ _ _ _ (fun c final err => M_Segm.ret _)).
    rewrite (cutout_followed _ _ _ _ _ _ _ _ _ _ (fun c final err => M_Segm.lift _)).
    destruct (cutout src image segm [] error size bg sigma kind mb (fun c m e => M_Segm.ret (c, m, e)) h) as [[[[c final] err]|e] h1];
      [|intros X; discriminate X].
    cbn [followed fst snd M_Segm.ret]. unfold M_Segm.lift. intros E. injection E as <- <-. split; [reflexivity|].
    pose proof (source_run overlap k final (ndiv (nofnat (iny final)) n2, ndiv (nofnat (inx final)) n2) err
        (Some (M_Segm.not_nan final)) (M_Segm.c_elong c) (M_Segm.c_theta c) [] vmin vmax s ([], [], []) eq_refl) as R.
    cbn [pymax] in R. destruct (source_plots _ _ _ _ _ _ _ _ _ _ _ s) as [r s']. cbn [fst] in R. subst r. reflexivity.
  Qed.

  (** the figures *)
  Lemma plotted_calls k src image segm r_list error size bg sigma kind mb vmin vmax h s v h' s' :
    photometry_plot k src image segm r_list error size bg sigma kind mb vmin vmax h s = (Ok v, h', s') ->
    exists d final j i m theta elong hi, emitted s s' d /\ pymax r_list = Ok m /\
      int_of (ndiv (nofnat (inx final)) n2) = Ok j /\ int_of (ndiv (nofnat (iny final)) n2) = Ok i /\
      d = source_calls final (ndiv (nofnat (iny final)) n2, ndiv (nofnat (inx final)) n2) elong theta r_list v vmin hi m j i (cv_next s).
  Proof.
    unfold source_photometry_plot.
    rewrite (cutout_followed _ _ _ _ _ _ _ _ _ _ (fun c final err => M_Segm.ret _)).
    destruct (cutout src image segm r_list error size bg sigma kind mb (fun c m e => M_Segm.ret (c, m, e)) h) as [[[[c final] err]|e] h1];
      [|intros X; discriminate X].
    cbn [followed fst snd M_Segm.ret].
    destruct (radial_photometry overlap k final (ndiv (nofnat (iny final)) n2, ndiv (nofnat (inx final)) n2) r_list err
                (Some (M_Segm.not_nan final)) (M_Segm.c_elong c) (M_Segm.c_theta c)) as [w|e] eqn:P.
    - pose proof (source_run overlap k final (ndiv (nofnat (iny final)) n2, ndiv (nofnat (inx final)) n2) err
        (Some (M_Segm.not_nan final)) (M_Segm.c_elong c) (M_Segm.c_theta c) r_list vmin vmax s w P) as R.
      cbn [fst snd] in R.
      destruct (pymax r_list) as [m|e].
      2:{ destruct (source_plots _ _ _ _ _ _ _ _ _ _ _ s) as [r s1]. cbn [fst] in R. subst r. intros X; discriminate X. }
      destruct (int_of (ndiv (nofnat (inx final)) n2)) as [j|e] eqn:E1.
      2:{ destruct (source_plots _ _ _ _ _ _ _ _ _ _ _ s) as [r s1]. cbn [fst] in R. subst r. intros X; discriminate X. }
      destruct (int_of (ndiv (nofnat (iny final)) n2)) as [i|e] eqn:E2.
      2:{ destruct (source_plots _ _ _ _ _ _ _ _ _ _ _ s) as [r s1]. cbn [fst] in R. subst r. intros X; discriminate X. }
      rewrite R. intros X. injection X as <- <- <-.
      do 8 eexists. split; [reflexivity|]. split; [reflexivity|]. split; [exact E1|]. split; [exact E2|]. reflexivity.
    - pose proof (source_failed overlap k final (ndiv (nofnat (iny final)) n2, ndiv (nofnat (inx final)) n2) err
        (Some (M_Segm.not_nan final)) (M_Segm.c_elong c) (M_Segm.c_theta c) r_list vmin vmax s e P) as R.
      destruct (source_plots _ _ _ _ _ _ _ _ _ _ _ s) as [r s1]. cbn [fst] in R. subst r. intros X; discriminate X.
  Qed.
End Cutout.

Lemma half_int (n : nat) : exists z, int_of (ndiv (nofnat n) n2 : xr) = Ok z.
Proof.
  unfold nofnat, n2. cbn [nofZ ndiv XRnum]. rewrite xdiv_fin by lra. unfold int_of. cbn [ntrunc XRnum xtrunc]. eauto.
Qed.

Section Figures.
  Context {T : Type} {N : Num T} {NL : NumLog T}.
  Variable overlap : aperture T -> nat -> nat -> option (nat -> nat -> T).
  Variable sigma_clip : img T -> T -> img bool.
  Variable clipped_stats : img T -> T * T.
  Variables M O : Type.
  Variable planar : M.
  Variable linear : fitter (T:=T) M O.
  Variable opts : O.
  Variable evalM : M -> smodel (T:=T).

  Lemma figures k src image segm r_list error size bg sigma kind mb vmin vmax h s v h' s' :
    source_photometry_plot overlap sigma_clip clipped_stats M O planar linear opts evalM
      k src image segm r_list error size bg sigma kind mb vmin vmax h s = (Ok v, h', s') ->
    exists d, let a := cv_next s in emitted s s' d /\
      (forall b c, In (b, c) d -> (a <= b < a + 4)%nat) /\
      (forall xs ys, In (S a, Line xs ys) d <-> xs = r_list /\ ys = fst (fst v)) /\
      (forall x l, In (S a, VLine x l) d <-> In x r_list /\ l = L_none) /\
      (forall b ap l, In (b, Ellipse ap l) d -> b = a /\ In (ap_a ap) r_list) /\
      (forall r, In r r_list -> exists ap l, In (a, Ellipse ap l) d /\ ap_a ap = r).
  Proof.
    intros H. apply plotted_calls in H. destruct H as (d & final & j & i & m & theta & elong & hi & E & _ & _ & _ & D).
    exists d. split; [exact E|]. subst d. clear E. set (a := cv_next s). unfold source_calls.
    set (pos := (ndiv (nofnat (iny final)) n2, ndiv (nofnat (inx final)) n2)).
    split; [|split; [|split; [|split]]].
    - intros b c Hin. rewrite !in_app_iff, !in_map_iff in Hin.
      destruct Hin as [(x & X & _)|[(x & X & _)|[(x & X & _)|(x & X & _)]]]; injection X as <- <-; lia.
    - intros xs ys. rewrite !in_app_iff, !in_map_iff. split.
      + intros [(x & X & _)|[(x & X & I)|[(x & X & _)|(x & X & _)]]]; try (injection X; intros; exfalso; lia).
        injection X as ->. destruct I as [I|I]; [injection I as <- <-; auto|].
        apply in_app_or in I. destruct I as [I|I]; [apply in_map_iff in I; destruct I as (? & Y & _); discriminate Y|].
        cbn [In] in I. repeat (destruct I as [I|I]; [discriminate I|]). contradiction.
      + intros (-> & ->). right. left. eexists. split; [reflexivity|]. left. reflexivity.
    - intros x l. rewrite !in_app_iff, !in_map_iff. split.
      + intros [(y & X & _)|[(y & X & I)|[(y & X & _)|(y & X & _)]]]; try (injection X; intros; exfalso; lia).
        injection X as ->. destruct I as [I|I]; [discriminate I|].
        apply in_app_or in I. destruct I as [I|I]; [apply in_map_iff in I; destruct I as (? & Y & ?); injection Y as -> <-; auto|].
        cbn [In] in I. repeat (destruct I as [I|I]; [discriminate I|]). contradiction.
      + intros (I & ->). right. left. exists (VLine x L_none). split; [reflexivity|]. right. apply in_or_app. left.
        apply in_map_iff. eauto.
    - intros b ap l. rewrite !in_app_iff, !in_map_iff. intros [(x & X & I)|[(x & X & I)|[(x & X & I)|(x & X & I)]]]; injection X as <- ->.
      + split; [reflexivity|]. apply in_app_or in I. destruct I as [I|I].
        * cbn [In] in I. repeat (destruct I as [I|I]; [discriminate I|]). contradiction.
        * apply in_map_iff in I. destruct I as (r & R & I). unfold ring in R. injection R as <- <-. exact I.
      + exfalso. destruct I as [I|I]; [discriminate I|]. apply in_app_or in I.
        destruct I as [I|I]; [apply in_map_iff in I; destruct I as (? & Y & _); discriminate Y|].
        cbn [In] in I. repeat (destruct I as [I|I]; [discriminate I|]). contradiction.
      + exfalso. cbn [In] in I. repeat (destruct I as [I|I]; [discriminate I|]). contradiction.
      + exfalso. cbn [In] in I. repeat (destruct I as [I|I]; [discriminate I|]). contradiction.
    - intros r I. unfold ring. do 2 eexists. split.
      + rewrite !in_app_iff. left. apply in_map. apply in_or_app. right. apply in_map_iff. exists r. split; [reflexivity|exact I].
      + reflexivity.
  Qed.
End Figures.

(** the slices *)
Lemma half_val (n : nat) : int_of (ndiv (nofnat n) n2 : xr) = Ok (Z.of_nat (Nat.div n 2)).
Proof.
  unfold nofnat, n2. cbn [nofZ ndiv XRnum]. rewrite xdiv_fin by lra. unfold int_of. cbn [ntrunc XRnum xtrunc].
  f_equal. unfold Rtrunc.
  assert (E : (IZR (Z.of_nat n) / 2 = IZR (Z.of_nat (n / 2)) + IZR (Z.of_nat (n mod 2)) / 2)%R).
  { rewrite (Nat.div_mod n 2) at 1 by lia. rewrite Nat2Z.inj_add, Nat2Z.inj_mul, plus_IZR, mult_IZR. cbn [Z.of_nat Pos.of_succ_nat Pos.succ]. lra. }
  assert (B : (0 <= IZR (Z.of_nat (n mod 2)) / 2 < 1)%R).
  { pose proof (Nat.mod_upper_bound n 2 ltac:(lia)).
    assert (n mod 2 = 0 \/ n mod 2 = 1) as [->| ->] by lia; cbn [Z.of_nat Pos.of_succ_nat]; lra. }
  assert (P : (0 <= IZR (Z.of_nat (n / 2)))%R) by (apply (IZR_le 0); lia).
  rewrite E. rewrite Rleb_true by lra. apply Int_part_spec; lra.
Qed.

Local Ltac nope := match goal with X : pair _ _ = pair _ _ |- _ => injection X; intros; exfalso; lia end.
Section Slices.
  Variable overlap : aperture xr -> nat -> nat -> option (nat -> nat -> xr).
  Variable sigma_clip : img xr -> xr -> img bool.
  Variable clipped_stats : img xr -> xr * xr.
  Variables M O : Type.
  Variable planar : M.
  Variable linear : fitter (T:=xr) M O.
  Variable opts : O.
  Variable evalM : M -> smodel (T:=xr).

  Lemma slices k src image segm (rs : list R) rmax error size bg sigma kind mb vmin vmax h s v h' s' :
    is_max rs rmax ->
    source_photometry_plot overlap sigma_clip clipped_stats M O planar linear opts evalM
      k src image segm (map Fin rs) error size bg sigma kind mb vmin vmax h s = (Ok v, h', s') ->
    exists d shown, let a := cv_next s in emitted s s' d /\
      (forall m lo hi, In (a, Image m lo hi) d -> m = shown /\ lo = vmin) /\ (exists hi, In (a, Image shown vmin hi) d) /\
      (forall xs ys, In (a + 2, Line xs ys)%nat d <->
         xs = map (fun i => Fin (INR i)) (seq 0 (inx shown)) /\
         ys = map (fun i => px shown (Nat.div (inx shown) 2) i) (seq 0 (inx shown))) /\
      (forall xs ys, In (a + 3, Line xs ys)%nat d <->
         xs = map (fun j => Fin (INR j)) (seq 0 (iny shown)) /\
         ys = map (fun j => px shown j (Nat.div (iny shown) 2)) (seq 0 (iny shown))) /\
      (forall b x l, b = 2%nat \/ b = 3%nat -> In (a + b, VLine x l)%nat d <-> l = L_none /\
         exists u, x = Fin (INR (iny shown) / 2 + u) /\ (u = 0 \/ u = rmax \/ u = - rmax)%R).
  Proof.
    intros Hm H. apply plotted_calls in H. destruct H as (d & final & j & i & m & theta & elong & hi & E & Em & Ej & Ei & D).
    exists d, final. split; [exact E|]. subst d. clear E. set (a := cv_next s). unfold source_calls.
    rewrite half_val in Ej, Ei. injection Ej as <-. injection Ei as <-. rewrite !Nat2Z.id.
    rewrite (pymax_is_max _ _ Hm) in Em. injection Em as <-.
    assert (C : ndiv (nofnat (iny final)) n2 = Fin (INR (iny final) / 2)).
    { unfold nofnat, n2. cbn [nofZ ndiv XRnum]. rewrite xdiv_fin by lra. now rewrite <- INR_IZR_INZ. }
    assert (Cn : forall n, map nofnat (seq 0 n) = map (fun i => Fin (INR i)) (seq 0 n)).
    { intros n. apply map_ext. intros q. unfold nofnat. cbn [nofZ XRnum]. now rewrite <- INR_IZR_INZ. }
    cbn [fst snd]. rewrite C.
    replace (a + 2)%nat with (S (S a)) by lia. replace (a + 3)%nat with (S (S (S a))) by lia.
    split; [|split; [|split; [|split]]].
    - intros m lo hi' Hin. rewrite !in_app_iff, !in_map_iff in Hin.
      destruct Hin as [(x & X & I)|[(x & X & I)|[(x & X & I)|(x & X & I)]]]; try nope.
      injection X as ->. apply in_app_or in I. destruct I as [I|I].
      + cbn [In] in I. destruct I as [I|I]; [injection I as <- <- <-; auto|].
        repeat (destruct I as [I|I]; [discriminate I|]). contradiction.
      + apply in_map_iff in I. destruct I as (? & Y & _). discriminate Y.
    - eexists. rewrite !in_app_iff. left. apply in_map. apply in_or_app. left. left. reflexivity.
    - intros xs ys. rewrite !in_app_iff, !in_map_iff. split.
      + intros [(x & X & I)|[(x & X & I)|[(x & X & I)|(x & X & I)]]]; try nope.
        injection X as ->. cbn [In] in I. destruct I as [I|I]; [|repeat (destruct I as [I|I]; [discriminate I|]); contradiction].
        injection I as <- <-. unfold counted, row_of. rewrite map_length, seq_length, Cn. auto.
      + intros (-> & ->). right. right. left. eexists. split; [reflexivity|]. left.
        unfold counted, row_of. now rewrite map_length, seq_length, Cn.
    - intros xs ys. rewrite !in_app_iff, !in_map_iff. split.
      + intros [(x & X & I)|[(x & X & I)|[(x & X & I)|(x & X & I)]]]; try nope.
        injection X as ->. cbn [In] in I. destruct I as [I|I]; [|repeat (destruct I as [I|I]; [discriminate I|]); contradiction].
        injection I as <- <-. unfold counted, column_of. rewrite map_length, seq_length, Cn. auto.
      + intros (-> & ->). right. right. right. eexists. split; [reflexivity|]. left.
        unfold counted, column_of. now rewrite map_length, seq_length, Cn.
    - assert (G : forall x l (y z : cmd (T:=xr)) w, (forall x l, ~ In (VLine x l) (y :: z :: w)) ->
         In (VLine x l) (y :: z :: VLine (Fin (INR (iny final) / 2)) L_none ::
           VLine (nadd (Fin (INR (iny final) / 2)) (Fin rmax)) L_none :: VLine (nsub (Fin (INR (iny final) / 2)) (Fin rmax)) L_none :: w) <->
         l = L_none /\ exists u, x = Fin (INR (iny final) / 2 + u) /\ (u = 0 \/ u = rmax \/ u = - rmax)%R).
      { intros x l y z w Nw. cbn [In]. split.
        - intros [I|[I|[I|[I|[I|I]]]]].
          + exfalso. apply (Nw x l). left. exact I.
          + exfalso. apply (Nw x l). right. left. exact I.
          + injection I as <- <-. split; auto. exists 0%R. split; auto. now rewrite Rplus_0_r.
          + injection I as <- <-. split; auto. exists rmax. split; auto.
          + injection I as <- <-. split; auto. exists (- rmax)%R. split; auto.
          + exfalso. apply (Nw x l). right. right. exact I.
        - intros (-> & u & -> & [->|[->| ->]]).
          + rewrite Rplus_0_r. auto.
          + auto.
          + auto 6. }
      intros b x l [->| ->]; rewrite !in_app_iff, !in_map_iff.
      + replace (a + 2)%nat with (S (S a)) by lia.
        rewrite <- (G x l (Line (counted (row_of final (Nat.div (inx final) 2))) (row_of final (Nat.div (inx final) 2))) (HLine n0)
          [XLabel "Slice Along X [pix]"; YLabel "Pixel Value"; Ticks true]) by (intros ? ?; cbn [In]; intuition discriminate).
        split.
        * intros [(y & X & I)|[(y & X & I)|[(y & X & I)|(y & X & I)]]]; try nope. injection X as ->. exact I.
        * intros I. right. right. left. eauto.
      + replace (a + 3)%nat with (S (S (S a))) by lia.
        rewrite <- (G x l (Line (counted (column_of final (Nat.div (iny final) 2))) (column_of final (Nat.div (iny final) 2))) (HLine n0)
          [XLabel "Slice Along Y [pix]"; YLabel "Pixel Value"; Ticks true]) by (intros ? ?; cbn [In]; intuition discriminate).
        split.
        * intros [(y & X & I)|[(y & X & I)|[(y & X & I)|(y & X & I)]]]; try nope. injection X as ->. exact I.
        * intros I. right. right. right. eauto.
  Qed.
End Slices.
