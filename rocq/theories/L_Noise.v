(** Small errors in the fluxes. *)
From Verif Require Import Base Num Numpy M_Utils M_Petrosian S_Utils S_Petrosian S_PetroR S_Conv S_Robust S_Noise
  L_Numpy L_Petrosian L_PetroR L_FracR L_Conv L_Conv2 L_Conv3 L_Sersic L_Robust L_Robust2.
Local Open Scope R_scope.

Lemma Rminus_eq_0 x : x - x = 0. Proof. ring. Qed.
Lemma abs_bounds x y : Rabs x <= y -> - y <= x <= y.
Proof. intros H. pose proof (Rle_abs x). pose proof (Rle_abs (- x)) as H'. rewrite Rabs_Ropp in H'. lra. Qed.
Lemma choose n (Q : nat -> R -> Prop) : (forall j, (j < n)%nat -> exists e, 0 < e /\ Q j e) ->
  (forall j e e', Q j e -> 0 < e' <= e -> Q j e') -> exists e, 0 < e /\ forall j, (j < n)%nat -> Q j e.
Proof.
  intros H M. induction n as [|n IH].
  - exists 1. split; [lra|]. intros; lia.
  - destruct IH as (e & He & Hq); [intros; apply H; lia|]. destruct (H n ltac:(lia)) as (e' & He' & Hq').
    exists (Rmin e e'). assert (0 < Rmin e e') by now apply Rmin_glb_lt. split; auto.
    intros j Hj. destruct (Nat.eq_dec j n) as [->|].
    + apply (M _ e'); auto. split; auto. apply Rmin_r.
    + apply (M _ e); auto; [apply Hq; lia|]. split; auto. apply Rmin_l.
Qed.
Lemma near_le d d' y y' : near d y y' -> d <= d' -> near d' y y'.
Proof. intros [L H] Hd. split; auto. intros i Hi. specialize (H i Hi). lra. Qed.
Lemma near_refl d y : 0 <= d -> near d y y.
Proof. intros. split; auto. intros. rewrite Rminus_eq_0, Rabs_R0. lra. Qed.

(** the search is locally constant *)
Lemma search_stable gr v g y i : length g = length y -> clear_cut gr v y i ->
  exists e, 0 < e /\ forall v' y' out, Rabs (v' - v) <= e -> near e y y' ->
    found_radius gr v' g (map Fin y') out -> out = Fin (at_ g i).
Proof.
  intros Lg (c & Hc & Cc & Cb & Ci).
  assert (Gc : gap gr v (at_ y c) < 0) by (unfold gap; destruct gr; lra).
  assert (Gb : forall j, (j < c)%nat -> 0 < gap gr v (at_ y j)) by (intros j Hj; specialize (Cb j Hj); unfold gap; destruct gr; lra).
  assert (GA : forall w z, Rabs (z - w) = Rabs (gap gr w z)) by (intros; apply gap_abs).
  destruct (choose (S c) (fun j e => (j <> i -> 4 * e < Rabs (gap gr v (at_ y j)) - Rabs (gap gr v (at_ y i))) /\
     ((j < c)%nat -> 2 * e < gap gr v (at_ y j)))) as (e & He & Q).
  { intros j Hj. set (u := Rabs (gap gr v (at_ y j)) - Rabs (gap gr v (at_ y i))).
    destruct (Nat.eq_dec j i) as [->|Hij].
    - destruct (Nat.eq_dec i c) as [->|].
      + exists 1. split; [lra|]. split; [congruence|lia].
      + pose proof (Gb i ltac:(lia)). exists (gap gr v (at_ y i) / 4). split; [lra|]. split; [congruence|]. intros. lra.
    - assert (0 < u) by (unfold u; pose proof (Ci j ltac:(lia) Hij) as X; rewrite !GA in X; lra).
      destruct (Nat.eq_dec j c) as [->|].
      + exists (u / 8). split; [lra|]. split; [intros; lra|lia].
      + pose proof (Gb j ltac:(lia)). exists (Rmin (u / 8) (gap gr v (at_ y j) / 4)).
        pose proof (Rmin_l (u / 8) (gap gr v (at_ y j) / 4)). pose proof (Rmin_r (u / 8) (gap gr v (at_ y j) / 4)).
        split; [apply Rmin_glb_lt; lra|]. split; intros; lra. }
  { intros j e e' [H1 H2] He. split; intros X; [specialize (H1 X)|specialize (H2 X)]; lra. }
  exists (Rmin e (- gap gr v (at_ y c) / 4)).
  pose proof (Rmin_l e (- gap gr v (at_ y c) / 4)) as M1. pose proof (Rmin_r e (- gap gr v (at_ y c) / 4)) as M2.
  split; [apply Rmin_glb_lt; lra|]. set (e' := Rmin _ _) in *. intros v' y' out Hv [Ly Hy] F.
  apply search_index in F; [|lia].
  assert (G : forall j, (j < length y)%nat -> Rabs (gap gr v' (at_ y' j) - gap gr v (at_ y j)) <= 2 * e').
  { intros j Hj. specialize (Hy j Hj). apply Rabs_le. apply abs_bounds in Hv. apply abs_bounds in Hy. unfold gap. destruct gr; lra. }
  assert (G' : forall j, (j < length y)%nat -> Rabs (Rabs (gap gr v' (at_ y' j)) - Rabs (gap gr v (at_ y j))) <= 2 * e').
  { intros j Hj. eapply Rle_trans; [apply Rabs_triang_inv2|]. auto. }
  pose proof (G c ltac:(lia)) as Gc'. apply abs_bounds in Gc'.
  destruct F as [[-> N]|(i' & c' & -> & Hc' & G1 & G2 & G3 & G4)].
  - exfalso. specialize (N c ltac:(lia)). lra.
  - assert (c' = c) as ->.
    { destruct (Nat.lt_trichotomy c' c) as [H|[H|H]]; auto; exfalso.
      - pose proof (G c' ltac:(lia)) as X. apply abs_bounds in X. destruct (Q c' ltac:(lia)) as [_ Q2]. specialize (Q2 H). lra.
      - specialize (G2 c H). lra. }
    destruct (Nat.eq_dec i' i) as [->|Hi]; auto. exfalso.
    specialize (G3 i ltac:(lia)). destruct (Q i' ltac:(lia)) as [Q1 _]. specialize (Q1 Hi).
    pose proof (G' i ltac:(lia)) as X. pose proof (G' i' ltac:(lia)) as X'. apply abs_bounds in X. apply abs_bounds in X'. lra.
Qed.

(** the profile *)
Lemma quotient_close x y x' y' d : d < Rabs y -> Rabs (x' - x) <= d -> Rabs (y' - y) <= d ->
  y' <> 0 /\ Rabs (x' / y' - x / y) <= d * (Rabs x + Rabs y) / (Rabs y * (Rabs y - d)).
Proof.
  intros Hd Hx Hy. assert (0 <= d) by (pose proof (Rabs_pos (x' - x)); lra).
  assert (Y : Rabs y - d <= Rabs y').
  { pose proof (Rabs_triang y' (- (y' - y))) as T. rewrite Rabs_Ropp in T. replace (y' + - (y' - y)) with y in T by ring. lra. }
  assert (Y0 : y' <> 0) by (intros ->; rewrite Rabs_R0 in Y; lra).
  assert (y <> 0) by (intros ->; rewrite Rabs_R0 in Hd; lra). split; auto.
  replace (x' / y' - x / y) with (((x' - x) * y - x * (y' - y)) / (y' * y)) by (field; auto).
  unfold Rdiv. rewrite Rabs_mult, Rabs_inv, Rabs_mult.
  assert (N : Rabs ((x' - x) * y - x * (y' - y)) <= d * (Rabs x + Rabs y)).
  { eapply Rle_trans; [unfold Rminus at 1; apply Rabs_triang|]. rewrite Rabs_Ropp, !Rabs_mult.
    pose proof (Rabs_pos x). pose proof (Rabs_pos y). nra. }
  pose proof (Rabs_pos x). pose proof (Rabs_pos y).
  apply Rmult_le_compat; auto using Rabs_pos.
  - left. apply Rinv_0_lt_compat. nra.
  - apply Rinv_le_contravar; nra.
Qed.
Lemma ratio_form A L i : at_ A i <> at_ A (i - 1) -> at_ A i <> 0 -> at_ L i <> 0 ->
  petro_ratio A L i = at_ A i / (at_ A i - at_ A (i - 1)) * (1 - at_ L (i - 1) / at_ L i).
Proof. intros. unfold petro_ratio, local_sb, mean_sb. field. repeat split; auto; lra. Qed.

(** C103: the profile *)
Theorem noise_profile d A L L' : (2 < length A)%nat -> length L = length A -> increasing A -> 0 < at_ A 0 ->
  (forall i, (1 <= i < length A)%nat -> Rabs (at_ L (i - 1)) <= at_ L i /\ d < at_ L i) -> near d L L' ->
  exists P P', calculate_petrosian DFloat (map Fin A) (map Fin L) None None = Ok (P, None) /\
    calculate_petrosian DFloat (map Fin A) (map Fin L') None None = Ok (P', None) /\
    forall i, (1 <= i < length A)%nat -> exists p p', nth_error P i = Some (Fin p) /\ nth_error P' i = Some (Fin p') /\
      Rabs (p' - p) <= at_ A i / (at_ A i - at_ A (i - 1)) * (2 * d / (at_ L i - d)).
Proof.
  intros L2 LL IA A0 H [LL' Hn].
  assert (NA : nonzero_tail A) by now apply inc_nz.
  assert (D0 : 0 <= d) by (pose proof (Hn 0%nat ltac:(lia)) as X; pose proof (Rabs_pos (at_ L' 0 - at_ L 0)); lra).
  assert (NL : nonzero_tail L) by (intros i Hi; destruct (H i ltac:(lia)); lra).
  assert (NL' : nonzero_tail L').
  { intros i Hi. destruct (H i ltac:(lia)). pose proof (Hn i ltac:(lia)) as X. apply abs_bounds in X. lra. }
  destruct (petrosian_formula A L ltac:(lia) ltac:(lia) IA NA NL) as (P & E & LP & P0 & PS).
  destruct (petrosian_formula A L' ltac:(lia) ltac:(lia) IA NA NL') as (P' & E' & LP' & P0' & PS').
  exists P, P'. split; auto. split; auto. intros i Hi. exists (petro_ratio A L i), (petro_ratio A L' i).
  split; [apply PS; lia|]. split; [apply PS'; lia|].
  destruct (H i Hi) as [H1 H2]. pose proof (IA (i - 1)%nat ltac:(lia)) as St. replace (S (i - 1)) with i in St by lia.
  pose proof (at_pos A i A0 IA ltac:(lia)) as Ap.
  rewrite !ratio_form by (try (apply NL; lia); try (apply NL'; lia); lra).
  destruct (quotient_close (at_ L (i - 1)) (at_ L i) (at_ L' (i - 1)) (at_ L' i) d) as [_ Q].
  { rewrite Rabs_pos_eq by lra. lra. } { apply Hn. lia. } { apply Hn. lia. }
  rewrite (Rabs_pos_eq (at_ L i)) in Q by lra.
  set (k := at_ A i / _). assert (0 < k) by (apply Rdiv_lt_0_compat; lra).
  replace (k * (1 - at_ L' (i - 1) / at_ L' i) - k * (1 - at_ L (i - 1) / at_ L i))
    with (k * - (at_ L' (i - 1) / at_ L' i - at_ L (i - 1) / at_ L i)) by ring.
  rewrite Rabs_mult, Rabs_Ropp, (Rabs_pos_eq k) by lra. apply Rmult_le_compat_l; [lra|].
  eapply Rle_trans; [exact Q|]. unfold Rdiv at 1.
  replace (2 * d / (at_ L i - d)) with (d * (at_ L i + at_ L i) * / (at_ L i * (at_ L i - d))) by (field; lra).
  apply Rmult_le_compat_r; [left; apply Rinv_0_lt_compat; nra|]. nra.
Qed.

Lemma profile_len A L : (1 <= length A)%nat -> length (eta_profile A L) = length A.
Proof. intros. unfold eta_profile. cbn [length]. rewrite map_length, seq_length. lia. Qed.
Lemma profile_ratios A L : eta_profile A L = 1 :: ratios A L.
Proof. reflexivity. Qed.
Lemma profile_at A L i : (1 <= i < length A)%nat -> at_ (eta_profile A L) i = petro_ratio A L i.
Proof.
  intros Hi. rewrite profile_ratios. destruct i as [|i]; [lia|]. change (at_ (1 :: ratios A L) (S i)) with (at_ (ratios A L) i).
  apply ratios_at. lia.
Qed.
Lemma profile_near A L eps : increasing A -> 0 < at_ A 0 -> length L = length A -> nonzero_tail L -> 0 < eps ->
  exists d, 0 < d /\ forall L', near d L L' -> nonzero_tail L' /\ near eps (eta_profile A L) (eta_profile A L').
Proof.
  intros IA A0 LL NL Heps.
  destruct (choose (length A) (fun i d => (1 <= i)%nat -> forall L', near d L L' ->
     at_ L' i <> 0 /\ Rabs (petro_ratio A L' i - petro_ratio A L i) <= eps)) as (d & Hd & Q).
  { intros i Hi. destruct (Nat.eq_dec i 0) as [->|Hi0]; [exists 1; split; [lra|lia]|].
    pose proof (IA (i - 1)%nat ltac:(lia)) as St. replace (S (i - 1)) with i in St by lia.
    pose proof (at_pos A i A0 IA ltac:(lia)) as Ap. pose proof (NL i ltac:(lia)) as N.
    set (y := Rabs (at_ L i)). assert (Hy : 0 < y) by now apply Rabs_pos_lt.
    set (x := Rabs (at_ L (i - 1))). assert (Hx : 0 <= x) by apply Rabs_pos.
    set (k := at_ A i / (at_ A i - at_ A (i - 1))). assert (Hk : 0 < k) by (apply Rdiv_lt_0_compat; lra).
    set (m := k * (2 * (x + y) / (y * y))). assert (Hm : 0 < m).
    { apply Rmult_lt_0_compat; auto. apply Rdiv_lt_0_compat; nra. }
    exists (Rmin (y / 2) (eps / m)). pose proof (Rmin_l (y / 2) (eps / m)). pose proof (Rmin_r (y / 2) (eps / m)).
    assert (0 < eps / m) by now apply Rdiv_lt_0_compat. set (d := Rmin _ _) in *. assert (0 < d) by (apply Rmin_glb_lt; lra).
    split; auto. intros _ L' [LL' Hn].
    destruct (quotient_close (at_ L (i - 1)) (at_ L i) (at_ L' (i - 1)) (at_ L' i) d) as [N' Qc].
    { fold y. lra. } { apply Hn. lia. } { apply Hn. lia. }
    split; auto. rewrite !ratio_form by (auto; lra). fold k.
    replace (k * (1 - at_ L' (i - 1) / at_ L' i) - k * (1 - at_ L (i - 1) / at_ L i))
      with (k * - (at_ L' (i - 1) / at_ L' i - at_ L (i - 1) / at_ L i)) by ring.
    rewrite Rabs_mult, Rabs_Ropp, (Rabs_pos_eq k) by lra. fold x y in Qc.
    apply Rle_trans with (m * d).
    - unfold m. rewrite Rmult_assoc. apply Rmult_le_compat_l; [lra|]. eapply Rle_trans; [exact Qc|].
      replace (2 * (x + y) / (y * y) * d) with (d * (x + y) * / (y * (y / 2))) by (field; lra). unfold Rdiv at 1.
      apply Rmult_le_compat_l; [nra|]. apply Rinv_le_contravar; nra.
    - apply Rmult_le_reg_r with (/ m); [now apply Rinv_0_lt_compat|]. replace (m * d * / m) with d by (field; lra). exact H0. }
  { intros j e e' H He Hj L' HL. apply H; auto. eapply near_le; [exact HL|lra]. }
  exists d. split; auto. intros L' HL. pose proof HL as [LL' _]. split.
  - intros i Hi. apply (Q i); auto; lia.
  - destruct A as [|a A']; [cbn in *; split; [reflexivity|]; intros i Hi; cbn in Hi; assert (i = 0%nat) as -> by lia; unfold at_; cbn; rewrite Rminus_eq_0, Rabs_R0; lra|].
    split; [rewrite !profile_len by (cbn; lia); reflexivity|]. intros i Hi. rewrite profile_len in Hi by (cbn; lia).
    destruct i as [|i]; [unfold at_, eta_profile; cbn [nth]; rewrite Rminus_eq_0, Rabs_R0; lra|].
    rewrite !profile_at by lia. apply Q; auto; lia.
Qed.
