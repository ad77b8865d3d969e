(** Accuracy of a search on a grid. *)
From Verif Require Import Base Num Numpy M_Utils M_Petrosian S_Utils S_Petrosian S_PetroR S_Conv S_Resolution
  L_Numpy L_Petrosian L_PetroR L_FracR L_Conv L_Conv2 L_Conv3.
Local Open Scope R_scope.

(** the first [S c] samples close in on the level: the search stops at the last two *)
Lemma search_two gr v g y out c : length g = length y -> (c < length y)%nat ->
  gap gr v (at_ y c) <= 0 -> (forall i, (i < c)%nat -> 0 < gap gr v (at_ y i)) ->
  (forall i, (S i < c)%nat -> gap gr v (at_ y (S i)) < gap gr v (at_ y i)) ->
  found_radius gr v g (map Fin y) out ->
  (out = Fin (at_ g c) /\ (c = 0%nat \/ Rabs (at_ y c - v) < Rabs (at_ y (c - 1) - v))) \/
  (exists b, c = S b /\ out = Fin (at_ g b) /\ Rabs (at_ y b - v) <= Rabs (at_ y c - v)).
Proof.
  intros Lg Hc Cc Hb Dec [[N _]|[_ (i & a & -> & Ei & C)]].
  { exfalso. apply N. exists (Fin (at_ y c)). split; [apply in_map, nth_In; auto|now apply crossed_gap]. }
  assert (X : Forall xok (map Fin y)) by (apply Forall_forall; intros z Hz; apply in_map_iff in Hz; destruct Hz as (? & <- & _); discriminate).
  destruct (C X) as (c' & x & [(xc & Ec & Cc') Fc] & Hic & Ex & Cl & Fst).
  assert (Lc' : (c' < length y)%nat) by (rewrite <- (map_length Fin); apply nth_error_Some; congruence).
  assert (xc = Fin (at_ y c')) as -> by (rewrite nth_fin in Ec by auto; congruence). apply crossed_gap in Cc'.
  assert (c' = c) as ->.
  { destruct (Nat.lt_trichotomy c' c) as [H|[H|H]]; auto; exfalso.
    - specialize (Hb c' H). lra.
    - apply (Fc c (Fin (at_ y c)) H (nth_fin _ _ Hc)). now apply crossed_gap. }
  assert (Li : (i < length y)%nat) by lia.
  assert (x = Fin (at_ y i)) as -> by (rewrite nth_fin in Ex by auto; congruence).
  assert (a = at_ g i) as -> by (rewrite at_nth_error in Ei by lia; congruence).
  assert (Cl' : forall j, (j <= c)%nat -> Rabs (at_ y i - v) <= Rabs (at_ y j - v)).
  { intros j Hj. apply xle_fin. apply (Cl j (Fin (at_ y j)) Hj). apply nth_fin. lia. }
  assert (Fs' : forall j, (j < i)%nat -> Rabs (at_ y i - v) < Rabs (at_ y j - v)).
  { intros j Hj. apply xlt_fin. apply (Fst j (Fin (at_ y j)) Hj). apply nth_fin. lia. }
  assert (Mono : forall m j, (j <= m)%nat -> (m < c)%nat -> j <> m -> gap gr v (at_ y m) < gap gr v (at_ y j)).
  { induction m as [|m IH]; intros j Hj Hm Hn; [lia|]. pose proof (Dec m Hm). destruct (Nat.eq_dec j m) as [->|]; auto.
    specialize (IH j ltac:(lia) ltac:(lia) ltac:(auto)). lra. }
  destruct (Nat.eq_dec i c) as [->|Ne].
  - left. split; auto. destruct c as [|b]; auto. right. replace (S b - 1)%nat with b by lia. apply Fs'. lia.
  - right. destruct c as [|b]; [lia|]. exists b. split; auto. destruct (Nat.eq_dec i b) as [->|Nb]; [split; auto|]. exfalso.
    pose proof (Cl' b ltac:(lia)) as H. pose proof (Mono b i ltac:(lia) ltac:(lia) Nb). pose proof (Hb b ltac:(lia)). pose proof (Hb i ltac:(lia)).
    rewrite !(gap_abs gr) in H. rewrite !Rabs_pos_eq in H by lra. lra.
Qed.

Section Grid.
  Variables (gr : bool) (g : R -> R) (lo hi v r : R) (n : nat) (x : list R).
  Hypothesis Hn : (2 <= n)%nat.
  Hypothesis Hlh : lo < hi.
  Hypothesis Hx : even_grid lo hi n x.
  Notation h := (spacing lo hi n).
  Hypothesis Hf : if gr then rises_to h g lo hi v r else falls_to h g lo hi v r.

  Lemma h_pos : 0 < h.
  Proof. unfold spacing. apply Rdiv_lt_0_compat; [lra|]. apply lt_0_INR. lia. Qed.
  Lemma grid_at i : (i < n)%nat -> at_ x i = lo + INR i * h.
  Proof. intros Hi. destruct Hx as [_ H]. now apply H. Qed.
  Lemma grid_last : at_ x (n - 1) = hi.
  Proof. rewrite grid_at by lia. unfold spacing. field. apply not_0_INR. lia. Qed.
  Lemma crossing_facts : lo <= r <= hi /\ (forall t, lo <= t < r -> 0 < gap gr v (g t)) /\
    (forall s t, lo <= s < t -> t <= r -> gap gr v (g t) < gap gr v (g s)) /\
    (forall t, r <= t <= hi -> t < r + h -> gap gr v (g t) <= 0).
  Proof.
    unfold rises_to in Hf. destruct gr; destruct Hf as (R1 & E & D & A); cbn [gap]; (split; [auto|]; split; [|split]); intros.
    - pose proof (D t r H ltac:(lra)). lra.
    - pose proof (D s t H H0). lra.
    - pose proof (A t H H0). lra.
    - pose proof (D t r H ltac:(lra)). lra.
    - pose proof (D s t H H0). lra.
    - pose proof (A t H H0). lra.
  Qed.

  (** the first grid point at or after r *)
  Lemma next_point : exists c, (c < n)%nat /\ r <= at_ x c < r + h /\ forall i, (i < c)%nat -> at_ x i < r.
  Proof.
    destruct crossing_facts as (R1 & _). pose proof h_pos as Hh.
    assert (D : forall m, (m < n)%nat -> (exists c, (c <= m)%nat /\ r <= at_ x c /\ forall i, (i < c)%nat -> at_ x i < r) \/ forall i, (i <= m)%nat -> at_ x i < r).
    { induction m as [|m IH]; intros Hm.
      - destruct (Rlt_le_dec (at_ x 0) r) as [H|H]; [right|left]; [intros i Hi; replace i with 0%nat by lia; auto|].
        exists 0%nat. split; auto. split; auto. intros; lia.
      - destruct (IH ltac:(lia)) as [(c & H1 & H2)|H]; [left; exists c; split; [lia|auto]|].
        destruct (Rlt_le_dec (at_ x (S m)) r) as [H'|H']; [right|left].
        + intros i Hi. destruct (Nat.eq_dec i (S m)) as [->|]; auto. apply H. lia.
        + exists (S m). split; auto. split; auto. intros i Hi. apply H. lia. }
    destruct (D (n - 1)%nat ltac:(lia)) as [(c & Hc & Hr & Hb)|H].
    - exists c. split; [lia|]. split; auto. split; auto. destruct c as [|b].
      + rewrite grid_at in * by lia. cbn [INR] in *. lra.
      + pose proof (Hb b ltac:(lia)) as Q. rewrite grid_at in * by lia. rewrite S_INR. lra.
    - pose proof (H (n - 1)%nat ltac:(lia)) as Q. rewrite grid_last in Q. lra.
  Qed.

  Lemma grid_search out : found_radius gr v x (map Fin (map g x)) out -> exists a, out = Fin a /\ Rabs (a - r) < h /\ In a x.
  Proof.
    intros F. destruct crossing_facts as (R1 & Pos & Dec & Aft). pose proof h_pos as Hh. destruct Hx as [Lx _].
    destruct next_point as (c & Hc & Hr & Hb).
    assert (Hlo : forall i, (i < n)%nat -> lo <= at_ x i <= hi).
    { intros i Hi. split; [rewrite grid_at by auto; pose proof (pos_INR i); nra|]. rewrite <- grid_last, !grid_at by lia.
      pose proof (le_INR i (n - 1) ltac:(lia)). nra. }
    assert (Am : forall i, (i < n)%nat -> at_ (map g x) i = g (at_ x i)) by (intros; apply at_map; lia).
    destruct (search_two gr v x (map g x) out c) as [(-> & _)|(b & -> & -> & E)].
    - now rewrite map_length.
    - rewrite map_length. lia.
    - rewrite Am by auto. pose proof (Hlo c Hc). apply Aft; lra.
    - intros i Hi. rewrite Am by lia. apply Pos. split; [apply Hlo; lia|auto].
    - intros i Hi. rewrite !Am by lia. pose proof (Hb (S i) Hi). apply Dec; [|lra]. split; [apply Hlo; lia|]. rewrite !grid_at, S_INR by lia. lra.
    - exact F.
    - exists (at_ x c). split; auto. split; [apply Rabs_def1; lra|]. apply nth_In. lia.
    - exists (at_ x b). split; auto. split; [|apply nth_In; lia].
      pose proof (Hb b ltac:(lia)). assert (at_ x (S b) = at_ x b + h) by (rewrite !grid_at, S_INR by lia; ring).
      assert (at_ x (S b) <> r).
      { intros Eq. rewrite !Am in E by lia. rewrite Eq in E. rewrite !(gap_abs gr) in E.
        assert (Z0 : gap gr v (g r) = 0).
        { unfold rises_to in Hf. destruct gr; destruct Hf as (_ & E0 & _); cbn [gap]; lra. }
        pose proof (Pos (at_ x b) ltac:(split; [apply Hlo; lia|auto])). rewrite Z0, Rabs_R0, Rabs_pos_eq in E; lra. }
      apply Rabs_def1; lra.
  Qed.
End Grid.

Lemma grid_values (f : xr -> xr) g lo hi n x : (2 <= n)%nat -> lo < hi -> even_grid lo hi n x -> (forall t, lo <= t <= hi -> f (Fin t) = Fin (g t)) ->
  map f (map Fin x) = map Fin (map g x).
Proof.
  intros Hn Hl [Lx Hx] Hf. rewrite !map_map. apply map_ext_in. intros t Ht. apply In_nth with (d := 0) in Ht. destruct Ht as (i & Hi & <-).
  apply Hf. fold (at_ x i). rewrite Lx in Hi. rewrite Hx by auto.
  assert (0 < INR (n - 1)) by (apply lt_0_INR; lia). assert (INR i <= INR (n - 1)) by (apply le_INR; lia). pose proof (pos_INR i).
  assert (0 < (hi - lo) / INR (n - 1)) by (apply Rdiv_lt_0_compat; lra). split; [nra|].
  replace hi with (lo + INR (n - 1) * ((hi - lo) / INR (n - 1))) at 2 by (field; lra). nra.
Qed.

(** C140 *)
Theorem petrosian_resolution (mk : kind -> list xr -> list xr -> result (xr -> xr)) x rs y ps eta k num f g r :
  (1 <= length rs)%nat -> length ps = length rs -> increasing (0 :: rs) ->
  mk k (map Fin (0 :: rs)) (Fin 1 :: ps) = Ok f -> (forall t, 0 <= t <= last_of rs -> f (Fin t) = Fin (g t)) ->
  falls_to (spacing 0 (last_of rs) (Nat.max num (length rs + 1))) g 0 (last_of rs) eta r ->
  exists a, calculate_petrosian_r mk (x :: map Fin rs) (y :: ps) None (Fin eta) (Some k) num = Ok (Fin a, NaN) /\
    Rabs (a - r) < spacing 0 (last_of rs) (Nat.max num (length rs + 1)).
Proof.
  intros L1 Lp I Ef Hf Fl.
  assert (La : last_of (0 :: rs) = last_of rs).
  { unfold last_of. cbn [length]. replace (S (length rs) - 1)%nat with (S (length rs - 1)) by lia. reflexivity. }
  assert (Hl : 0 < last_of rs) by (unfold last_of; apply (inc_lt (0 :: rs) 0 (S (length rs - 1)) I); cbn; lia).
  destruct (petro_r_total mk x rs y ps (Fin eta) (Some k) num L1 Lp) as (v & Ev).
  { intros k' E. injection E as <-. eauto. }
  destruct (petro_r_spec mk _ _ _ _ _ _ _ _ _ L1 Ev) as (gg & q & (f' & lo & hi & Ef' & Hlo & Hhi & Eg & ->) & Fr & _).
  assert (f' = f) as -> by congruence.
  rewrite (min_unique _ lo 0 Hlo (inc_min (0 :: rs) ltac:(cbn; lia) I)) in *.
  rewrite (max_unique _ hi (last_of rs) Hhi) in * by (rewrite <- La; apply inc_max; auto; cbn; lia).
  cbn [length] in Eg. replace (S (length rs)) with (length rs + 1)%nat in Eg by lia.
  rewrite (grid_values f g 0 (last_of rs) (Nat.max num (length rs + 1)) gg) in Fr; auto; [|lia].
  destruct (grid_search false g 0 (last_of rs) eta r (Nat.max num (length rs + 1)) gg ltac:(lia) Hl Eg Fl v Fr) as (a & -> & Ha & _).
  exists a. auto.
Qed.

Theorem fraction_resolution (mk : kind -> list xr -> list xr -> result (xr -> xr)) frac rs L a pe eps ef k num f g r :
  (2 <= length rs)%nat -> length L = length rs -> increasing rs -> at_ rs 0 <= a * eps <= last_of rs -> ef <> 0 ->
  mk k (map Fin rs) (map Fin L) = Ok f -> (forall t, at_ rs 0 <= t <= last_of rs -> f (Fin t) = Fin (g t)) ->
  rises_to (spacing (at_ rs 0) (last_of rs) (Nat.max num (length rs))) g (at_ rs 0) (last_of rs) (g (a * eps) * (frac / ef)) r ->
  exists b, fraction_to_r mk (Fin frac) (map Fin rs) (map Fin L) (Fin a) None pe (Fin eps) (Fin ef) (Some k) num = Ok (Fin b, NaN) /\
    Rabs (b - r) < spacing (at_ rs 0) (last_of rs) (Nat.max num (length rs)).
Proof.
  intros L2 LL I Hin E0 Ef Hf Ri.
  assert (Hl : at_ rs 0 < last_of rs) by (unfold last_of; apply inc_lt; auto; lia).
  destruct (frac_total mk frac rs L a pe eps ef k num f L2 LL I Hin E0 Ef) as (v & Ev).
  destruct (frac_spec mk frac rs (map Fin L) a pe eps ef (Some k) num v NaN L2) as (f' & gg & q & Ef' & Rs & _ & Fr & _); auto.
  { intros lo hi Hlo Hhi. rewrite (min_unique rs lo (at_ rs 0)), (max_unique rs hi (last_of rs)); auto.
    - apply inc_max; auto; lia. - apply inc_min; auto; lia. }
  cbn [kind_or_cubic] in Ef'. assert (f' = f) as -> by congruence.
  specialize (Fr (g (a * eps)) (Hf _ Hin)). destruct Rs as (f' & lo & hi & Ef'' & Hlo & Hhi & Eg & ->). assert (f' = f) as -> by congruence.
  rewrite (min_unique _ lo (at_ rs 0) Hlo (inc_min rs ltac:(lia) I)) in *.
  rewrite (max_unique _ hi (last_of rs) Hhi (inc_max rs ltac:(lia) I)) in *.
  rewrite (grid_values f g (at_ rs 0) (last_of rs) (Nat.max num (length rs)) gg) in Fr; auto; [|lia].
  destruct (grid_search true g (at_ rs 0) (last_of rs) _ r (Nat.max num (length rs)) gg ltac:(lia) Hl Eg Ri v Fr) as (b & -> & Hb & _).
  exists b. auto.
Qed.

(** without interpolation: one of the two samples around the crossing, the closer one *)
Theorem petrosian_samples (mk : kind -> list xr -> list xr -> result (xr -> xr)) x rs y V eta num c :
  (S c < length rs)%nat -> length V = length rs -> at_ V (S c) <= eta -> eta < at_ V c -> eta < 1 ->
  (forall i, (S i <= c)%nat -> at_ V (S i) < at_ V i) -> at_ V 0 < 1 ->
  calculate_petrosian_r mk (x :: map Fin rs) (y :: map Fin V) None (Fin eta) None num
  = Ok (Fin (if Rle_dec (at_ V c - eta) (eta - at_ V (S c)) then at_ rs c else at_ rs (S c)), NaN).
Proof.
  intros Hc LV H1 H2 He Dec V0.
  assert (L1 : (1 <= length rs)%nat) by lia.
  destruct (petro_r_total mk x rs y (map Fin V) (Fin eta) None num L1) as (v & Ev).
  { now rewrite map_length. } { discriminate. }
  rewrite Ev. destruct (petro_r_spec mk _ _ _ _ _ _ _ _ _ L1 Ev) as (gg & q & (-> & ->) & Fr & _).
  change (Fin 1 :: map Fin V) with (map Fin (1 :: V)) in Fr.
  assert (Big : forall i, (i <= c)%nat -> at_ V c <= at_ V i).
  { intros i Hi. clear Fr. revert H2 Hi. assert (forall m, (m <= c)%nat -> forall i, (i <= m)%nat -> at_ V m <= at_ V i).
    { induction m as [|m IH]; intros Hm i' Hi'; [assert (i' = 0%nat) as -> by lia; apply Rle_refl|]. destruct (Nat.eq_dec i' (S m)) as [->|]; [lra|].
      pose proof (Dec m Hm). specialize (IH ltac:(lia) i' ltac:(lia)). lra. }
    intros. now apply H. }
  assert (Ab1 : Rabs (at_ V (S c) - eta) = eta - at_ V (S c)) by (rewrite Rabs_left1; lra).
  assert (Ab2 : Rabs (at_ V c - eta) = at_ V c - eta) by (rewrite Rabs_pos_eq; lra).
  destruct (search_two false eta (0 :: rs) (1 :: V) v (S (S c))) as [(-> & [E|E])|(b & Eb & -> & E)].
  - cbn; lia.
  - cbn; lia.
  - cbn [gap]. change (at_ (1 :: V) (S (S c))) with (at_ V (S c)). lra.
  - intros [|i] Hi; cbn [gap].
    + unfold at_; cbn [nth]. lra.
    + change (at_ (1 :: V) (S i)) with (at_ V i). pose proof (Big i ltac:(lia)). lra.
  - intros [|i] Hi; cbn [gap].
    + change (at_ (1 :: V) 1) with (at_ V 0). unfold at_ at 2; cbn [nth]. lra.
    + change (at_ (1 :: V) (S i)) with (at_ V i). change (at_ (1 :: V) (S (S i))) with (at_ V (S i)). pose proof (Dec i ltac:(lia)). lra.
  - exact Fr.
  - lia.
  - replace (S (S c) - 1)%nat with (S c) in E by lia. change (at_ (1 :: V) (S (S c))) with (at_ V (S c)) in E. change (at_ (1 :: V) (S c)) with (at_ V c) in E.
    change (at_ (0 :: rs) (S (S c))) with (at_ rs (S c)). destruct Rle_dec; auto; lra.
  - injection Eb as <-. change (at_ (1 :: V) (S (S c))) with (at_ V (S c)) in E. change (at_ (1 :: V) (S c)) with (at_ V c) in E.
    change (at_ (0 :: rs) (S c)) with (at_ rs c). destruct Rle_dec; auto; lra.
Qed.
