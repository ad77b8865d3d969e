(** Curves of growth of falling profiles: real analysis by thin rings. *)
From Coq Require Import Reals Lra Lia.
From Coquelicot Require Import Coquelicot.
From Verif Require Import Base Num S_Photometry S_Galaxy.
Local Open Scope R_scope.

(** ** sums *)
Lemma sum_le n f g : (forall k, (k < n)%nat -> f k <= g k) -> sum_to n f <= sum_to n g.
Proof. intros H. induction n; cbn [sum_to]; [lra|]. assert (f n <= g n) by (apply H; lia). assert (sum_to n f <= sum_to n g) by (apply IHn; intros; apply H; lia). lra. Qed.
Lemma sum_scal c n f : sum_to n (fun k => f k * c) = sum_to n f * c.
Proof. induction n; cbn [sum_to]; [ring|]. rewrite IHn. ring. Qed.
Lemma sum_minus n f g : sum_to n (fun k => f k - g k) = sum_to n f - sum_to n g.
Proof. induction n; cbn [sum_to]; [ring|]. rewrite IHn. ring. Qed.
Lemma sum_telescope n (D : nat -> R) : sum_to n (fun k => D (S k) - D k) = D n - D 0%nat.
Proof. induction n; cbn [sum_to]; [ring|]. rewrite IHn. ring. Qed.
Lemma sum_pred n (U : nat -> R) : sum_to (S n) (fun k => U (pred k)) = U 0%nat + sum_to n U.
Proof. induction n as [|n IH]; [cbn; ring|]. change (sum_to (S (S n)) (fun k => U (pred k))) with (sum_to (S n) (fun k => U (pred k)) + U n). rewrite IH. cbn [sum_to]. ring. Qed.

Section Shift.
  Variable T : nat -> R.
  Hypothesis T_nonneg : forall k, 0 <= T k.
  Hypothesis T_le : forall k, T k <= T 0%nat.
  (** a sum changes by at most one first term per step when its terms are moved *)
  Lemma shift_down m : forall n, sum_to n (fun k => T (k - m)%nat) <= INR m * T 0%nat + sum_to n T.
  Proof.
    induction m as [|m IH]; intros n.
    - cbn [INR]. rewrite Rmult_0_l, Rplus_0_l. apply sum_le. intros k _. rewrite Nat.sub_0_r. lra.
    - destruct n as [|n].
      + cbn [sum_to]. assert (0 <= INR (S m) * T 0%nat) by (apply Rmult_le_pos; auto using pos_INR). lra.
      + assert (E : sum_to (S n) (fun k => T (k - S m)%nat) <= sum_to (S n) (fun k => T (pred k - m)%nat))
          by (apply sum_le; intros k _; replace (k - S m)%nat with (pred k - m)%nat by lia; lra).
        rewrite (sum_pred n (fun k => T (k - m)%nat)) in E. specialize (IH n). change (0 - m)%nat with 0%nat in E. rewrite S_INR.
        eapply Rle_trans; [exact E|]. change (sum_to (S n) T) with (sum_to n T + T n). specialize (T_nonneg n). lra.
  Qed.
  Lemma shift_up m n : sum_to n T <= INR m * T 0%nat + sum_to n (fun k => T (k + m)%nat).
  Proof.
    induction m as [|m IH].
    - cbn [INR]. rewrite Rmult_0_l, Rplus_0_l. apply sum_le. intros k _. rewrite Nat.add_0_r. lra.
    - rewrite S_INR.
      assert (E : sum_to n (fun k => T (k + m)%nat) + T (n + m)%nat = T m + sum_to n (fun k => T (k + S m)%nat)).
      { clear IH. induction n as [|n IHn]; cbn [sum_to]; [cbn; ring|]. replace (S n + m)%nat with (n + S m)%nat by lia. lra. }
      generalize (T_le m) (T_nonneg (n + m)%nat). lra.
  Qed.
End Shift.

(** ** rings *)
(** the gain of F between two radii is at most the value lo of the inner radius, or at least that of the outer one,
    times the gain in area, c times the difference of squares *)
Definition gains_at_most (a : R -> R) (c r : R) (F : R -> R) : Prop :=
  forall p q, 0 <= p < q -> q <= r -> F q - F p <= a p * (c * (q * q - p * p)).
Definition gains_at_least (a : R -> R) (c r : R) (F : R -> R) : Prop :=
  forall p q, 0 <= p < q -> q <= r -> a q * (c * (q * q - p * p)) <= F q - F p.

Lemma le_all_N a b c : 0 <= c -> (forall n, (0 < n)%nat -> a <= b + c / INR n) -> a <= b.
Proof.
  intros Hc H. apply le_epsilon. intros e He. destruct (Rle_lt_or_eq_dec 0 c Hc) as [P|P].
  - destruct (archimed_cor1 (e / c)) as (n & Hn & P0); [now apply Rdiv_lt_0_compat|].
    specialize (H n P0). assert (c / INR n <= e); [|lra].
    unfold Rdiv. apply Rle_trans with (c * (e / c)); [apply Rmult_le_compat_l; lra|]. right. field. lra.
  - specialize (H 1%nat ltac:(lia)). rewrite <- P in H. unfold Rdiv in H. lra.
Qed.

Section Rings.
  Variables (c r : R).
  Hypothesis Hc : 0 <= c.
  Hypothesis Hr : 0 < r.

  Lemma steps (n : nat) (F E : R -> R) (u l : nat -> R) : (0 < n)%nat -> F 0 = 0 -> E 0 = 0 ->
    let h := r / INR n in
    (forall k, (k < n)%nat -> l k <= u k) ->
    (forall k, (k < n)%nat -> F (INR (S k) * h) - F (INR k * h) <= u k * (c * (INR (S k) * h * (INR (S k) * h) - INR k * h * (INR k * h)))) ->
    (forall k, (k < n)%nat -> l k * (c * (INR (S k) * h * (INR (S k) * h) - INR k * h * (INR k * h))) <= E (INR (S k) * h) - E (INR k * h)) ->
    F r - E r <= (sum_to n u - sum_to n l) * (2 * c * r * h).
  Proof.
    intros Hn F0 E0 h Hlu HF HE. assert (Pn : 0 < INR n) by (apply lt_0_INR; lia).
    assert (Ph : 0 < h) by now apply Rdiv_lt_0_compat.
    assert (Er : INR n * h = r) by (unfold h; field; lra).
    replace (F r - E r) with (sum_to n (fun k => (F (INR (S k) * h) - E (INR (S k) * h)) - (F (INR k * h) - E (INR k * h)))).
    2:{ rewrite (sum_telescope n (fun k => F (INR k * h) - E (INR k * h))). cbn [INR]. rewrite Er, Rmult_0_l, F0, E0. ring. }
    rewrite <- sum_minus, <- sum_scal. apply sum_le. intros k Hk.
    specialize (HF k Hk). specialize (HE k Hk). specialize (Hlu k Hk).
    set (w := c * (INR (S k) * h * (INR (S k) * h) - INR k * h * (INR k * h))) in *.
    assert (W : w <= 2 * c * r * h).
    { unfold w. rewrite S_INR, <- Er. assert (B : INR k + 1 <= INR n) by (rewrite <- S_INR; apply le_INR; lia).
      replace (c * ((INR k + 1) * h * ((INR k + 1) * h) - INR k * h * (INR k * h))) with (c * (h * h) * (2 * INR k + 1)) by ring.
      replace (2 * c * (INR n * h) * h) with (c * (h * h) * (2 * INR n)) by ring.
      apply Rmult_le_compat_l; [apply Rmult_le_pos; nra|lra]. }
    apply Rle_trans with ((u k - l k) * w); [lra|]. apply Rmult_le_compat_l; lra.
  Qed.

  (** the profile pixelated, smeared by d *)
  Lemma close_above d s F E : 0 <= d -> falls s -> F 0 = 0 -> E 0 = 0 ->
    gains_at_most (fun p => s (Rmax 0 (p - d))) c r F -> gains_at_least s c r E ->
    F r - E r <= 2 * c * r * d * s 0.
  Proof.
    intros Hd [S1 S2] F0 E0 HF HE. assert (S0 : 0 <= s 0) by (apply S1; lra).
    apply le_all_N with (4 * c * (r * r) * s 0).
    { apply Rmult_le_pos; auto. apply Rmult_le_pos; [lra|nra]. }
    intros n Hn. assert (Pn : 0 < INR n) by (apply lt_0_INR; lia). set (h := r / INR n).
    assert (Ph : 0 < h) by now apply Rdiv_lt_0_compat.
    assert (Er : INR n * h = r) by (unfold h; field; lra).
    set (m := Z.to_nat (up (d / h))).
    assert (Q : 0 <= d / h) by (apply Rmult_le_pos; auto; left; now apply Rinv_0_lt_compat).
    destruct (archimed (d / h)) as [U1 U2].
    assert (Em : INR m = IZR (up (d / h))) by (unfold m; rewrite INR_IZR_INZ, Z2Nat.id; auto; apply le_IZR; lra).
    assert (M1 : d <= INR m * h) by (rewrite Em; apply Rle_trans with (d / h * h); [right; field; lra|apply Rmult_le_compat_r; lra]).
    assert (M2 : INR m * h <= d + h) by (rewrite Em; apply Rle_trans with ((d / h + 1) * h); [apply Rmult_le_compat_r; lra|right; field; lra]).
    set (T := fun k : nat => s (INR k * h)).
    assert (Tn : forall k, 0 <= T k) by (intros k; apply S1; apply Rmult_le_pos; [apply pos_INR|lra]).
    assert (Tm : forall j k, (j <= k)%nat -> T k <= T j).
    { intros j k L. apply S2. apply le_INR in L. generalize (pos_INR j). intros. split; [apply Rmult_le_pos; lra|apply Rmult_le_compat_r; lra]. }
    assert (R1 : forall k, (k < n)%nat -> 0 <= INR k * h < INR (S k) * h /\ INR (S k) * h <= r).
    { intros k Hk. generalize (pos_INR k). rewrite S_INR. intros. assert (INR k + 1 <= INR n) by (rewrite <- S_INR; apply le_INR; lia).
      rewrite <- Er. repeat split; [apply Rmult_le_pos; lra|apply Rmult_lt_compat_r; lra|apply Rmult_le_compat_r; lra]. }
    pose proof (steps n F E (fun k => T (k - m)%nat) (fun k => T (S k)) Hn F0 E0) as K. cbv zeta in K. fold h in K.
    eapply Rle_trans; [apply K|].
    - intros k Hk. apply Tm. lia.
    - intros k Hk. destruct (R1 k Hk) as [A B]. eapply Rle_trans; [apply HF; auto|].
      apply Rmult_le_compat_r; [apply Rmult_le_pos; [auto|nra]|].
      assert (INR (k - m) * h <= Rmax 0 (INR k * h - d)).
      { destruct (le_lt_dec m k) as [L|L].
        - rewrite minus_INR by auto. apply Rle_trans with (INR k * h - d); [nra|apply Rmax_r].
        - replace (k - m)%nat with 0%nat by lia. cbn [INR]. rewrite Rmult_0_l. apply Rmax_l. }
      apply S2. split; auto. apply Rmult_le_pos; [apply pos_INR|lra].
    - intros k Hk. destruct (R1 k Hk) as [A B]. apply HE; auto.
    - assert (G : sum_to n (fun k => T (k - m)%nat) - sum_to n (fun k => T (S k)) <= (INR m + 1) * T 0%nat).
      { generalize (shift_down T Tn m n) (shift_up T Tn (fun k => Tm 0%nat k ltac:(lia)) 1 n). cbn [INR].
        assert (Es : sum_to n (fun k => T (k + 1)%nat) <= sum_to n (fun k => T (S k))) by (apply sum_le; intros k _; rewrite Nat.add_1_r; lra).
        lra. }
      assert (E0' : T 0%nat = s 0) by (unfold T; cbn [INR]; now rewrite Rmult_0_l). rewrite E0' in G.
      apply Rle_trans with ((INR m + 1) * s 0 * (2 * c * r * h)).
      { apply Rmult_le_compat_r; auto. apply Rmult_le_pos; [apply Rmult_le_pos; lra|lra]. }
      replace ((INR m + 1) * s 0 * (2 * c * r * h)) with (2 * c * r * s 0 * (INR m * h + h)) by ring.
      replace (2 * c * r * d * s 0 + 4 * c * (r * r) * s 0 / INR n) with (2 * c * r * s 0 * (d + h + h)) by (unfold h; field; lra).
      apply Rmult_le_compat_l; [apply Rmult_le_pos; [apply Rmult_le_pos; lra|lra]|lra].
  Qed.
  Lemma close_below d s F E : 0 <= d -> falls s -> F 0 = 0 -> E 0 = 0 ->
    gains_at_least (fun p => s (p + d)) c r F -> gains_at_most s c r E ->
    E r - F r <= 2 * c * r * d * s 0.
  Proof.
    intros Hd [S1 S2] F0 E0 HF HE. assert (S0 : 0 <= s 0) by (apply S1; lra).
    apply le_all_N with (4 * c * (r * r) * s 0).
    { apply Rmult_le_pos; auto. apply Rmult_le_pos; [lra|nra]. }
    intros n Hn. assert (Pn : 0 < INR n) by (apply lt_0_INR; lia). set (h := r / INR n).
    assert (Ph : 0 < h) by now apply Rdiv_lt_0_compat.
    assert (Er : INR n * h = r) by (unfold h; field; lra).
    set (m := Z.to_nat (up (d / h))).
    assert (Q : 0 <= d / h) by (apply Rmult_le_pos; auto; left; now apply Rinv_0_lt_compat).
    destruct (archimed (d / h)) as [U1 U2].
    assert (Em : INR m = IZR (up (d / h))) by (unfold m; rewrite INR_IZR_INZ, Z2Nat.id; auto; apply le_IZR; lra).
    assert (M1 : d <= INR m * h) by (rewrite Em; apply Rle_trans with (d / h * h); [right; field; lra|apply Rmult_le_compat_r; lra]).
    assert (M2 : INR m * h <= d + h) by (rewrite Em; apply Rle_trans with ((d / h + 1) * h); [apply Rmult_le_compat_r; lra|right; field; lra]).
    set (T := fun k : nat => s (INR k * h)).
    assert (Tn : forall k, 0 <= T k) by (intros k; apply S1; apply Rmult_le_pos; [apply pos_INR|lra]).
    assert (Tm : forall j k, (j <= k)%nat -> T k <= T j).
    { intros j k L. apply S2. apply le_INR in L. generalize (pos_INR j). intros. split; [apply Rmult_le_pos; lra|apply Rmult_le_compat_r; lra]. }
    assert (R1 : forall k, (k < n)%nat -> 0 <= INR k * h < INR (S k) * h /\ INR (S k) * h <= r).
    { intros k Hk. generalize (pos_INR k). rewrite S_INR. intros. assert (INR k + 1 <= INR n) by (rewrite <- S_INR; apply le_INR; lia).
      rewrite <- Er. repeat split; [apply Rmult_le_pos; lra|apply Rmult_lt_compat_r; lra|apply Rmult_le_compat_r; lra]. }
    pose proof (steps n E F T (fun k => T (k + S m)%nat) Hn E0 F0) as K. cbv zeta in K. fold h in K.
    eapply Rle_trans; [apply K|].
    - intros k Hk. apply Tm. lia.
    - intros k Hk. destruct (R1 k Hk) as [A B]. apply HE; auto.
    - intros k Hk. destruct (R1 k Hk) as [A B]. eapply Rle_trans; [|apply HF; auto].
      apply Rmult_le_compat_r; [apply Rmult_le_pos; [auto|nra]|].
      apply S2. split; [lra|]. replace (k + S m)%nat with (S k + m)%nat by lia. rewrite plus_INR. nra.
    - assert (G : sum_to n T - sum_to n (fun k => T (k + S m)%nat) <= (INR m + 1) * T 0%nat).
      { generalize (shift_up T Tn (fun k => Tm 0%nat k ltac:(lia)) (S m) n). rewrite S_INR. lra. }
      assert (E0' : T 0%nat = s 0) by (unfold T; cbn [INR]; now rewrite Rmult_0_l). rewrite E0' in G.
      apply Rle_trans with ((INR m + 1) * s 0 * (2 * c * r * h)).
      { apply Rmult_le_compat_r; auto. apply Rmult_le_pos; [apply Rmult_le_pos; lra|lra]. }
      replace ((INR m + 1) * s 0 * (2 * c * r * h)) with (2 * c * r * s 0 * (INR m * h + h)) by ring.
      replace (2 * c * r * d * s 0 + 4 * c * (r * r) * s 0 / INR n) with (2 * c * r * s 0 * (d + h + h)) by (unfold h; field; lra).
      apply Rmult_le_compat_l; [apply Rmult_le_pos; [apply Rmult_le_pos; lra|lra]|lra].
  Qed.

  (** the sharp comparison, without smearing *)
  Lemma below a F E : falls a -> F 0 = 0 -> E 0 = 0 -> gains_at_most a c r F -> gains_at_least a c r E -> F r <= E r.
  Proof.
    intros Ha F0 E0 HF HE. assert (F r - E r <= 2 * c * r * 0 * a 0); [|lra].
    apply close_above; auto; [lra|]. intros p q P Q. rewrite Rmax_right by lra. rewrite Rminus_0_r. now apply HF.
  Qed.
End Rings.

(** ** integrals *)
Lemma square_int c k p q : is_RInt (fun x => 2 * c * x * k) p q (k * (c * (q * q - p * p))).
Proof.
  replace (k * (c * (q * q - p * p))) with (minus (c * (q * q) * k) (c * (p * p) * k)) by (unfold minus, plus, opp; cbn; ring).
  apply (is_RInt_derive (fun x => c * (x * x) * k)).
  - intros x _. auto_derive; auto. ring.
  - intros x _. apply (ex_derive_continuous (fun x => 2 * c * x * k)). auto_derive. auto.
Qed.

Lemma integral_gains s c r E : 0 <= c -> 0 < r -> falls s -> is_RInt (fun x => 2 * c * x * s x) 0 r E ->
  exists G, G 0 = 0 /\ G r = E /\ gains_at_most s c r G /\ gains_at_least s c r G.
Proof.
  intros Hc Hr [S1 S2] H. set (f := fun x => 2 * c * x * s x) in *.
  assert (X : forall p q, 0 <= p <= q -> q <= r -> ex_RInt f p q).
  { intros p q P Q. apply (ex_RInt_Chasles_2 (V := R_CompleteNormedModule) f 0); [lra|].
    apply (ex_RInt_Chasles_1 (V := R_CompleteNormedModule) f 0 q r); [lra|]. now exists E. }
  exists (fun x => RInt f 0 x). split; [now rewrite RInt_point|]. split; [now apply is_RInt_unique|].
  assert (D : forall p q, 0 <= p < q -> q <= r -> RInt f 0 q - RInt f 0 p = RInt f p q).
  { intros p q P Q. rewrite <- (RInt_Chasles f 0 p q) by (apply X; lra). unfold plus; cbn. ring. }
  split; intros p q P Q; rewrite D by auto.
  - rewrite <- (is_RInt_unique _ _ _ _ (square_int c (s p) p q)). apply RInt_le; [lra|apply X; lra|eexists; apply square_int|].
    intros x Hx. unfold f. apply Rmult_le_compat_l; [nra|]. apply S2. lra.
  - rewrite <- (is_RInt_unique _ _ _ _ (square_int c (s q) p q)). apply RInt_le; [lra|eexists; apply square_int|apply X; lra|].
    intros x Hx. unfold f. apply Rmult_le_compat_l; [nra|]. apply S2. lra.
Qed.

(** an antiderivative on (0, infinity) that tends to 0 *)
Lemma derivative_gains s c r G : 0 <= c -> falls s -> G 0 = 0 ->
  (forall e, 0 < e -> exists d, 0 < d /\ forall x, 0 < x < d -> Rabs (G x - 0) < e) ->
  (forall x, 0 < x -> derivable_pt_lim G x (2 * c * x * s x)) ->
  gains_at_most s c r G /\ gains_at_least s c r G.
Proof.
  intros Hc [S1 S2] G0 GL GD.
  assert (Mid : forall p q, 0 < p < q -> s q * (c * (q * q - p * p)) <= G q - G p <= s p * (c * (q * q - p * p))).
  { intros p q P.
    assert (K : forall k, exists z, p < z < q /\ (G q - k * (c * (q * q))) - (G p - k * (c * (p * p))) = (2 * c * z * s z - k * (2 * c * z)) * (q - p)).
    { intros k. set (H := fun x => G x - k * (c * (x * x))).
      assert (HD : forall x, 0 < x -> derivable_pt_lim H x (2 * c * x * s x - k * (2 * c * x))).
      { intros x Hx. apply derivable_pt_lim_minus; [now apply GD|]. apply is_derive_Reals. auto_derive; auto. ring. }
      destruct (MVT_cor2 H (fun x => 2 * c * x * s x - k * (2 * c * x)) p q) as (z' & E' & Z'); [lra|intros x X; apply HD; lra|].
      exists z'. split; auto. }
    split.
    - destruct (K (s q)) as (z & Z & E). assert (s q <= s z) by (apply S2; lra).
      assert (0 <= (2 * c * z * s z - s q * (2 * c * z)) * (q - p)); [|lra].
      apply Rmult_le_pos; [|lra]. replace (2 * c * z * s z - s q * (2 * c * z)) with (2 * c * z * (s z - s q)) by ring.
      apply Rmult_le_pos; [nra|lra].
    - destruct (K (s p)) as (z & Z & E). assert (s z <= s p) by (apply S2; lra).
      assert (0 <= (s p * (2 * c * z) - 2 * c * z * s z) * (q - p)); [|lra].
      apply Rmult_le_pos; [|lra]. replace (s p * (2 * c * z) - 2 * c * z * s z) with (2 * c * z * (s p - s z)) by ring.
      apply Rmult_le_pos; [nra|lra]. }
  assert (Zero : forall q, 0 < q -> s q * (c * (q * q)) <= G q <= s 0 * (c * (q * q))).
  { intros q Hq. assert (Sq : 0 <= s q) by (apply S1; lra). assert (S0 : s q <= s 0) by (apply S2; lra).
    split; apply le_epsilon; intros e He.
    - set (M := s q * c * q + 1). assert (HM : 0 < M) by (unfold M; assert (0 <= s q * c * q) by (repeat apply Rmult_le_pos; lra); lra).
      destruct (GL (e / 2) ltac:(lra)) as (d & Hd & L).
      set (x := Rmin (d / 2) (Rmin (q / 2) (e / (2 * M)))).
      assert (X1 : x <= d / 2) by apply Rmin_l. assert (X2 : x <= q / 2) by (eapply Rle_trans; [apply Rmin_r|apply Rmin_l]).
      assert (X3 : x <= e / (2 * M)) by (eapply Rle_trans; [apply Rmin_r|apply Rmin_r]).
      assert (X0 : 0 < x) by (unfold x; repeat apply Rmin_pos; try lra; apply Rdiv_lt_0_compat; lra).
      destruct (Mid x q ltac:(lra)) as [A _]. specialize (L x ltac:(lra)). rewrite Rminus_0_r in L. apply Rabs_def2 in L.
      assert (B : s q * (c * (x * x)) <= e / 2).
      { replace (s q * (c * (x * x))) with (s q * c * x * x) by ring.
        apply Rle_trans with (M * x).
        - apply Rmult_le_compat_r; [lra|]. unfold M. assert (s q * c * x <= s q * c * q) by (apply Rmult_le_compat_l; [nra|lra]). lra.
        - apply Rle_trans with (M * (e / (2 * M))); [apply Rmult_le_compat_l; lra|]. right. field. lra. }
      lra.
    - destruct (GL e He) as (d & Hd & L). set (x := Rmin (d / 2) (q / 2)).
      assert (X1 : x <= d / 2) by apply Rmin_l. assert (X2 : x <= q / 2) by apply Rmin_r.
      assert (X0 : 0 < x) by (unfold x; apply Rmin_pos; lra).
      destruct (Mid x q ltac:(lra)) as [_ A]. specialize (L x ltac:(lra)). rewrite Rminus_0_r in L. apply Rabs_def2 in L.
      assert (s x * (c * (q * q - x * x)) <= s 0 * (c * (q * q))).
      { assert (s x <= s 0) by (apply S2; lra). assert (0 <= s x) by (apply S1; lra).
        apply Rmult_le_compat; auto; [apply Rmult_le_pos; [lra|nra]|apply Rmult_le_compat_l; [lra|nra]]. }
      lra. }
  split; intros p q P Q.
  - destruct (Req_dec p 0) as [->|N]; [|apply Mid; lra]. rewrite G0. replace (q * q - 0 * 0) with (q * q) by ring.
    rewrite Rminus_0_r. apply Zero. lra.
  - destruct (Req_dec p 0) as [->|N]; [|apply Mid; lra]. rewrite G0. replace (q * q - 0 * 0) with (q * q) by ring.
    rewrite Rminus_0_r. apply Zero. lra.
Qed.
