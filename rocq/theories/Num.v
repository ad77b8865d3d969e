(** Scalar numbers.

    petrofit computes with numpy float64 scalars.  The model is generic in a
    record of scalar operations [Num T]; two instances are given:
    - [xr]: real numbers with NaN and infinities, exact arithmetic (the
      instance numerical theorems are about);
    - [f64]: IEEE-754 binary64, round to nearest even, from the standard
      library's [SpecFloat] (executable; used for execution and witnesses). *)
From Verif Require Import Base.
From Coq Require Export Reals Lra.
From Coq Require Import SpecFloat.

Class Num (T : Type) := {
  nadd : T -> T -> T;
  nsub : T -> T -> T;
  nmul : T -> T -> T;
  ndiv : T -> T -> T;          (* numpy division: never raises *)
  nabs : T -> T;
  nsqrt : T -> T;
  nofZ : Z -> T;
  nnan : T;
  ninf : T;
  nltb : T -> T -> bool;       (* false if an argument is NaN *)
  nleb : T -> T -> bool;
  neqb : T -> T -> bool;
  nisnan : T -> bool;
  nrint : T -> T;              (* round half to even, as numpy.rint *)
  ntrunc : T -> option Z       (* int(x): None where Python raises *)
}.

Declare Scope num_scope.
Delimit Scope num_scope with num.
Infix "+" := nadd : num_scope.
Infix "-" := nsub : num_scope.
Infix "*" := nmul : num_scope.
Infix "/" := ndiv : num_scope.
Infix "<?" := nltb : num_scope.
Infix "<=?" := nleb : num_scope.
Infix "=?" := neqb : num_scope.

Section Derived.
  Context {T : Type} {N : Num T}.
  (** Decimal literals: [nlit 99 100] is the float literal 0.99 (division of
      two exactly representable integers is correctly rounded). *)
  Definition nlit (a b : Z) : T := ndiv (nofZ a) (nofZ b).
  Definition n0 : T := nofZ 0.
  Definition n1 : T := nofZ 1.
  Definition n2 : T := nofZ 2.
  Definition nopp (x : T) : T := nsub n0 x.
  Definition nsq (x : T) : T := nmul x x.
  (** [not x % 1] in Python: x is finite and whole. *)
  Definition niswhole (x : T) : bool :=
    match ntrunc x with Some z => neqb (nofZ z) x | None => false end.
  (** numpy.round(x, 6): rint(x * 1e6) / 1e6. *)
  Definition nround6 (x : T) : T :=
    ndiv (nrint (nmul x (nofZ 1000000))) (nofZ 1000000).
End Derived.

(** * Extended reals *)

Inductive xr : Type := NaN | PInf | NInf | Fin (r : R).

Definition Rltb (x y : R) : bool := if Rlt_dec x y then true else false.
Definition Rleb (x y : R) : bool := if Rle_dec x y then true else false.
Definition Reqb (x y : R) : bool := if Req_EM_T x y then true else false.

Definition xopp (x : xr) : xr :=
  match x with NaN => NaN | PInf => NInf | NInf => PInf | Fin r => Fin (- r)%R end.

Definition xadd (x y : xr) : xr :=
  match x, y with
  | NaN, _ | _, NaN => NaN
  | PInf, NInf | NInf, PInf => NaN
  | PInf, _ | _, PInf => PInf
  | NInf, _ | _, NInf => NInf
  | Fin a, Fin b => Fin (a + b)%R
  end.

Definition xsub (x y : xr) : xr := xadd x (xopp y).

(** sign of a real as an infinity *)
Definition xsgn_inf (a : R) : xr :=
  if Rltb 0 a then PInf else if Rltb a 0 then NInf else NaN.

Definition xmul (x y : xr) : xr :=
  match x, y with
  | NaN, _ | _, NaN => NaN
  | PInf, PInf | NInf, NInf => PInf
  | PInf, NInf | NInf, PInf => NInf
  | PInf, Fin a | Fin a, PInf => xsgn_inf a
  | NInf, Fin a | Fin a, NInf => xopp (xsgn_inf a)
  | Fin a, Fin b => Fin (a * b)%R
  end.

(** numpy division; zero has no sign here, so x/0 takes the sign of x. *)
Definition xdiv (x y : xr) : xr :=
  match x, y with
  | NaN, _ | _, NaN => NaN
  | PInf, PInf | PInf, NInf | NInf, PInf | NInf, NInf => NaN
  | PInf, Fin b => if Rltb b 0 then NInf else PInf
  | NInf, Fin b => if Rltb b 0 then PInf else NInf
  | Fin _, PInf | Fin _, NInf => Fin 0
  | Fin a, Fin b => if Reqb b 0 then xsgn_inf a else Fin (a / b)%R
  end.

Definition xabs (x : xr) : xr :=
  match x with NaN => NaN | PInf | NInf => PInf | Fin r => Fin (Rabs r) end.

Definition xsqrt (x : xr) : xr :=
  match x with
  | NaN | NInf => NaN
  | PInf => PInf
  | Fin r => if Rltb r 0 then NaN else Fin (sqrt r)
  end.

Definition xltb (x y : xr) : bool :=
  match x, y with
  | NaN, _ | _, NaN => false
  | NInf, NInf => false
  | NInf, _ => true
  | PInf, _ => false
  | Fin _, PInf => true
  | Fin _, NInf => false
  | Fin a, Fin b => Rltb a b
  end.

Definition xleb (x y : xr) : bool :=
  match x, y with
  | NaN, _ | _, NaN => false
  | NInf, _ => true
  | _, NInf => false
  | _, PInf => true
  | PInf, Fin _ => false
  | Fin a, Fin b => Rleb a b
  end.

Definition xeqb (x y : xr) : bool :=
  match x, y with
  | PInf, PInf | NInf, NInf => true
  | Fin a, Fin b => Reqb a b
  | _, _ => false
  end.

Definition xisnan (x : xr) : bool := match x with NaN => true | _ => false end.

(** round half to even *)
Definition Rrint (r : R) : Z :=
  let f := Int_part r in
  let d := (r - IZR f)%R in
  if Rltb d (1/2) then f
  else if Rltb (1/2) d then (f + 1)%Z
  else if Z.even f then f else (f + 1)%Z.

Definition Rtrunc (r : R) : Z :=
  if Rleb 0 r then Int_part r else (- Int_part (- r))%Z.

Definition xrint (x : xr) : xr :=
  match x with Fin r => Fin (IZR (Rrint r)) | _ => x end.

Definition xtrunc (x : xr) : option Z :=
  match x with Fin r => Some (Rtrunc r) | _ => None end.

Global Instance XRnum : Num xr := {|
  nadd := xadd; nsub := xsub; nmul := xmul; ndiv := xdiv;
  nabs := xabs; nsqrt := xsqrt;
  nofZ := fun z => Fin (IZR z); nnan := NaN; ninf := PInf;
  nltb := xltb; nleb := xleb; neqb := xeqb; nisnan := xisnan;
  nrint := xrint; ntrunc := xtrunc |}.

(** * IEEE binary64 (executable) *)

Definition f64 := spec_float.
Definition f64_ofZ (z : Z) : f64 := binary_normalize 53 1024 z 0 false.

Definition f64_absZ_floor (m : positive) (e : Z) : Z :=
  if (0 <=? e)%Z then (Zpos m * 2 ^ e)%Z else (Zpos m / 2 ^ (- e))%Z.

Definition f64_trunc (x : f64) : option Z :=
  match x with
  | S754_zero _ => Some 0%Z
  | S754_finite s m e =>
      let a := f64_absZ_floor m e in Some (if s then (- a)%Z else a)
  | _ => None
  end.

Definition f64_rint (x : f64) : f64 :=
  match x with
  | S754_finite s m e =>
      if (0 <=? e)%Z then x else
      let d := (2 ^ (- e))%Z in
      let q := (Zpos m / d)%Z in
      let r2 := (2 * (Zpos m mod d))%Z in
      let q' := if (r2 <? d)%Z then q
                else if (d <? r2)%Z then (q + 1)%Z
                else if Z.even q then q else (q + 1)%Z in
      if (q' =? 0)%Z then S754_zero s
      else let y := f64_ofZ q' in if s then SFopp y else y
  | _ => x
  end.

Global Instance F64num : Num f64 := {|
  nadd := SFadd 53 1024; nsub := SFsub 53 1024;
  nmul := SFmul 53 1024; ndiv := SFdiv 53 1024;
  nabs := SFabs; nsqrt := SFsqrt 53 1024;
  nofZ := f64_ofZ; nnan := S754_nan; ninf := S754_infinity false;
  nltb := SFltb; nleb := SFleb; neqb := SFeqb;
  nisnan := fun x => match x with S754_nan => true | _ => false end;
  nrint := f64_rint; ntrunc := f64_trunc |}.

(** * Transcendental operations (only used on [xr]) *)

Definition Rlog10 (x : R) : R := (ln x / ln 10)%R.

(** numpy.log10 *)
Definition xlog10 (x : xr) : xr :=
  match x with
  | NaN | NInf => NaN
  | PInf => PInf
  | Fin r => if Rltb 0 r then Fin (Rlog10 r)
             else if Reqb r 0 then NInf else NaN
  end.

(** numpy.exp *)
Definition xexp (x : xr) : xr :=
  match x with NaN => NaN | PInf => PInf | NInf => Fin 0 | Fin r => Fin (exp r) end.

(** * Comparison lemmas *)

Lemma Rltb_spec x y : reflect (x < y)%R (Rltb x y).
Proof. unfold Rltb. destruct (Rlt_dec x y); constructor; auto. Qed.
Lemma Rleb_spec x y : reflect (x <= y)%R (Rleb x y).
Proof. unfold Rleb. destruct (Rle_dec x y); constructor; auto. Qed.
Lemma Reqb_spec x y : reflect (x = y) (Reqb x y).
Proof. unfold Reqb. destruct (Req_EM_T x y); constructor; auto. Qed.

Lemma Rltb_true x y : (x < y)%R -> Rltb x y = true.
Proof. intros H. destruct (Rltb_spec x y); auto; contradiction. Qed.
Lemma Rltb_false x y : (y <= x)%R -> Rltb x y = false.
Proof. intros H. destruct (Rltb_spec x y); auto; lra. Qed.
Lemma Rleb_true x y : (x <= y)%R -> Rleb x y = true.
Proof. intros H. destruct (Rleb_spec x y); auto; contradiction. Qed.
Lemma Rleb_false x y : (y < x)%R -> Rleb x y = false.
Proof. intros H. destruct (Rleb_spec x y); auto; lra. Qed.
Lemma Reqb_true x y : x = y -> Reqb x y = true.
Proof. intros H. destruct (Reqb_spec x y); auto; contradiction. Qed.
Lemma Reqb_false x y : x <> y -> Reqb x y = false.
Proof. intros H. destruct (Reqb_spec x y); auto; contradiction. Qed.

Lemma Rltb_iff x y : Rltb x y = true <-> (x < y)%R.
Proof. destruct (Rltb_spec x y); split; intros; auto; try discriminate; contradiction. Qed.
Lemma Rleb_iff x y : Rleb x y = true <-> (x <= y)%R.
Proof. destruct (Rleb_spec x y); split; intros; auto; try discriminate; contradiction. Qed.
Lemma Reqb_iff x y : Reqb x y = true <-> x = y.
Proof. destruct (Reqb_spec x y); split; intros; auto; try discriminate; contradiction. Qed.

Lemma xdiv_fin a b : b <> 0%R -> xdiv (Fin a) (Fin b) = Fin (a / b).
Proof. intros H. simpl. now rewrite Reqb_false. Qed.

Lemma xsqrt_fin a : (0 <= a)%R -> xsqrt (Fin a) = Fin (sqrt a).
Proof. intros H. simpl. now rewrite Rltb_false. Qed.

(** finiteness *)
Definition xfin (x : xr) : bool := match x with Fin _ => true | _ => false end.

(** rounding lemmas *)
Lemma Int_part_spec r z : (IZR z <= r < IZR z + 1)%R -> Int_part r = z.
Proof.
  intros [H1 H2]. unfold Int_part.
  assert (up r = (z + 1)%Z) as ->.
  { symmetry. apply tech_up; rewrite plus_IZR; lra. }
  lia.
Qed.

Lemma Int_part_bounds r : (IZR (Int_part r) <= r < IZR (Int_part r) + 1)%R.
Proof. destruct (base_Int_part r). lra. Qed.

Lemma Int_part_IZR z : Int_part (IZR z) = z.
Proof. apply Int_part_spec. lra. Qed.

Lemma Rrint_IZR z : Rrint (IZR z) = z.
Proof.
  unfold Rrint. rewrite Int_part_IZR.
  rewrite Rltb_true by lra. reflexivity.
Qed.

Lemma Rrint_near r : (Rabs (IZR (Rrint r) - r) <= 1/2)%R.
Proof.
  pose proof (Int_part_bounds r) as H. unfold Rrint.
  destruct (Rltb_spec (r - IZR (Int_part r)) (1/2)).
  - rewrite Rabs_left1; lra.
  - destruct (Rltb_spec (1/2) (r - IZR (Int_part r))).
    + rewrite plus_IZR, Rabs_pos_eq; lra.
    + destruct (Z.even (Int_part r)).
      * rewrite Rabs_left1; lra.
      * rewrite plus_IZR, Rabs_pos_eq; lra.
Qed.

Lemma Rrint_mono x y : (x <= y)%R -> (Rrint x <= Rrint y)%Z.
Proof.
  intros H.
  pose proof (Int_part_bounds x) as Hx. pose proof (Int_part_bounds y) as Hy.
  assert (Hfl : (Int_part x <= Int_part y)%Z).
  { apply Z.lt_succ_r. apply lt_IZR. rewrite succ_IZR. lra. }
  destruct (Z.eq_dec (Int_part x) (Int_part y)) as [E|E].
  - unfold Rrint. rewrite <- E in *.
    destruct (Rltb_spec (x - IZR (Int_part x)) (1/2));
    destruct (Rltb_spec (y - IZR (Int_part x)) (1/2));
    destruct (Rltb_spec (1/2) (x - IZR (Int_part x)));
    destruct (Rltb_spec (1/2) (y - IZR (Int_part x)));
    destruct (Z.even (Int_part x)); try lia; exfalso; lra.
  - assert (Rrint x <= Int_part x + 1)%Z.
    { unfold Rrint. destruct (Rltb _ _); [lia|]. destruct (Rltb _ _); [lia|].
      destruct (Z.even _); lia. }
    assert (Int_part y <= Rrint y)%Z.
    { unfold Rrint. destruct (Rltb (y - _) _); [lia|]. destruct (Rltb _ (y - _)); [lia|].
      destruct (Z.even _); lia. }
    lia.
Qed.

Lemma Rtrunc_IZR z : Rtrunc (IZR z) = z.
Proof.
  unfold Rtrunc. destruct (Rleb_spec 0 (IZR z)).
  - apply Int_part_IZR.
  - rewrite <- opp_IZR, Int_part_IZR. lia.
Qed.

(** decide every real comparison in the goal with lra *)
Ltac rdec :=
  repeat match goal with
  | |- context [Rltb ?a ?b] => destruct (Rltb_spec a b); try (exfalso; lra)
  | |- context [Rleb ?a ?b] => destruct (Rleb_spec a b); try (exfalso; lra)
  | |- context [Reqb ?a ?b] => destruct (Reqb_spec a b); try (exfalso; lra)
  end.
