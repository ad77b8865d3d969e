(** Proofs about the drawing code: correction grids, images, files. *)
From Coq Require Import String.
From Verif Require Import Base Num Numpy M_Utils M_Photometry M_Petrosian M_Correction M_PSF M_Fitting M_Plot S_Plot.
From Verif Require Import L_Numpy L_Plot L_Plot2 L_Plot3.
Local Open Scope list_scope.

Ltac norm := rewrite <- ?app_assoc; cbn [List.app].

(** one call at a time *)
Section Steps.
  Context {T : Type} {N : Num T}.
  Definition add (s : canvas (T:=T)) (a : axes) (c : cmd) : canvas :=
    mkcanvas (cv_cur s) (cv_next s) (cv_trace s ++ [(a, c)]).
  Lemma bind_put {B} a c (f : unit -> draw (T:=T) B) s : dbind (put a c) f s = f tt (add s a c).
  Proof. reflexivity. Qed.
  Lemma bind_ok {A B} (x : A) (f : A -> draw (T:=T) B) s : dbind (dlift (Ok x)) f s = f x s.
  Proof. reflexivity. Qed.
  Lemma bind_ret {A B} (x : A) (f : A -> draw (T:=T) B) s : dbind (dret x) f s = f x s.
  Proof. reflexivity. Qed.
  Lemma bind_err {A B} e (f : A -> draw (T:=T) B) s : dbind (dlift (Err e)) f s = (Err e, s).
  Proof. reflexivity. Qed.
  Lemma bind_gca {B} (f : axes -> draw (T:=T) B) s : dbind gca f s = f (cv_cur s) s.
  Proof. reflexivity. Qed.
  Lemma bind_sca {B} a (f : unit -> draw (T:=T) B) s : dbind (sca a) f s = f tt (mkcanvas a (cv_next s) (cv_trace s)).
  Proof. reflexivity. Qed.
  Lemma bind_ticks {B} a b (f : unit -> draw (T:=T) B) s : dbind (mpl_tick_frame (Some a) b) f s = f tt (add s a (Ticks b)).
  Proof. reflexivity. Qed.
  Lemma bind_assoc {A B C} (m : draw (T:=T) A) (f : A -> draw B) (g : B -> draw C) s :
    dbind (dbind m f) g s = dbind m (fun x => dbind (f x) g) s.
  Proof. unfold dbind. destruct (m s) as [[a|e] s']; reflexivity. Qed.
  Lemma put_last a c (s : canvas (T:=T)) : put a c s = (Ok tt, add s a c).
  Proof. reflexivity. Qed.
  Lemma add_cur s a c : cv_cur (add s a c) = cv_cur s. Proof. reflexivity. Qed.
  Lemma add_next s a c : cv_next (add s a c) = cv_next s. Proof. reflexivity. Qed.
  Lemma add_trace s a c : cv_trace (add s a c) = cv_trace s ++ [(a, c)]. Proof. reflexivity. Qed.
  (** several calls *)
  Lemma add_adds (s : canvas (T:=T)) a c : add s a c = adds s [(a, c)]. Proof. reflexivity. Qed.
  Lemma adds_adds (s : canvas (T:=T)) d e : adds (adds s d) e = adds s (d ++ e).
  Proof. unfold adds. cbn. rewrite app_assoc. reflexivity. Qed.
  Lemma adds_nil (s : canvas (T:=T)) : adds s [] = s.
  Proof. unfold adds. rewrite app_nil_r. destruct s; reflexivity. Qed.
  Lemma adds_cur (s : canvas (T:=T)) d : cv_cur (adds s d) = cv_cur s. Proof. reflexivity. Qed.
  Lemma adds_next (s : canvas (T:=T)) d : cv_next (adds s d) = cv_next s. Proof. reflexivity. Qed.
  Lemma adds_trace (s : canvas (T:=T)) d : cv_trace (adds s d) = cv_trace s ++ d. Proof. reflexivity. Qed.
End Steps.
Ltac step := first [rewrite bind_put | rewrite bind_ok | rewrite bind_ret | rewrite bind_gca | rewrite bind_sca
                   | rewrite bind_ticks | rewrite bind_assoc | rewrite bind_err]; cbv beta.

Section Grid.
  Context {T : Type} {N : Num T} {NL : NumLog T}.
  Variable mk : kind -> list T -> list T -> result (T -> T).

  (** the same correction without range check *)
  Definition relaxed (c : correction T) : correction T := mkcor (c_grid c) false (c_x c) (c_y c) (c_z c).

  Definition color_label (key : string) (cl : option string) : string :=
    match cl with Some s => if nonempty s then s else key | None => key end.
  Definition sup_title (st : option string) : string :=
    match st with Some s => if nonempty s then s else "Petrosian Correction Grid" | None => "Petrosian Correction Grid" end%string.

  Definition grid_calls (c : correction T) (v : list T) (m x0 y0 z0 cx cy cz : T) key cl st (a0 a1 a2 : axes)
    : list (axes * cmd (T:=T)) :=
    [(a0, Scatter (c_x c) (c_y c) v n0 (nadd m n1)); (a0, XLabel "$r_{{p}}(\eta=0.2)$"); (a0, YLabel "$r_{{50}}$"); (a0, Ticks false);
     (a1, Scatter (c_x c) (c_z c) v n0 (nadd m n1)); (a1, XLabel "$r_{{p}}(\eta=0.2)$"); (a1, YLabel "$C_{2080}$"); (a1, Ticks false);
     (a2, Scatter (c_y c) (c_z c) v n0 (nadd m n1)); (a2, XLabel "$r_{{50}}$"); (a2, YLabel "$C_{2080}$"); (a2, Ticks false);
     (a0, Point x0 y0); (a1, Point x0 z0); (a2, Point y0 z0);
     (a0, Line [x0; cx] [y0; cy]); (a1, Line [x0; cx] [z0; cz]); (a2, Line [y0; cy] [z0; cz]);
     (a0, Colorbar (color_label key cl)); (a0, SupTitle (sup_title st))]%string.

  Lemma grid_run c x0 y0 z0 key cl st a0 a1 a2 s v m i cx cy cz :
    column (c_grid c) key = Ok v -> pymax v = Ok m -> argmin (dr c x0 y0 z0) = Some i ->
    index (c_x c) i = Ok cx -> index (c_y c) i = Ok cy -> index (c_z c) i = Ok cz ->
    plot_grid c (Some (x0, y0, z0)) key cl st (Some [a0; a1; a2]) s =
    (Ok [a0; a1; a2], mkcanvas (cv_cur s) (cv_next s) (cv_trace s ++ grid_calls c v m x0 y0 z0 cx cy cz key cl st a0 a1 a2)).
  Proof.
    intros H1 H2 H3 H4 H5 H6. unfold plot_grid, py_max. cbn [List.length Nat.eqb].
    step. rewrite H1. step. rewrite H2, H3. cbv zeta. cbn [nth].
    repeat step. rewrite H4. repeat step. rewrite H5. repeat step. rewrite H6. repeat step.
    rewrite !add_adds, !adds_adds. reflexivity.
  Qed.

  Lemma grid_new_axes c t key cl st s :
    plot_grid (T:=T) c t key cl st None s =
    plot_grid c t key cl st (Some [cv_next s; S (cv_next s); S (S (cv_next s))])
      (mkcanvas (S (S (cv_next s))) (S (S (S (cv_next s)))) (cv_trace s)).
  Proof.
    unfold plot_grid. cbn [List.length Nat.eqb]. rewrite bind_ret.
    unfold dbind at 1. unfold subplots at 1.
    replace (cv_next s + 3 - 1)%nat with (S (S (cv_next s))) by lia.
    replace (cv_next s + 3)%nat with (S (S (S (cv_next s)))) by lia.
    reflexivity.
  Qed.
End Grid.
