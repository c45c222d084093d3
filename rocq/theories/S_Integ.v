(** Specification vocabulary for one-dimensional integration. *)
From Coq Require Import List Arith ZArith Reals.
From Coquelicot Require Import Coquelicot.
From Verif Require Import Outcome M_Integ S_Series.
Import ListNotations.
Open Scope R_scope.

(** Sum of the areas of the trapezoids of the polyline (x_i, y_i). *)
Fixpoint areas (x y : list R) : R :=
  match x, y with
  | x0 :: xs, y0 :: ys =>
      match xs, ys with x1 :: _, y1 :: _ => (x1 - x0) * (y0 + y1) / 2 + areas xs ys | _, _ => 0 end
  | _, _ => 0
  end.

(** The same for n regularly spaced samples of [f] on [[a, b]]. *)
Definition areas_of (f : R -> R) (a b : R) (n : nat) : R :=
  let h := (b - a) / INR (n - 1) in
  bsum (n - 1) (fun i => h * (f (a + INR i * h) + f (a + INR (S i) * h)) / 2).

(** a + 0 h, a + 1 h, ..., n points. *)
Definition grid (a h : R) (n : nat) : list R := map (fun i => a + INR i * h) (seq 0 n).

(** [f1], [f2]: first and second derivatives of [f] on [[a, b]], the second
    bounded by [M]. *)
Definition twice_derivable (f f1 f2 : R -> R) (a b M : R) : Prop :=
  (forall x, a <= x <= b -> derivable_pt_lim f x (f1 x)) /\
  (forall x, a <= x <= b -> derivable_pt_lim f1 x (f2 x)) /\
  (forall x, a <= x <= b -> Rabs (f2 x) <= M).

(** Non-decreasing abscissae with steps at most [h]. *)
Fixpoint steps (h : R) (x : list R) : Prop :=
  match x with
  | x0 :: xs => match xs with x1 :: _ => x0 <= x1 <= x0 + h /\ steps h xs | [] => True end
  | [] => True
  end.

Definition axpy (a b : R) (y z : list R) : list R := map (fun p => a * fst p + b * snd p) (combine y z).

(** Calls on an Integrate1d object. *)
Inductive icall := CXmin (x : R) | CXmax (x : R) | CMethod (m : integration_method) | CGet.
Definition iapply (s : integ1 R) (c : icall) : integ1 R :=
  match c with
  | CXmin x => set_xmin x s | CXmax x => set_xmax x s | CMethod m => set_method m s
  | CGet => fst (integ1_get s)
  end.
(** What the caller can know after a sequence of calls: the bounds, the method,
    and whether a result was obtained since the last change of bounds. *)
Record iview := mkView { v_a : R; v_b : R; v_m : integration_method; v_got : bool }.
Definition vapply (v : iview) (c : icall) : iview :=
  match c with
  | CXmin x => mkView x (v_b v) (v_m v) false
  | CXmax x => mkView (v_a v) x (v_m v) false
  | CMethod m => mkView (v_a v) (v_b v) m (v_got v)
  | CGet => mkView (v_a v) (v_b v) (v_m v)
              (orb (v_got v) (match v_m v with TRAPEZOIDAL => true | NEWTON_COTES => false end))
  end.
Definition view_after (a b : R) (calls : list icall) : iview :=
  fold_left vapply calls (mkView a b TRAPEZOIDAL false).

(** What Get may return when the trapezoidal value is [V]. *)
Definition get_result (V : R) (v : iview) : outcome R :=
  if v_got v then Ok V else match v_m v with TRAPEZOIDAL => Ok V | NEWTON_COTES => Throw RuntimeError end.
