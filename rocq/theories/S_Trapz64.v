(** Vocabulary for the trapezoidal rule and the convolution in binary64. *)
From Coq Require Import List Arith ZArith Reals.
From Flocq Require Import IEEE754.BinarySingleNaN.
From Verif Require Import F64 S_Angles S_Double S_Series.
Import ListNotations.
Local Open Scope R_scope.

(** Finite doubles of magnitude at most [M]. *)
Definition ordinary (M : R) (l : list f64) : Prop := Forall (fun x => is_finite x = true /\ Rabs (dvalue x) <= M) l.

(** Area under the polyline (x_i, |y_i|), every step counted positively: the
    scale of the rounding errors. *)
Fixpoint areas_abs (x y : list R) : R :=
  match x, y with
  | x0 :: xs, y0 :: ys =>
      match xs, ys with x1 :: _, y1 :: _ => Rabs (x1 - x0) * (Rabs y0 + Rabs y1) / 2 + areas_abs xs ys | _, _ => 0 end
  | _, _ => 0
  end.

(** Integer-valued doubles. *)
Definition integers (l : list f64) (z : list Z) : Prop := Forall2 (fun x n => is_finite x = true /\ dvalue x = IZR n) l z.

(** The products a convolution integrates: entry [i] of the kernel times entry
    [i] of the signal, or times the mirrored entry. *)
Definition lagged (kernel signal : list R) (straight : bool) : list R :=
  map (fun i => nth i kernel 0 * nth (if straight then i else length kernel - 1 - i) signal 0) (seq 0 (length kernel)).
