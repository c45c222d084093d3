(** Specification vocabulary for tabulated functions; independent of the
    model of the code. *)
From Coq Require Import List Arith Reals.
Import ListNotations.
Open Scope R_scope.

(** Strictly increasing abscissae. *)
Definition increasing (xs : list R) : Prop :=
  forall i j, (i < j < length xs)%nat -> nth i xs 0 < nth j xs 0.

(** [(x, v)] lies on the straight line through [(x0,y0)] and [(x1,y1)]. *)
Definition on_line (x0 y0 x1 y1 x v : R) : Prop :=
  (v - y0) * (x1 - x0) = (y1 - y0) * (x - x0).

(** [v] is the value at [x] of the polygonal line through the samples: some
    cell contains [x] and [(x, v)] is on the chord of that cell. *)
Definition on_polyline (xs ys : list R) (x v : R) : Prop :=
  exists i, (S i < length xs)%nat /\
    nth i xs 0 <= x <= nth (S i) xs 0 /\
    on_line (nth i xs 0) (nth i ys 0) (nth (S i) xs 0) (nth (S i) ys 0) x v.

(** Nearest point of [[lo, hi]]. *)
Definition clamp (lo hi x : R) : R := Rmax lo (Rmin hi x).

Definition nondecreasing (ys : list R) : Prop :=
  forall i j, (i <= j < length ys)%nat -> nth i ys 0 <= nth j ys 0.

(** Every chord has slope at most [K] in absolute value. *)
Definition slopes_bounded (K : R) (xs ys : list R) : Prop :=
  forall i, (S i < length xs)%nat ->
    Rabs (nth (S i) ys 0 - nth i ys 0) <= K * (nth (S i) xs 0 - nth i xs 0).
