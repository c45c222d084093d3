(** Specification of bilinear interpolation; independent of the model. *)
From Coq Require Import List Arith Reals.
Open Scope R_scope.

(** [v] is the bilinear blend at [(x,y)] of the corner values [d11] at
    [(x1,y1)], [d12] at [(x1,y2)], [d21] at [(x2,y1)], [d22] at [(x2,y2)]. *)
Definition bilinear (x1 x2 y1 y2 d11 d12 d21 d22 x y v : R) : Prop :=
  v * ((x2 - x1) * (y2 - y1)) =
    d11 * ((x2 - x) * (y2 - y)) + d12 * ((x2 - x) * (y - y1)) +
    d21 * ((x - x1) * (y2 - y)) + d22 * ((x - x1) * (y - y1)).

Definition min4 a b c d := Rmin (Rmin a b) (Rmin c d).
Definition max4 a b c d := Rmax (Rmax a b) (Rmax c d).

(** Same, for cell [(i, j)] of a table stored row by row (x is the slow index). *)
Definition patch (xs ys data : list R) (i j : nat) (x y v : R) : Prop :=
  bilinear (nth i xs 0) (nth (S i) xs 0) (nth j ys 0) (nth (S j) ys 0)
    (nth (length ys * i + j) data 0) (nth (length ys * i + S j) data 0)
    (nth (length ys * S i + j) data 0) (nth (length ys * S i + S j) data 0) x y v.

(** The point is in the bounding box of the table. *)
Definition inside (xs ys : list R) (x y : R) : Prop :=
  nth 0 xs 0 <= x <= nth (length xs - 1) xs 0 /\ nth 0 ys 0 <= y <= nth (length ys - 1) ys 0.

(** Cell [i] is the one containing [x], cells being closed on the right; everything
    left of the table is attributed to the first cell, nothing right of it to any. *)
Definition clamped_cell (xs : list R) (x : R) (i : nat) : Prop :=
  (S i < length xs)%nat /\ x <= nth (S i) xs 0 /\ (i = 0%nat \/ nth i xs 0 < x).
