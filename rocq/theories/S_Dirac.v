(** Specification vocabulary: sampled impulse, interpolating splines. *)
From Coq Require Import List Arith ZArith Reals Sorted.
Import ListNotations.
Open Scope R_scope.

(** a, a + h, ..., n points. *)
Definition uniform (a h : R) (n : nat) : list R := map (fun i => a + INR i * h) (seq 0 n).
(** [height] at index k, 0 elsewhere. *)
Definition impulse (n k : nat) (height : R) : list R := map (fun i => if (i =? k)%nat then height else 0) (seq 0 n).

Definition strictly_increasing (l : list R) : Prop := StronglySorted Rlt l.
(** What Eigen's fitting is assumed to do: with as many values as strictly
    increasing parameters and a degree below their number, the result takes
    the given values at the given parameters. *)
Definition interpolating (fit : list R -> nat -> list R -> R -> R) : Prop :=
  forall pts deg par, length pts = length par -> strictly_increasing par -> (2 <= length par)%nat -> (deg < length par)%nat ->
    forall i, (i < length par)%nat -> fit pts deg par (nth i par 0) = nth i pts 0.
