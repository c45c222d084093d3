(** Vocabulary for simplex interpolation in binary64. *)
From Coq Require Import List Arith Reals Permutation.
From Verif Require Import F64 S_Angles S_Double.
Import ListNotations.
Local Open Scope R_scope.

(** Any way of sorting the axes by their local coordinates (finite doubles), as
    [std::sort] does; ties may be left in any order. *)
Definition sorts_axes64 (sort_axes : list f64 -> list nat) : Prop :=
  forall ys, all_finite ys -> Permutation (sort_axes ys) (seq 0 (length ys)) /\
    forall i j, (i < j < length ys)%nat ->
      nth (nth i (sort_axes ys) 0%nat) (dvalues ys) 0 <= nth (nth j (sort_axes ys) 0%nat) (dvalues ys) 0.
