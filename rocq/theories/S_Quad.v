(** Specification vocabulary for integrals of sampled functions. *)
From Coq Require Import List Arith Reals.
From Verif Require Import S_Series S_Integ.
Import ListNotations.
Open Scope R_scope.

(** The entries of [ys] are the values of [F] at the entries of [xs], to within [delta]. *)
Definition near_samples (delta : R) (F : R -> R) (xs ys : list R) : Prop :=
  forall i, (i < length xs)%nat -> Rabs (nth i ys 0 - F (nth i xs 0)) <= delta.

(** [f] and its first two derivatives are bounded by [B0], [B1], [B2] on [[a, b]]. *)
Definition bounded2 (f : R -> R) (a b B0 B1 B2 : R) : Prop :=
  exists f1 f2, twice_derivable f f1 f2 a b B2 /\ forall x, a <= x <= b -> Rabs (f x) <= B0 /\ Rabs (f1 x) <= B1.

(** Error of the trapezoidal rule over a length [L] with steps [h] when the
    second derivative is bounded by [M]. *)
Definition trapz_err (M h L : R) : R := M * h ^ 2 * L / 12.
