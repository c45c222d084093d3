(** Specification vocabulary: a double function that samples a real one. *)
From Coq Require Import List Arith ZArith Reals.
From Flocq Require Import Core.Core IEEE754.BinarySingleNaN.
From Verif Require Import F64 M_Series S_Series S_Angles S_Double S_Rot64 S_Cheb S_Ser64 S_CCoef64.
Open Scope R_scope.

(** At the doubles that stand for the nodes the double function is within
    [delta] of the real one at the exact nodes. *)
Definition faithful (kappa : R) (f : f64 -> f64) (a : axis f64) (n : nat) (F : R -> R) (delta : R) : Prop :=
  forall r v, (r <= n)%nat -> near_node kappa a n r v -> Rabs (dvalue (f v) - F (node_point (axis_values a) n r)) <= delta.
Definition faithful2 (kappa : R) (f : f64 -> f64 -> f64) (ax ay : axis f64) (m n : nat) (F : R -> R -> R) (delta : R) : Prop :=
  forall r v, (r <= m)%nat -> near_node kappa ax m r v -> faithful kappa (f v) ay n (F (node_point (axis_values ax) m r)) delta.
Definition faithful3 (kappa : R) (f : f64 -> f64 -> f64 -> f64) (ax ay az : axis f64) (m n p : nat) (F : R -> R -> R -> R) (delta : R) : Prop :=
  forall r v, (r <= m)%nat -> near_node kappa ax m r v -> faithful2 kappa (f v) ay az n p (F (node_point (axis_values ax) m r)) delta.
