(** Specification vocabulary for the accuracy of Chebyshev approximation. *)
From Coq Require Import List Arith ZArith Reals.
From Verif Require Import M_Series S_Series S_Cheb.
Import ListNotations.
Open Scope R_scope.

(** [D 1], ..., [D k] are the successive derivatives of [D 0] on [I], and the
    last one is bounded by [M]. *)
Definition derivatives (I : R -> Prop) (k : nat) (D : nat -> R -> R) (M : R) : Prop :=
  (forall j x, (j < k)%nat -> I x -> derivable_pt_lim (D j) x (D (S j) x)) /\
  (forall x, I x -> Rabs (D k x) <= M).

(** The points of an axis, and its unit coordinates. *)
Definition in_axis (a : axis R) (x : R) : Prop :=
  match a with Closed lo hi => lo <= x <= hi | Opened lo => lo <= x end.
Definition unit_dom (a : axis R) (u : R) : Prop :=
  match a with Closed _ _ => -1 <= u <= 1 | Opened _ => -1 <= u < 1 end.
(** The point of the axis at unit coordinate [u]. *)
Definition point_of (a : axis R) (u : R) : R :=
  match a with Closed lo hi => (hi + lo) / 2 + (hi - lo) / 2 * u | Opened lo => 2 * lo / (1 - u) end.

(** As a function of the unit coordinate, [f] has k derivatives, the k-th
    bounded by [M]. *)
Definition smooth_on (a : axis R) (k : nat) (f : R -> R) (M : R) : Prop :=
  exists D, (forall u, unit_dom a u -> D 0%nat u = f (point_of a u)) /\ derivatives (unit_dom a) k D M.

(** The error of interpolation at [n + 1] Chebyshev nodes when the derivative
    of order [n + 1] is bounded by [M]. *)
Definition cheb_remainder (n : nat) (M : R) : R := M / (2 ^ n * INR (fact (n + 1))).
(** Growth of the errors of the samples. *)
Definition growth (n : nat) : R := 2 * INR n + 1.
