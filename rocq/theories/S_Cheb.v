(** Specification vocabulary for Chebyshev series. *)
From Coq Require Import List Arith ZArith Reals.
From Verif Require Import Outcome M_Series S_Series.
Import ListNotations.
Open Scope R_scope.

(** Chebyshev polynomials of the first kind. *)
Fixpoint cheb (n : nat) (x : R) : R :=
  match n with
  | O => 1
  | S p => match p with O => x | S q => 2 * x * cheb p x - cheb q x end
  end.

(** r-th Chebyshev node of order [n] in [-1, 1]. *)
Definition node (n r : nat) : R := cos (PI * (2 * INR r + 1) / (2 * (INR n + 1))).

(** Non-degenerate axes: a segment, or a half-line starting right of 0. *)
Definition axis_valid (a : axis R) : Prop :=
  match a with Closed lo hi => lo < hi | Opened lo => 0 < lo end.

(** The unit coordinate of [x] along an axis. *)
Definition unit_of (a : axis R) (x : R) : R :=
  match a with Closed lo hi => segment_unit lo hi x | Opened lo => halfline_unit lo x end.

(** The point of the axis that stands at the r-th node of order [n]. *)
Definition is_node (a : axis R) (n r : nat) (x : R) : Prop :=
  regular a x /\ unit_of a x = node n r.

(** The variable in which the approximation is polynomial: x on a segment,
    1/x on a half-line. *)
Definition poly_var (a : axis R) (x : R) : R :=
  match a with Closed _ _ => x | Opened _ => / x end.

Definition is_poly1 (a : axis R) (n : nat) (f : R -> R) : Prop :=
  exists g, forall x, regular a x -> f x = bsum (n + 1) (fun i => g i * poly_var a x ^ i).
Definition is_poly2 (ax ay : axis R) (m n : nat) (f : R -> R -> R) : Prop :=
  exists g, forall x y, regular ax x -> regular ay y ->
    f x y = bsum (m + 1) (fun i => bsum (n + 1) (fun j => g i j * poly_var ax x ^ i * poly_var ay y ^ j)).
Definition is_poly3 (ax ay az : axis R) (m n p : nat) (f : R -> R -> R -> R) : Prop :=
  exists g, forall x y z, regular ax x -> regular ay y -> regular az z ->
    f x y z = bsum (m + 1) (fun i => bsum (n + 1) (fun j => bsum (p + 1) (fun k =>
      g i j k * poly_var ax x ^ i * poly_var ay y ^ j * poly_var az z ^ k))).

(** Normalisation of the i-th coefficient of order [n]. *)
Definition weight (n i : nat) : R := match i with O => 1 / (INR n + 1) | S _ => 2 / (INR n + 1) end.
