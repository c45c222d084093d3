(** Vocabulary for the coefficients of Chebyshev series in binary64. *)
From Coq Require Import List Arith Reals.
From Flocq Require Import Core.Core IEEE754.BinarySingleNaN.
From Verif Require Import F64 M_Series S_Series S_Angles S_Double S_Cheb S_Ser64 S_Rot64.
Local Open Scope R_scope.

(** Ends (and length of a segment) between 2^-900 and 2^900 in magnitude. *)
Definition axis_usable (a : axis f64) : Prop := axis_finite a /\
  match axis_values a with
  | Closed lo hi => lo < hi /\ axis_moderate (Closed lo hi)
  | Opened lo => bpow radix2 (-900) <= lo <= bpow radix2 900
  end.

(** The point of the axis that stands at the r-th node of order [n]. *)
Definition node_point (a : axis R) (n r : nat) : R :=
  match a with
  | Closed lo hi => (hi - lo) / 2 * node n r + (hi + lo) / 2
  | Opened lo => 2 * lo / (1 - node n r)
  end.

(** Relative error along an axis with order [n], for a cosine accurate to
    [kappa] roundings. *)
Definition coef_err (kappa : R) (n : nat) : R := INR (n + 1) * INR (n + 1) * (4 * kappa + 100) * uround.

(** The double [v] is a node of the axis up to rounding. *)
Definition near_node (kappa : R) (a : axis f64) (n r : nat) (v : f64) : Prop :=
  within match axis_values a with
         | Closed lo hi => (2 * kappa + 42) * uround * Rmax (Rabs lo) (Rabs hi)
         | Opened lo => coef_err kappa n * node_point (Opened lo) n r
         end v (node_point (axis_values a) n r).

(** The function is finite and at most [M] near the nodes. *)
Definition sampled (kappa : R) (f : f64 -> f64) (a : axis f64) (n : nat) (M : R) : Prop :=
  forall r v, (r <= n)%nat -> near_node kappa a n r v -> is_finite (f v) = true /\ Rabs (dvalue (f v)) <= M.
Definition sampled2 (kappa : R) (f : f64 -> f64 -> f64) (ax ay : axis f64) (m n : nat) (M : R) : Prop :=
  forall r v, (r <= m)%nat -> near_node kappa ax m r v -> sampled kappa (f v) ay n M.
Definition sampled3 (kappa : R) (f : f64 -> f64 -> f64 -> f64) (ax ay az : axis f64) (m n p : nat) (M : R) : Prop :=
  forall r v, (r <= m)%nat -> near_node kappa ax m r v -> sampled2 kappa (f v) ay az n p M.

(** Rounding errors add up along the axes; with three of them the number of
    terms counts too. *)
Definition coef_err2 (kappa : R) (m n : nat) : R := coef_err kappa m + coef_err kappa n.
Definition coef_err3 (kappa : R) (m n p : nat) : R :=
  coef_err kappa m + coef_err kappa n + coef_err kappa p + 2 * INR ((m + 1) * (n + 1) * (p + 1)) * uround.
