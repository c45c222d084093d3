(** Vocabulary for power and Chebyshev series in binary64. *)
From Coq Require Import List Arith Reals.
From Flocq Require Import Core.Core IEEE754.BinarySingleNaN.
From Verif Require Import F64 M_Series S_Angles S_Series S_Cheb S_Double.
Import ListNotations.
Local Open Scope R_scope.

(** The axis with the values of its ends. *)
Definition axis_values (a : axis f64) : axis R :=
  match a with Closed lo hi => Closed (dvalue lo) (dvalue hi) | Opened lo => Opened (dvalue lo) end.
Definition axis_finite (a : axis f64) : Prop :=
  match a with Closed lo hi => is_finite lo = true /\ is_finite hi = true | Opened lo => is_finite lo = true end.

(** A point of the axis. *)
Definition on_axis (a : axis R) (x : R) : Prop :=
  match a with Closed lo hi => lo < hi /\ lo <= x <= hi | Opened lo => 0 < lo <= x end.
(** Ends and length between 2^-900 and 2^900 (no condition on a half-line). *)
Definition axis_moderate (a : axis R) : Prop :=
  match a with
  | Closed lo hi => Rmax (Rabs lo) (Rabs hi) <= bpow radix2 900 /\ bpow radix2 (-900) <= hi - lo
  | Opened _ => True
  end.
(** Roundings in the unit coordinate: large when the segment is short compared
    with its distance to 0. *)
Definition axis_cond (a : axis R) : R :=
  match a with Closed lo hi => 5 * (Rmax (Rabs lo) (Rabs hi) / (hi - lo)) + 4 | Opened _ => 4 end.

(** A usable axis and a point of it. *)
Definition usable (a : axis f64) (x : f64) : Prop :=
  axis_finite a /\ is_finite x = true /\ on_axis (axis_values a) (dvalue x) /\ axis_moderate (axis_values a).

(** Sums of magnitudes must stay below [huge]; [tiny] covers underflow. *)
Definition huge : R := bpow radix2 800.
Definition tiny : R := bpow radix2 (-900).

(** Coefficients in a vector: the sum of their magnitudes. *)
Definition vec_sum (b : list f64) : R := bsum (length b) (fun i => Rabs (nth i (dvalues b) 0)).

(** Coefficients in a matrix: all finite, value of the polynomial at [u], [v],
    sum of the magnitudes. *)
Definition mat_finite (A : mat f64) : Prop := forall i j, (i < m_rows A)%nat -> (j < m_cols A)%nat -> is_finite (m_at A i j) = true.
Definition mat_poly (A : mat f64) (u v : R) : R :=
  bsum (m_rows A) (fun i => bsum (m_cols A) (fun j => dvalue (m_at A i j) * v ^ j) * u ^ i).
Definition mat_sum (A : mat f64) : R := bsum (m_rows A) (fun i => bsum (m_cols A) (fun j => Rabs (dvalue (m_at A i j)))).

(** Coefficients in a list of [nx] by [ny] matrices. *)
Definition no_mat : mat f64 := mkMat 0 0 (fun _ _ => f64_ofZ 0).
Definition box_ok (nx ny : nat) (B : list (mat f64)) : Prop :=
  forall k, (k < length B)%nat -> m_rows (nth k B no_mat) = nx /\ m_cols (nth k B no_mat) = ny /\ mat_finite (nth k B no_mat).
Definition box_poly (B : list (mat f64)) (u v w : R) : R := bsum (length B) (fun k => mat_poly (nth k B no_mat) u v * w ^ k).
Definition box_sum (B : list (mat f64)) : R := bsum (length B) (fun k => mat_sum (nth k B no_mat)).

(** Relative error of [n] coefficients along an axis of condition [k]: powers,
    and Chebyshev polynomials up to order [n]. *)
Definition power_err (n : nat) (k : R) : R := INR (n - 1) * (2 * k + 10) * uround.
Definition cheb_err (n : nat) (k : R) : R := INR n * INR (n + 1) * (4 * k + 20) * uround.
