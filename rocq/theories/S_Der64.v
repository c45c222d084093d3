(** Vocabulary for the derivatives of power series in binary64. *)
From Coq Require Import List Arith Reals.
From Flocq Require Import Core.Core IEEE754.BinarySingleNaN.
From Verif Require Import F64 M_Series S_Angles S_Series S_Cheb S_Double S_Ser64.
Import ListNotations.
Local Open Scope R_scope.

(** Rate of the unit coordinate along the axis. *)
Definition unit_rate (a : axis R) (x : R) : R :=
  match a with Closed lo hi => 2 / (hi - lo) | Opened lo => 2 * lo / (x * x) end.
(** On a half-line the square of the coordinate must stay in range. *)
Definition rate_moderate (a : axis R) (x : R) : Prop :=
  match a with Closed _ _ => True | Opened lo => bpow radix2 (-300) <= lo /\ x <= bpow radix2 300 end.

(** Sums of the magnitudes of the coefficients times their exponents. *)
Definition vec_dsum (b : list f64) : R := bsum (length b) (fun i => INR i * Rabs (nth i (dvalues b) 0)).
Definition mat_dsum_x (A : mat f64) : R := bsum (m_rows A) (fun i => INR i * bsum (m_cols A) (fun j => Rabs (dvalue (m_at A i j)))).
Definition mat_dsum_y (A : mat f64) : R := bsum (m_rows A) (fun i => bsum (m_cols A) (fun j => INR j * Rabs (dvalue (m_at A i j)))).
Definition box_dsum_x (B : list (mat f64)) : R := bsum (length B) (fun k => mat_dsum_x (nth k B no_mat)).
Definition box_dsum_y (B : list (mat f64)) : R := bsum (length B) (fun k => mat_dsum_y (nth k B no_mat)).
Definition box_dsum_z (B : list (mat f64)) : R := bsum (length B) (fun k => INR k * mat_sum (nth k B no_mat)).

(** [v] is finite and close to the derivative [D]: relative error [err] and 12
    roundings, with respect to the rate [c] times the sum [S] (with a floor). *)
Definition close_to_rate (v : f64) (D err c S : R) : Prop :=
  is_finite v = true /\ Rabs (dvalue v - D) <= (err + 12 * uround) * (c * S) + tiny.
