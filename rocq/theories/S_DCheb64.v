(** Vocabulary for the derivatives of Chebyshev series in binary64. *)
From Coq Require Import List Arith Reals.
From Verif Require Import F64 S_Angles S_Series S_Double S_Ser64.
Local Open Scope R_scope.

(** Sums of the magnitudes of the coefficients times the squares of the orders
    along the differentiated axis (the largest slopes of the polynomials). *)
Definition cheb_dsum (n : nat) (a : nat -> f64) : R := bsum (n + 1) (fun i => INR i * INR i * Rabs (dvalue (a i))).
Definition cheb_dsum2 (m n : nat) (a : nat -> nat -> f64) : R :=
  bsum (m + 1) (fun i => INR i * INR i * bsum (n + 1) (fun j => Rabs (dvalue (a i j)))).
Definition cheb_dsum3 (m n p : nat) (a : nat -> nat -> nat -> f64) : R :=
  bsum (m + 1) (fun i => INR i * INR i * bsum (n + 1) (fun j => bsum (p + 1) (fun k => Rabs (dvalue (a i j k))))).

(** Relative error of a sum of [n] products. *)
Definition terms_err (n : nat) : R := 8 * INR n * uround.
