(** Vocabulary for the theorems about binary64 arithmetic ([dvalue] is in
    S_Angles.v). *)
From Coq Require Import List Arith Reals.
From Flocq Require Import IEEE754.BinarySingleNaN.
From Verif Require Import F64 S_Angles S_Series.
Import ListNotations.
Local Open Scope R_scope.

(** Unit roundoff 2^-53 and half of the smallest positive double, 2^-1075. *)
Definition uround : R := / 2 ^ 53.
Definition uflow : R := powerRZ 2 (-1075).

(** The values of a list of doubles. *)
Definition dvalues (l : list f64) : list R := map dvalue l.
Definition all_finite (l : list f64) : Prop := Forall (fun x => is_finite x = true) l.

(** The polynomial with coefficients [c], its derivative, and the same with
    absolute values everywhere (the condition number of the evaluation). *)
Definition poly (c : list R) (x : R) : R := bsum (length c) (fun i => nth i c 0 * x ^ i).
Definition poly_derivative (c : list R) (x : R) : R :=
  bsum (length c) (fun i => nth i c 0 * (INR i * x ^ pred i)).
Definition poly_abs (c : list R) (x : R) : R := poly (map Rabs c) (Rabs x).
Definition poly_derivative_abs (c : list R) (x : R) : R := poly_derivative (map Rabs c) (Rabs x).
