(** Vocabulary for logspace, the cardinal sine and velocity transport in double. *)
From Coq Require Import List Arith ZArith Reals.
From Flocq Require Import Core.Core IEEE754.BinarySingleNaN.
From Verif Require Import Num NumFun F64 S_Angles S_Double S_Rot64 M_Geometry M_Vec S_Vec.
Import ListNotations.
Local Open Scope R_scope.

(** sin(v)/v, continued by 1. *)
Definition sinc (v : R) : R := if Req_EM_T v 0 then 1 else sin v / v.

(** The sine of the mathematical library is within [kappa] times 2^-53 of the
    exact one, relatively to the argument when that is below 1 (glibc: less than
    2); its pow has a relative error of at most [kappa] times 2^-53 for a
    positive base and a result far from overflow and underflow (glibc: less
    than 2).  Nothing is assumed of the other functions. *)
Definition libm_sine (kappa : R) (TT : NumTr f64) : Prop := forall x : f64, is_finite x = true ->
  within (kappa * uround * Rmin 1 (Rabs (dvalue x))) (nsin x) (sin (dvalue x)).
Definition libm_pow (kappa : R) (TT : NumTr f64) : Prop := forall b x : f64, is_finite b = true -> is_finite x = true -> 0 < dvalue b ->
  Rabs (dvalue x * ln (dvalue b)) <= 700 ->
  within (kappa * uround * Rpower (dvalue b) (dvalue x)) (npow b x) (Rpower (dvalue b) (dvalue x)).

(** The two bounds of linspace are finite, in order, and the spacing is neither
    subnormal nor overflows (C87). *)
Definition grid_ready (start stop : f64) (num : nat) : Prop :=
  is_finite start = true /\ is_finite stop = true /\ dvalue start <= dvalue stop /\ dvalue stop - dvalue start <= dmax /\
  (2 <= num)%nat /\ (Z.of_nat num < 2 ^ 32)%Z /\
  (dvalue start = dvalue stop \/ INR (num - 1) * dmin_normal <= dvalue stop - dvalue start).
(** The k-th of [num] evenly spaced points, and how far linspace may be from it. *)
Definition grid_point (start stop : f64) (num k : nat) : R :=
  dvalue start + INR k * ((dvalue stop - dvalue start) / INR (num - 1)).
Definition grid_size (start stop : f64) : R :=
  4 * (dvalue stop - dvalue start) + Rmax (Rabs (dvalue start)) (Rabs (dvalue stop)).

(** [t] is the velocity [v] transported to [p] under the rotation rate [k] (in
    radians per second), v + k x p, up to rounding. *)
Definition near_transport (k : R) (v p t : vec2 f64) : Prop :=
  let e := add2 (dvec2 v) (scal2 k (quarter (dvec2 p))) in
  within ((Rabs (dvalue (ux v)) + 17 * Rabs (k * dvalue (uy p))) * uround + 2 * uflow) (ux t) (ux e) /\
  within ((Rabs (dvalue (uy v)) + 17 * Rabs (k * dvalue (ux p))) * uround + 2 * uflow) (uy t) (uy e).

(** A library with an accurate sine and pow, used in the examples only. *)
Definition exact_sinpow : NumTr f64 := {| nsqrt x := x;
  nsin x := if Rle_dec (Rabs (dvalue x)) (/ 2 ^ 30) then x else ofR (sin (dvalue x));
  ncos x := x; nasin x := x; natan2 y x := y; npow b x := ofR (Rpower (dvalue b) (dvalue x)); nexp x := x; nlog x := x |}.
