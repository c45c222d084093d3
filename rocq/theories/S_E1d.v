(** Vocabulary for the exponential integrals in double. *)
From Coq Require Import List Arith ZArith Reals.
From Flocq Require Import Core.Core IEEE754.BinarySingleNaN.
From Verif Require Import Num NumFun F64 S_Angles S_Double S_Rot64.
Import ListNotations.
Local Open Scope R_scope.

(** exp and log of the mathematical library have a relative error of at most
    [kappa] times 2^-53 wherever the result is far from overflow and underflow
    (glibc: less than 2); nothing is assumed of the other functions. *)
Definition libm_exp (kappa : R) (TT : NumTr f64) : Prop := forall x : f64, is_finite x = true -> Rabs (dvalue x) <= 700 ->
  is_finite (nexp x) = true /\ Rabs (dvalue (nexp x) - exp (dvalue x)) <= kappa * uround * exp (dvalue x).
Definition libm_log (kappa : R) (TT : NumTr f64) : Prop := forall x : f64, is_finite x = true -> 0 < dvalue x ->
  is_finite (nlog x) = true /\ Rabs (dvalue (nlog x) - ln (dvalue x)) <= kappa * uround * Rabs (ln (dvalue x)).

(** A table of doubles holding decimal literals: the compiler rounds each one
    to nearest (error 2^-53), the model divides two rounded integers. *)
Definition literals (P : list f64) (p : list R) : Prop :=
  Forall2 (fun f r => is_finite f = true /\ Rabs (dvalue f - r) <= 4 * uround * Rabs r) P p.

(** A library with correctly rounded exp and log, used in the examples only. *)
Definition exact_explog : NumTr f64 := {| nsqrt x := x; nsin x := x; ncos x := x; nasin x := x; natan2 y x := y; npow x y := x;
  nexp x := ofR (exp (dvalue x)); nlog x := ofR (ln (dvalue x)) |}.
