(** Vocabulary for arange in binary64. *)
From Coq Require Import List Arith ZArith Reals.
From Flocq Require Import IEEE754.BinarySingleNaN.
From Verif Require Import F64 S_Angles S_Double.
Local Open Scope R_scope.

(** [n] is the integer part of [q], or would be after a relative change of
    [q] by at most three roundings. *)
Definition floor_within_rounding (q : R) (n : nat) : Prop :=
  INR n <= q * (1 + 3 * uround) /\ q * (1 - 3 * uround) < INR n + 1.

(** Ordinary magnitudes for the arguments of arange. *)
Definition arange_ready (start stop step : f64) : Prop :=
  is_finite start = true /\ is_finite stop = true /\ is_finite step = true /\
  dvalue start < dvalue stop /\ 0 < dvalue step /\
  Rabs (dvalue start) <= 2 ^ 1000 /\ Rabs (dvalue stop) <= 2 ^ 1000 /\
  (dvalue stop - dvalue start) / dvalue step <= 2 ^ 32 - 2.
