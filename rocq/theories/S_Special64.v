(** Vocabulary for the basic functions in binary64. *)
From Coq Require Import Reals.
From Flocq Require Import IEEE754.BinarySingleNaN.
From Verif Require Import F64 S_Angles S_Double.
Local Open Scope R_scope.

(** [h] is the value of a unit step at [s] taken at [v]; one half when one of
    them is NaN. *)
Definition is_heaviside (s v h : f64) : Prop :=
  is_finite h = true /\
  (is_nan v = true \/ is_nan s = true -> dvalue h = / 2) /\
  (is_finite v = true -> is_finite s = true ->
     (dvalue v < dvalue s -> dvalue h = 0) /\ (dvalue v = dvalue s -> dvalue h = / 2) /\ (dvalue s < dvalue v -> dvalue h = 1)).

(** The straight line through (xm, yl) and (xM, yr). *)
Definition ramp_value (xm xM yl yr x : R) : R := yl + (yr - yl) / (xM - xm) * (x - xm).

(** One element of the output of Ramp. *)
Definition is_ramp (xm xM yl yr x r : f64) : Prop :=
  (is_nan x = true -> r = yr) /\
  (is_finite x = true ->
     (dvalue x <= dvalue xm -> r = yl) /\ (dvalue xM < dvalue x -> r = yr) /\
     (dvalue xm < dvalue x <= dvalue xM -> is_finite r = true ->
        Rabs (dvalue r - ramp_value (dvalue xm) (dvalue xM) (dvalue yl) (dvalue yr) (dvalue x)) <=
          8 * uround * (Rabs (dvalue yl) + Rabs ((dvalue yr - dvalue yl) / (dvalue xM - dvalue xm)) * (Rabs (dvalue x) + Rabs (dvalue xm))) +
          3 * uflow * (1 + Rabs (dvalue x) + Rabs (dvalue xm)))).
