(** Specification vocabulary for angles and doubles. *)
From Coq Require Import ZArith Reals.
From Flocq Require Import Core.Core IEEE754.BinarySingleNaN.
From Verif Require Import F64.
Open Scope R_scope.

(** The two angles differ by a whole number of turns. *)
Definition congruent (turn a b : R) : Prop := exists k : Z, a - b = IZR k * turn.

(** The real number represented by a double (0 for infinities and NaN). *)
Definition dvalue (x : f64) : R := B2R x.
(** The double nearest to a real (ties to even), exponent range unbounded above. *)
Definition dround (x : R) : R := round radix2 (FLT_exp (-1074) 53) ZnearestE x.
(** Distance between neighbouring doubles around [x]. *)
Definition dulp (x : R) : R := ulp radix2 (FLT_exp (-1074) 53) x.
(** Largest finite double and smallest normal double. *)
Definition dmax : R := IZR (2 ^ 53 - 1) * powerRZ 2 971.
Definition dmin_normal : R := powerRZ 2 (-1022).
