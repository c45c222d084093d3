(** Specification of the exponential integral Ei. *)
From Coq Require Import Reals.
From Coquelicot Require Import Coquelicot.
From Verif Require Import S_Special.
Local Open Scope R_scope.

(** Principal value of the integral of exp(t)/t from minus infinity to x > 0
    (DLMF 6.2.5): the part below -e is -E1(e), after t := -t. *)
Definition is_Ei (x v : R) : Prop :=
  filterlim (fun e => RInt (fun t => exp t / t) e x - E1 e) (at_right 0) (locally v).
