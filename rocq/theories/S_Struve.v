(** Specification vocabulary: Struve functions and the Bessel functions of the
    second kind of orders 0 and 1. *)
From Coq Require Import Reals.
From Coquelicot Require Import Coquelicot.
Open Scope R_scope.

(** DLMF 11.5.1, orders 0 and 1. *)
Definition StruveH0 (x : R) : R := 2 / PI * RInt (fun t => sin (x * cos t)) 0 (PI / 2).
Definition StruveH1 (x : R) : R := 2 * x / PI * RInt (fun t => sin (x * cos t) * sin t ^ 2) 0 (PI / 2).

(** Schlaefli's integral for integer order n and x > 0, DLMF 10.9.7
    ((-1)^n is written cos (n pi)). *)
Definition BesselY (n x : R) : R :=
  / PI * RInt (fun t => sin (x * sin t - n * t)) 0 PI
  - / PI * real (Lim (fun X => RInt (fun t => (exp (n * t) + exp (- (n * t)) * cos (n * PI)) * exp (- (x * sinh t))) 0 X) p_infty).
