(** Specification vocabulary for BoostFunctions.h. *)
From Coq Require Import ZArith Reals Bool List.
From Coquelicot Require Import Coquelicot.
From Verif Require Import Outcome Num NumFun.
Open Scope R_scope.

(** ** Partial real arithmetic
    Operations that have no real value (division by zero, logarithm of a
    non-positive number, ...) give [None], and [None] is absorbing.  Running a
    model on these scalars tells whether it ever performs such an operation. *)
Definition pmap2 (f : R -> R -> R) (a b : option R) : option R :=
  match a, b with Some x, Some y => Some (f x y) | _, _ => None end.
Definition pcmp (f : R -> R -> bool) (a b : option R) : bool :=
  match a, b with Some x, Some y => f x y | _, _ => false end.
Definition pguard (bad : R -> bool) (f : R -> R) (a : option R) : option R :=
  match a with Some x => if bad x then None else Some (f x) | None => None end.
Definition pguard2 (bad : R -> R -> bool) (f : R -> R -> R) (a b : option R) : option R :=
  match a, b with Some x, Some y => if bad x y then None else Some (f x y) | _, _ => None end.

Definition PNum : Num (option R) := {|
  nadd := pmap2 Rplus; nsub := pmap2 Rminus; nmul := pmap2 Rmult;
  ndiv := pguard2 (fun _ y => Reqb y 0) Rdiv;
  nneg := option_map Ropp;
  nlt := pcmp Rltb; nle := pcmp Rleb; neq := pcmp Reqb;
  nofZ := fun z => Some (IZR z); npi := Some PI
|}.
Definition PNumFm : NumFm (option R) := {|
  nfabs := option_map Rabs;
  nfmod := pguard2 (fun _ y => Reqb y 0) Rfmod;
  nfloor := option_map (fun x => IZR (Flocq.Core.Raux.Zfloor x));
  ntoZ := fun a => match a with Some x => Some (Flocq.Core.Raux.Ztrunc x) | None => None end
|}.
(** pow: a zero base needs a non-negative exponent, a negative one an integer exponent. *)
Definition bad_pow (b e : R) : bool :=
  (Reqb b 0 && Rltb e 0) || (Rltb b 0 && negb (Reqb e (IZR (Flocq.Core.Raux.Zfloor e)))).
Definition PNumTr : NumTr (option R) := {|
  nsqrt := pguard (fun x => Rltb x 0) sqrt;
  nsin := option_map sin; ncos := option_map cos;
  nasin := pguard (fun x => Rltb x (-1) || Rltb 1 x) asin;
  natan2 := pmap2 Ratan2;
  npow := pguard2 bad_pow Rcpow;
  nexp := option_map exp;
  nlog := pguard (fun x => Rleb x 0) ln
|}.

(** The same outcome, its value being a defined number. *)
Definition defined (o : outcome R) : outcome (option R) := omap Some o.

(** ** Bessel functions
    The classical relations at one order and one argument (DLMF 10.6.1,
    10.29.1): recurrence, derivative, and the values at order -1 and 1. *)
Definition bessel_relations (F : R -> R -> R) (order x : R) : Prop :=
  F (order - 1) x + F (order + 1) x = 2 * order / x * F order x /\
  is_derive (F order) x ((F (order - 1) x - F (order + 1) x) / 2) /\
  F (-1) x = - F 1 x.
Definition modified_i_relations (F : R -> R -> R) (order x : R) : Prop :=
  F (order - 1) x - F (order + 1) x = 2 * order / x * F order x /\
  is_derive (F order) x ((F (order - 1) x + F (order + 1) x) / 2) /\
  F (-1) x = F 1 x.
Definition modified_k_relations (F : R -> R -> R) (order x : R) : Prop :=
  F (order - 1) x - F (order + 1) x = - (2 * order / x) * F order x /\
  is_derive (F order) x (- ((F (order - 1) x + F (order + 1) x) / 2)) /\
  F (-1) x = F 1 x.

(** Bessel's integrals (DLMF 10.9.2, 10.32.3): the functions of integer order. *)
Definition BesselJ (n x : R) : R := / PI * RInt (fun t => cos (n * t - x * sin t)) 0 PI.
Definition BesselI (n x : R) : R := / PI * RInt (fun t => exp (x * cos t) * cos (n * t)) 0 PI.

(** ** Exponential integral E1 (DLMF 6.2.1) *)
Definition E1 (x : R) : R := real (Lim (fun X => RInt (fun t => exp (- t) / t) x X) p_infty).

(** A list with one entry changed. *)
Definition replace {A} (l : list A) (i : nat) (a : A) : list A := firstn i l ++ a :: skipn (S i) l.
