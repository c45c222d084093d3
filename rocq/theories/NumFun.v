(** Further scalar operations used by the headers: <cmath> functions.

    [NumFm] gathers the functions whose results are determined by IEEE 754 /
    the C standard (exact ones), available for the reals and for binary64;
    [NumTr] the transcendental ones, available for the reals only. *)
From Coq Require Import ZArith Reals Bool.
From Flocq Require Import Core.Raux.
From Verif Require Import Num.

Class NumFm (T : Type) : Type := {
  nfabs : T -> T;            (* fabs *)
  nfmod : T -> T -> T;       (* fmod *)
  nfloor : T -> T;           (* floor *)
  ntoZ : T -> option Z       (* conversion to an unbounded integer: truncation;
                                [None] for NaN and infinities *)
}.

Class NumTr (T : Type) : Type := {
  nsqrt : T -> T;
  nsin : T -> T;
  ncos : T -> T;
  nasin : T -> T;
  natan2 : T -> T -> T;      (* atan2(y, x) *)
  npow : T -> T -> T;        (* pow(base, exponent) *)
  nexp : T -> T;
  nlog : T -> T
}.

(** fmod on the reals: x - y * trunc(x/y), the sign of x. *)
Definition Rfmod (x y : R) : R := (x - y * IZR (Ztrunc (x / y)))%R.

Global Instance RNumFm : NumFm R := {|
  nfabs := Rabs;
  nfmod := Rfmod;
  nfloor := fun x => IZR (Zfloor x);
  ntoZ := fun x => Some (Ztrunc x)
|}.

(** atan2 as in C (signed zeros do not exist in the reals: atan2(0,x<0) = pi). *)
Definition Ratan2 (y x : R) : R :=
  if Rltb 0 x then atan (y / x)
  else if Rltb x 0 then (if Rleb 0 y then (atan (y / x) + PI)%R else (atan (y / x) - PI)%R)
  else if Rltb 0 y then (PI / 2)%R
  else if Rltb y 0 then (- (PI / 2))%R
  else 0%R.

(** pow on the reals where the C function is finite and real: positive base;
    zero base with non-negative exponent; negative base with integer
    exponent.  Elsewhere (C returns an infinity or NaN) the value 0 is
    arbitrary and no theorem depends on it. *)
Definition Rcpow (b e : R) : R :=
  if Rltb 0 b then Rpower b e
  else if Reqb b 0 then (if Reqb e 0 then 1%R else 0%R)
  else if Reqb e (IZR (Zfloor e)) then powerRZ b (Zfloor e) else 0%R.

Global Instance RNumTr : NumTr R := {|
  nsqrt := sqrt; nsin := sin; ncos := cos; nasin := asin; natan2 := Ratan2;
  npow := Rcpow; nexp := exp; nlog := ln
|}.

