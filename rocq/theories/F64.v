(** IEEE 754 binary64 ([double]) with round-to-nearest-even, from Flocq. *)
From Coq Require Import ZArith Reals Bool Lia Lra Psatz.
From Flocq Require Import Core.Core IEEE754.BinarySingleNaN.
From Verif Require Import Num NumFun.
Local Open Scope Z_scope.

Global Instance prec53 : Prec_gt_0 53 := eq_refl.
Global Instance emax1024 : Prec_lt_emax 53 1024 := eq_refl.

Notation f64 := (binary_float 53 1024).

(** int -> double conversion / integer literal. *)
Definition f64_ofZ (z : Z) : f64 := binary_normalize 53 1024 _ _ mode_NE z 0 false.

(** M_PI (3.14159265358979323846) = 884279719003555 * 2^-48. *)
Definition f64_pi : f64 := binary_normalize 53 1024 _ _ mode_NE 884279719003555 (-48) false.

(** fmod (C11 7.12.10.1, F.10.7.1): exact, sign of the first operand. *)
Definition f64_fmod (x y : f64) : f64 :=
  match x, y with
  | B754_nan, _ | _, B754_nan => B754_nan
  | B754_infinity _, _ => B754_nan
  | _, B754_zero _ => B754_nan
  | _, B754_infinity _ => x
  | B754_zero _, B754_finite _ _ _ _ => x
  | B754_finite sx mx ex _, B754_finite _ my ey _ =>
      let e := Z.min ex ey in
      let r := Z.rem (cond_Zopp sx (Zpos mx * 2 ^ (ex - e))) (Zpos my * 2 ^ (ey - e)) in
      binary_normalize 53 1024 _ _ mode_NE r e sx
  end.

Definition f64_toZ (x : f64) : option Z :=
  match x with
  | B754_nan | B754_infinity _ => None
  | _ => Some (Btrunc x)
  end.

Global Instance F64Num : Num f64 := {|
  nadd := Bplus mode_NE; nsub := Bminus mode_NE; nmul := Bmult mode_NE; ndiv := Bdiv mode_NE;
  nneg := Bopp; nlt := Bltb; nle := Bleb; neq := Beqb; nofZ := f64_ofZ; npi := f64_pi
|}.

Global Instance F64NumFm : NumFm f64 := {|
  nfabs := Babs; nfmod := f64_fmod; nfloor := Bnearbyint mode_DN; ntoZ := f64_toZ
|}.
