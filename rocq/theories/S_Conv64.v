(** Vocabulary for the conversion of Chebyshev series to power series in binary64. *)
From Coq Require Import List Arith ZArith Reals.
From Flocq Require Import Core.Core IEEE754.BinarySingleNaN.
From Verif Require Import Num NumFun F64 S_Angles S_Double S_Rot64 S_Ser64 S_Series.
Local Open Scope R_scope.

(** Coefficient of x^k in the Chebyshev polynomial T_n. *)
Fixpoint cheb_coef (n k : nat) : Z :=
  match n with
  | O => match k with O => 1 | S _ => 0 end
  | S p => match p with
           | O => match k with S O => 1 | _ => 0 end
           | S q => 2 * match k with O => 0 | S l => cheb_coef p l end - cheb_coef q k
           end
  end%Z.

(** The library's pow is exact on integers when the result is a double (it is
    when its error is below half a unit in the last place beyond the rounding,
    as in glibc).  Nothing is assumed of the other functions. *)
Definition pow_exact (TT : NumTr f64) : Prop := forall (b k : Z) (v : f64), b <> 0%Z -> (Z.abs b < 2 ^ 53)%Z -> (Z.abs k < 2 ^ 53)%Z ->
  is_finite v = true -> dvalue v = powerRZ (IZR b) k -> npow (f64_ofZ b) (f64_ofZ k) = v.

(** Coefficient of t^i in the series with Chebyshev coefficients [c] of order
    [n], and the sum of the magnitudes of its terms for magnitudes [c]. *)
Definition power_coef (n : nat) (c : nat -> R) (i : nat) : R := bsum (n + 1) (fun r => c r * IZR (cheb_coef r i)).
Definition power_size (n : nat) (c : nat -> R) (i : nat) : R := bsum (n + 1) (fun r => c r * Rabs (IZR (cheb_coef r i))).
(** Magnitude of a double; [tiny] covers underflow. *)
Definition mag (x : f64) : R := Rabs (dvalue x) + tiny.

(** A library with an exact pow, used in the examples only. *)
Definition exact_pow : NumTr f64 := {| nsqrt x := x; nsin x := x; ncos x := x; nasin x := x; natan2 y x := y;
  npow b x := if Req_EM_T (IZR (Zfloor (dvalue x))) (dvalue x) then ofR (powerRZ (dvalue b) (Zfloor (dvalue x))) else ofR (Rpower (dvalue b) (dvalue x));
  nexp x := x; nlog x := x |}.
