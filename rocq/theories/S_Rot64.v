(** Vocabulary for rotations and projections in double. *)
From Coq Require Import List Arith ZArith Reals.
From Flocq Require Import Core.Core IEEE754.BinarySingleNaN.
From Verif Require Import Num NumFun F64 M_Triangle M_Geometry M_Vec S_Angles S_Double.
Import ListNotations.
Local Open Scope R_scope.

(** The sine and cosine of the mathematical library are finite on finite
    arguments and within [kappa] times 2^-53 of the exact ones (glibc: less
    than 2); nothing is assumed of the other functions. *)
Definition libm_near (kappa : R) (TT : NumTr f64) : Prop := forall x : f64, is_finite x = true ->
  is_finite (nsin x) = true /\ Rabs (dvalue (nsin x) - sin (dvalue x)) <= kappa * uround /\
  is_finite (ncos x) = true /\ Rabs (dvalue (ncos x) - cos (dvalue x)) <= kappa * uround.

(** The double [x] is finite and within [e] of the real [y]. *)
Definition within (e : R) (x : f64) (y : R) : Prop := is_finite x = true /\ Rabs (dvalue x - y) <= e.

Definition dvec2 (v : vec2 f64) : vec2 R := mkV2 (dvalue (ux v)) (dvalue (uy v)).
Definition within2 (e : R) (v : vec2 f64) (w : vec2 R) : Prop := within e (ux v) (ux w) /\ within e (uy v) (uy w).
Definition bounded2 (M : R) (v : vec2 f64) : Prop :=
  (is_finite (ux v) = true /\ Rabs (dvalue (ux v)) <= M) /\ (is_finite (uy v) = true /\ Rabs (dvalue (uy v)) <= M).
(** Rotation of the plane by the angle [t]. *)
Definition turn2 (t : R) (v : vec2 R) : vec2 R := mkV2 (cos t * ux v - sin t * uy v) (sin t * ux v + cos t * uy v).

Definition entries {A} (m : mat3 A) : list A := [r00 m; r01 m; r02 m; r10 m; r11 m; r12 m; r20 m; r21 m; r22 m].
Definition dmat (m : mat3 f64) : mat3 R :=
  mkM33 (dvalue (r00 m)) (dvalue (r01 m)) (dvalue (r02 m)) (dvalue (r10 m)) (dvalue (r11 m)) (dvalue (r12 m))
        (dvalue (r20 m)) (dvalue (r21 m)) (dvalue (r22 m)).
Definition mat_within (e : R) (m : mat3 f64) (r : mat3 R) : Prop := Forall2 (within e) (entries m) (entries r).
Definition mat_close (e : R) (m r : mat3 R) : Prop := Forall2 (fun x y => Rabs (x - y) <= e) (entries m) (entries r).

Definition qparts {A} (q : quat A) : list A := [qw q; qx q; qy q; qz q].
Definition quat_within (e : R) (q : quat f64) (r : quat R) : Prop := Forall2 (within e) (qparts q) (qparts r).
Definition dquat (q : quat f64) : quat R := mkQ (dvalue (qw q)) (dvalue (qx q)) (dvalue (qy q)) (dvalue (qz q)).
Definition qnorm2 (q : quat R) : R := qw q * qw q + qx q * qx q + qy q * qy q + qz q * qz q.
Definition finite3 (e : vec3 f64) : Prop := is_finite (vx e) = true /\ is_finite (vy e) = true /\ is_finite (vz e) = true.
(** C: the arc sine of a number beyond 1 in magnitude is NaN. *)
Definition asin_domain (TT : NumTr f64) : Prop := forall x : f64, is_finite x = true -> 1 < Rabs (dvalue x) -> is_nan (nasin x) = true.

(** A library whose sine and cosine are correctly rounded, used in the examples
    only. *)
Definition ofR (r : R) : f64 :=
  let x := round radix2 (FLT_exp (-1074) 53) ZnearestE r in
  binary_normalize 53 1024 eq_refl eq_refl mode_NE (Ztrunc (scaled_mantissa radix2 (FLT_exp (-1074) 53) x)) (cexp radix2 (FLT_exp (-1074) 53) x) false.
Definition exact_trig : NumTr f64 := {| nsqrt x := x; nsin x := ofR (sin (dvalue x)); ncos x := ofR (cos (dvalue x)); nasin x := x; natan2 y x := y; npow x y := x; nexp x := x; nlog x := x |}.
