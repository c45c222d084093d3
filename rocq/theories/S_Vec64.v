(** Vocabulary for vectors of doubles. *)
From Coq Require Import List Arith ZArith Reals.
From Flocq Require Import IEEE754.BinarySingleNaN.
From Verif Require Import Num NumFun F64 M_Triangle M_Vec S_Angles S_Double S_Vec.
Import ListNotations.
Local Open Scope R_scope.

(** The square root is the IEEE one (correctly rounded); nothing is assumed of
    the other functions of the mathematical library. *)
Definition ieee_sqrt (TT : NumTr f64) : Prop := forall x : f64, nsqrt x = Bsqrt mode_NE x.

Definition dvec3 (v : vec3 f64) : vec3 R := mkV3 (dvalue (vx v)) (dvalue (vy v)) (dvalue (vz v)).
Definition coords3 {A} (v : vec3 A) : list A := [vx v; vy v; vz v].
Definition norm3 (v : vec3 R) : R := sqrt (dot3 v v).
(** All coordinates finite and at most [M] in magnitude. *)
Definition bounded3 (M : R) (v : vec3 f64) : Prop :=
  Forall (fun x => is_finite x = true /\ Rabs (dvalue x) <= M) (coords3 v).
(** Some coordinate is at least [m] in magnitude. *)
Definition reaches3 (m : R) (v : vec3 f64) : Prop := Exists (fun x => m <= Rabs (dvalue x)) (coords3 v).
(** Coordinate by coordinate relation between two vectors. *)
Definition each3 {A B} (P : A -> B -> Prop) (v : vec3 A) (w : vec3 B) : Prop := P (vx v) (vx w) /\ P (vy v) (vy w) /\ P (vz v) (vz w).
(** Cross product. *)
Definition cross3 (a b : vec3 R) : vec3 R :=
  mkV3 (vy a * vz b - vz a * vy b) (vz a * vx b - vx a * vz b) (vx a * vy b - vy a * vx b).
(** The same with every product counted positively: scale of the rounding errors. *)
Definition cross3_abs (a b : vec3 R) : vec3 R :=
  mkV3 (Rabs (vy a * vz b) + Rabs (vz a * vy b)) (Rabs (vz a * vx b) + Rabs (vx a * vz b)) (Rabs (vx a * vy b) + Rabs (vy a * vx b)).
Definition dot3_abs (a b : vec3 R) : R := Rabs (vx a * vx b) + Rabs (vy a * vy b) + Rabs (vz a * vz b).

(** A library with the IEEE square root, used in the examples only. *)
Definition sqrt_only : NumTr f64 := {| nsqrt := Bsqrt mode_NE; nsin x := x; ncos x := x; nasin x := x; natan2 y x := y; npow x y := x; nexp x := x; nlog x := x |}.
