(** Vocabulary for the quadrature over a triangle in binary64. *)
From Coq Require Import List Arith ZArith Reals.
From Flocq Require Import IEEE754.BinarySingleNaN.
From Verif Require Import Num NumFun F64 M_Triangle S_Angles S_Double S_Vec S_Vec64.
Import ListNotations.
Local Open Scope R_scope.

Definition in_box (B : R) (x : vec3 R) : Prop := Forall (fun c => Rabs c <= B) (coords3 x).
(** The double integrand [f] is within [eps] of [g] on the points of the box,
    and at most [F] in magnitude. *)
Definition approximates (f : vec3 f64 -> f64) (g : vec3 R -> R) (B eps F : R) : Prop :=
  forall x, bounded3 B x -> is_finite (f x) = true /\ Rabs (dvalue (f x)) <= F /\ Rabs (dvalue (f x) - g (dvec3 x)) <= eps.
(** Moving each coordinate by at most [t] changes [g] by at most [L * t]. *)
Definition slope_le (g : vec3 R -> R) (B L : R) : Prop :=
  forall x y t, in_box B x -> in_box B y -> each3 (fun a b => Rabs (a - b) <= t) x y -> Rabs (g x - g y) <= L * t.
