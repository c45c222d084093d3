(** Specification vocabulary for cutting and refining triangles. *)
From Coq Require Import List Arith ZArith Reals.
From Verif Require Import M_Triangle S_Triangle S_TriErr.
Import ListNotations.
Open Scope R_scope.

(** The point p + t (r - p) of the line through p and r. *)
Definition on_side (t : R) (p r : vec3 R) : vec3 R :=
  mkV3 (vx p + t * (vx r - vx p)) (vy p + t * (vy r - vy p)) (vz p + t * (vz r - vz p)).
(** The four triangles of half the size. *)
Definition mid (p q : vec3 R) : vec3 R := on_side (1 / 2) p q.
Definition quarter (t : triangle) : list triangle :=
  let '(p, q, r) := t in let a := mid p q in let b := mid q r in let c := mid r p in
  [(p, a, c); (a, q, b); (c, b, r); (a, b, c)].
Fixpoint refine (n : nat) (ts : list triangle) : list triangle :=
  match n with O => ts | S n => refine n (flat_map quarter ts) end.
(** The vertices are at most [h] apart, coordinate by coordinate. *)
Definition apart_le (h : R) (v w : vec3 R) : Prop := Rabs (vx v - vx w) <= h /\ Rabs (vy v - vy w) <= h /\ Rabs (vz v - vz w) <= h.
Definition spans (h : R) (t : triangle) : Prop := let '(p, q, r) := t in apart_le h p q /\ apart_le h q r /\ apart_le h r p.
(** On every triangle of [A] spanning [h], [f] is within [K h^k] of a polynomial of degree at most [d] and size at most [B]. *)
Definition locally_polynomial (d k : nat) (A : vec3 R -> Prop) (f : vec3 R -> R) (K B : R) : Prop :=
  forall h p q r, spans h (p, q, r) -> (forall v, inside p q r v -> A v) ->
  exists l, degree_le d l /\ size l p q r <= B /\ forall v, inside p q r v -> Rabs (f v - poly3 l v) <= K * h ^ k.
