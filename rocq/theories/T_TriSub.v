(** Property C145: cutting and refining triangles.  The surface integral is the
    same whatever the order of the vertices and adds up over the parts of a
    triangle, so do the quadratures up to their error; the quadratures over the
    successive refinements of a triangle tend to the integral over the triangle.
    [on_side t p r]: p + t (r - p); [refine n ts]: every triangle cut in four
    from the middles of its sides, n times; [spans h t]: vertices at most h
    apart in each coordinate; [locally_polynomial d k A f K B]: on the triangles
    of A spanning h, f is within K h^k of a polynomial of degree d and size B. *)
From Coq Require Import List Arith ZArith Reals Lra Lia Bool.
From Verif Require Import Outcome Num NumFun M_Triangle S_Triangle S_TriErr S_TriSub L_TriSub L_TriSub2 L_TriSub3.
Import ListNotations.
Local Open Scope R_scope.

(** The integral, independent of the vertex taken first, additive. *)
Theorem C145_integral_symmetric : forall f p q r, continuous_in (inside p q r) f ->
  surface_integral f p q r = surface_integral f p r q /\ surface_integral f p q r = surface_integral f r q p /\ surface_integral f p q r = surface_integral f q p r.
Proof. exact surface_perm. Qed.
Print Assumptions C145_integral_symmetric.
Theorem C145_integral_cut : forall f p q r t, 0 <= t <= 1 -> continuous_in (inside p q r) f ->
  surface_integral f p q r = surface_integral f p q (on_side t p r) + surface_integral f (on_side t p r) q r.
Proof. exact surface_cut. Qed.
Print Assumptions C145_integral_cut.
(** Integrating over a triangle or over its two parts. *)
Theorem C145_quadrature_cut : forall f d l p q r t eps, (1 <= d <= 8)%nat -> degree_le d l -> 0 <= t <= 1 -> continuous_in (inside p q r) f ->
  (forall v, inside p q r v -> Rabs (f v - poly3 l v) <= eps) -> let m := on_side t p r in
  exists v v1 v2, quadrature f d p q r = Ok v /\ quadrature f d p q m = Ok v1 /\ quadrature f d m q r = Ok v2 /\
    Rabs (v - (v1 + v2)) <= area p q r * (2 * (weights d + 1) * eps + 4 / 10 ^ 14 * (size l p q r + Rmax (size l p q m) (size l m q r))).
Proof. exact cut_lemma. Qed.
Print Assumptions C145_quadrature_cut.
Theorem C145_quadrature_cut_polynomial : forall d l p q r t, (1 <= d <= 8)%nat -> degree_le d l -> 0 <= t <= 1 -> let m := on_side t p r in
  exists v v1 v2, quadrature (poly3 l) d p q r = Ok v /\ quadrature (poly3 l) d p q m = Ok v1 /\ quadrature (poly3 l) d m q r = Ok v2 /\
    Rabs (v - (v1 + v2)) <= area p q r * (4 / 10 ^ 14 * (size l p q r + Rmax (size l p q m) (size l m q r))).
Proof. exact cut_poly. Qed.
Print Assumptions C145_quadrature_cut_polynomial.
(** Refinement: convergence for continuous integrands, order of convergence for smooth ones. *)
Theorem C145_refine_converges : forall f p q r F, continuous_in (inside p q r) f -> (forall v, inside p q r v -> Rabs (f v) <= F) -> forall eps, 0 < eps -> exists N,
  forall n d, (N <= n)%nat -> (1 <= d <= 8)%nat ->
  exists s, mesh_quadrature f d (refine n [(p, q, r)]) = Ok s /\ Rabs (s - surface_integral f p q r) <= area p q r * (eps + 4 / 10 ^ 14 * F).
Proof. exact refine_converges. Qed.
Print Assumptions C145_refine_converges.
Theorem C145_refine_rate : forall f d k p q r K B h n, (1 <= d <= 8)%nat -> continuous_in (inside p q r) f -> locally_polynomial d k (inside p q r) f K B -> spans h (p, q, r) ->
  exists s, mesh_quadrature f d (refine n [(p, q, r)]) = Ok s /\
    Rabs (s - surface_integral f p q r) <= area p q r * ((weights d + 1) * (K * (h / 2 ^ n) ^ k) + 4 / 10 ^ 14 * B).
Proof. exact refine_rate. Qed.
Print Assumptions C145_refine_rate.

(** *** Concrete cases, on the triangle (0,0,0), (1,0,0), (0,1,0) *)
(** x y with the rule of order 2, cut at a third of a side. *)
Example C145_example_cut : exists v v1 v2, quadrature (poly3 [mkM3 1 1 1 0]) 2 u0 u1 u2 = Ok v /\ quadrature (poly3 [mkM3 1 1 1 0]) 2 u0 u1 (mkV3 0 (1 / 3) 0) = Ok v1 /\
  quadrature (poly3 [mkM3 1 1 1 0]) 2 (mkV3 0 (1 / 3) 0) u1 u2 = Ok v2 /\ Rabs (v - (v1 + v2)) <= 1 / 10 ^ 12.
Proof. exact ex_cut. Qed.
(** x^2 with the rule of order 1: each refinement divides the error by 4. *)
Example C145_example_rate : locally_polynomial 1 2 (inside u0 u1 u2) (fun v => vx v ^ 2) 1 7 /\
  forall n, exists s, mesh_quadrature (fun v => vx v ^ 2) 1 (refine n [(u0, u1, u2)]) = Ok s /\
  Rabs (s - surface_integral (fun v => vx v ^ 2) u0 u1 u2) <= 11 / 10 / 4 ^ n + 1 / 10 ^ 12.
Proof. exact (conj sq_local ex_rate). Qed.
(** |x - 1/3|, not differentiable. *)
Example C145_example_continuous : exists N, forall n d, (N <= n)%nat -> (1 <= d <= 8)%nat -> exists s, mesh_quadrature (fun v => Rabs (vx v - 1 / 3)) d (refine n [(u0, u1, u2)]) = Ok s /\
  Rabs (s - surface_integral (fun v => Rabs (vx v - 1 / 3)) u0 u1 u2) <= 1 / 1000.
Proof. exact ex_abs_refine. Qed.
