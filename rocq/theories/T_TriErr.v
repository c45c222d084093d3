(** Property C140: distance between the quadrature over triangles and the
    surface integral of a function that is not a polynomial.
    [continuous_in A f]: the restriction of [f] to [A] is continuous;
    [weights d]: 1 + 10^-13, or 2.2 for orders 3 and 7; [size l p q r]: size of
    the coefficients of the polynomial [l] on the triangle; [mesh_quadrature]:
    the quadratures over the triangles of a list, added up; [small_in A h t]:
    the triangle [t] is in [A] with its vertices less than [h] apart. *)
From Coq Require Import List Arith ZArith Reals Lra Lia Bool.
From Flocq Require Import IEEE754.BinarySingleNaN.
From Verif Require Import Outcome Num NumFun F64 M_Triangle S_Triangle S_Angles S_Double S_Vec S_Vec64 S_Tri64 S_TriErr L_Vec64 L_TriErr L_TriErr64.
Import ListNotations.
Local Open Scope R_scope.

(** The rule of order d is as good as any approximation by polynomials of degree d, up to a constant. *)
Theorem C140_triangle_best : forall (f : vec3 R -> R) d l p q r eps, (1 <= d <= 8)%nat -> degree_le d l -> continuous_in (inside p q r) f ->
  (forall v, inside p q r v -> Rabs (f v - poly3 l v) <= eps) ->
  exists v, quadrature f d p q r = Ok v /\
    Rabs (v - surface_integral f p q r) <= area p q r * ((weights d + 1) * eps + 4 / 10 ^ 14 * size l p q r).
Proof. exact best_lemma. Qed.
Print Assumptions C140_triangle_best.
(** A function that varies by at most [w] from its value at the first vertex. *)
Theorem C140_triangle_oscillation : forall (f : vec3 R -> R) d p q r w, (1 <= d <= 8)%nat -> continuous_in (inside p q r) f ->
  (forall v, inside p q r v -> Rabs (f v - f p) <= w) ->
  exists v, quadrature f d p q r = Ok v /\
    Rabs (v - surface_integral f p q r) <= area p q r * ((weights d + 1) * w + 4 / 10 ^ 14 * Rabs (f p)).
Proof. exact oscillation_lemma. Qed.
Print Assumptions C140_triangle_oscillation.
(** Meshes with small triangles: the sum of the quadratures tends to the
    integral over the mesh, up to the truncation of the tables. *)
Theorem C140_mesh_converges : forall (f : vec3 R -> R) lo hi F, continuous_in (in_cuboid lo hi) f -> (forall v, in_cuboid lo hi v -> Rabs (f v) <= F) -> forall eps, 0 < eps -> exists h, 0 < h /\
  forall d ts, (1 <= d <= 8)%nat -> List.Forall (small_in (in_cuboid lo hi) h) ts ->
  exists s, mesh_quadrature f d ts = Ok s /\ Rabs (s - mesh_sum (surface_integral f) ts) <= mesh_sum area ts * (eps + 4 / 10 ^ 14 * F).
Proof. exact mesh_converges. Qed.
Print Assumptions C140_mesh_converges.
(** In double: [f] is the computed integrand, [g] the function it approximates. *)
Theorem C140_triangle_best_double : forall (TT : NumTr f64), ieee_sqrt TT -> forall (f : vec3 f64 -> f64) (g : vec3 R -> R) d l p q r M F eps L e, (1 <= d <= 8)%nat -> degree_le d l ->
  / 2 ^ 200 <= M <= 2 ^ 200 -> / 2 ^ 400 <= F <= 2 ^ 400 -> bounded3 M p -> bounded3 M q -> bounded3 M r ->
  approximates f g (2 * M) eps F -> slope_le g (2 * M) L ->
  let P := dvec3 p in let Q := dvec3 q in let S := dvec3 r in
  (forall v, inside P Q S v -> Rabs (g v - poly3 l v) <= e) ->
  exists v, (let* t := tri_new f (Z.of_nat d) in tri_compute t p q r) = Ok v /\ is_finite v = true /\
    Rabs (dvalue v - surface_integral g P Q S) <=
      area P Q S * ((weights d + 1) * e + 4 / 10 ^ 14 * size l P Q S + weights d * (eps + 31 * uround * M * L)) + 500 * uround * (F * (M * M)).
Proof. exact tri_best_double. Qed.
Print Assumptions C140_triangle_best_double.

(** *** Concrete cases *)
(** |x|, within 1/8 of x^2 + 1/8 on the triangle (-1,0,0), (1,0,0), (0,1,0). *)
Example C140_example_abs : exists v, quadrature (fun v => Rabs (vx v)) 2 (mkV3 (-1) 0 0) (mkV3 1 0 0) (mkV3 0 1 0) = Ok v /\
  Rabs (v - surface_integral (fun v => Rabs (vx v)) (mkV3 (-1) 0 0) (mkV3 1 0 0) (mkV3 0 1 0)) <= 251 / 1000.
Proof. exact ex_abs. Qed.
Example C140_example_mesh : small_in (in_cuboid (mkV3 0 0 0) (mkV3 1 1 1)) (6 / 10) (mkV3 0 0 0, mkV3 (1 / 2) 0 0, mkV3 0 (1 / 2) 0) /\
  small_in (in_cuboid (mkV3 0 0 0) (mkV3 1 1 1)) (6 / 10) (mkV3 (1 / 2) (1 / 2) (1 / 2), mkV3 (1 / 2) 0 0, mkV3 0 (1 / 2) 0) /\
  continuous_in (in_cuboid (mkV3 0 0 0) (mkV3 1 1 1)) (fun v => Rabs (vx v)).
Proof. exact ex_mesh. Qed.
(** x, approximated by the constant 2, over the triangle (1,0,0), (3,0,0), (1,4,0) of area 4. *)
Example C140_example_double : ieee_sqrt sqrt_only /\ exists v,
  (let* t := tri_new (fun x : vec3 f64 => vx x) 2 in tri_compute (TT := sqrt_only) t (mkV3 (f64_ofZ 1) (f64_ofZ 0) (f64_ofZ 0)) (mkV3 (f64_ofZ 3) (f64_ofZ 0) (f64_ofZ 0)) (mkV3 (f64_ofZ 1) (f64_ofZ 4) (f64_ofZ 0))) = Ok v /\
  Rabs (dvalue v - surface_integral (fun x => vx x) (mkV3 1 0 0) (mkV3 3 0 0) (mkV3 1 4 0)) <= 9.
Proof. assert (H : ieee_sqrt sqrt_only) by (intros x; reflexivity). split; [exact H|]. exact (ex_dbl _ H). Qed.
