(** C128: quadrature over a triangle in binary64. *)
From Coq Require Import List Arith ZArith Reals Bool Lia Lra.
From Flocq Require Import IEEE754.BinarySingleNaN.
From Verif Require Import Outcome Num NumFun F64 M_Triangle S_Triangle S_Angles S_Double S_Vec S_Vec64 S_Tri64 L_Vec64 L_Tri64.
Import ListNotations.
Local Open Scope R_scope.

(** C128. The rule evaluated in double is within rounding of the rule
    evaluated exactly.  The absolute weights of orders 3 and 7 sum to more than
    1 (one weight is negative), the others are positive. *)
Theorem C128_triangle_double : forall (TT : NumTr f64), ieee_sqrt TT -> forall (f : vec3 f64 -> f64) (g : vec3 R -> R) d p q r M F eps L, (1 <= d <= 8)%nat ->
  / 2 ^ 200 <= M <= 2 ^ 200 -> / 2 ^ 400 <= F <= 2 ^ 400 -> bounded3 M p -> bounded3 M q -> bounded3 M r ->
  approximates f g (2 * M) eps F -> slope_le g (2 * M) L ->
  exists v w, (let* t := tri_new f (Z.of_nat d) in tri_compute t p q r) = Ok v /\ is_finite v = true /\
    (let* t := tri_new g (Z.of_nat d) in tri_compute t (dvec3 p) (dvec3 q) (dvec3 r)) = Ok w /\
    Rabs (dvalue v - w) <= (if existsb (Nat.eqb d) [1; 2; 4; 5; 6; 8]%nat then 1 + 1 / 10 ^ 13 else 22 / 10) * area (dvec3 p) (dvec3 q) (dvec3 r) * (eps + 31 * uround * M * L) + 500 * uround * (F * (M * M)).
Proof. exact tri_double_lemma. Qed.
Print Assumptions C128_triangle_double.

(** Hence close to the integral, for polynomials of the announced degree. *)
Theorem C128_triangle_polynomial_double : forall (TT : NumTr f64), ieee_sqrt TT -> forall (f : vec3 f64 -> f64) l d p q r M F eps L, (1 <= d <= 8)%nat -> degree_le d l ->
  / 2 ^ 200 <= M <= 2 ^ 200 -> / 2 ^ 400 <= F <= 2 ^ 400 -> bounded3 M p -> bounded3 M q -> bounded3 M r ->
  approximates f (poly3 l) (2 * M) eps F -> slope_le (poly3 l) (2 * M) L ->
  exists v, (let* t := tri_new f (Z.of_nat d) in tri_compute t p q r) = Ok v /\ is_finite v = true /\
    Rabs (dvalue v - surface_integral (poly3 l) (dvec3 p) (dvec3 q) (dvec3 r)) <=
      area (dvec3 p) (dvec3 q) (dvec3 r) * ((if existsb (Nat.eqb d) [1; 2; 4; 5; 6; 8]%nat then 1 + 1 / 10 ^ 13 else 22 / 10) * (eps + 31 * uround * M * L) + 4 / 10 ^ 14 * size l (dvec3 p) (dvec3 q) (dvec3 r)) +
      500 * uround * (F * (M * M)).
Proof. exact tri_poly_lemma. Qed.
Print Assumptions C128_triangle_polynomial_double.

(** The error is not relative to the area: a sliver of positive area, with
    coordinates at most 2, on which the constant 1 integrates to 0. *)
Theorem C128_sliver_refuted : forall (TT : NumTr f64), ieee_sqrt TT -> exists p q r v, bounded3 2 p /\ bounded3 2 q /\ bounded3 2 r /\
  0 < area (dvec3 p) (dvec3 q) (dvec3 r) /\ (let* t := tri_new (fun _ => f64_ofZ 1) 1 in tri_compute t p q r) = Ok v /\ dvalue v = 0.
Proof. exact sliver_pf. Qed.
Print Assumptions C128_sliver_refuted.

(** x over the triangle (1,0,0), (3,0,0), (1,4,0), with the correctly rounded square root. *)
Example C128_example : ieee_sqrt sqrt_only /\ exists v,
  (let* t := tri_new (fun x : vec3 f64 => vx x) 2 in tri_compute (TT := sqrt_only) t (mkV3 (f64_ofZ 1) (f64_ofZ 0) (f64_ofZ 0)) (mkV3 (f64_ofZ 3) (f64_ofZ 0) (f64_ofZ 0)) (mkV3 (f64_ofZ 1) (f64_ofZ 4) (f64_ofZ 0))) = Ok v /\
  Rabs (dvalue v - surface_integral (fun x => vx x) (mkV3 1 0 0) (mkV3 3 0 0) (mkV3 1 4 0)) <= 1 / 10 ^ 10.
Proof. assert (H : ieee_sqrt sqrt_only) by (intros x; reflexivity). split; [exact H|]. apply (ex_tri _ H). Qed.
