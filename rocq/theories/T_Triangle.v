(** C67, C68: quadrature over a triangle. *)
From Coq Require Import List Arith ZArith Bool Reals Lra Lia.
From Coquelicot Require Import Coquelicot.
From Verif Require Import Outcome Num NumFun M_Triangle S_Triangle L_Triangle L_Triangle2.
Import ListNotations.
Local Open Scope R_scope.

(** C67. Order d integrates every polynomial of degree at most d over every
    triangle, up to the truncation of the decimals of the tables. *)
Theorem C67_triangle_degree : forall d l p q r, (1 <= d <= 8)%nat -> degree_le d l ->
  exists v, (let* t := tri_new (poly3 l) (Z.of_nat d) in tri_compute t p q r) = Ok v /\
    Rabs (v - surface_integral (poly3 l) p q r) <= 2 * area p q r * (2 / 10 ^ 14 * size l p q r).
Proof. exact degree_lemma. Qed.
Print Assumptions C67_triangle_degree.
(** The announced degree is not exceeded. *)
Theorem C67_triangle_degree_sharp : forall d, (1 <= d <= 8)%nat -> exists l p q r v, degree_le (d + 1) l /\
  (let* t := tri_new (poly3 l) (Z.of_nat d) in tri_compute t p q r) = Ok v /\
  1 / 10 ^ 7 < Rabs (v - surface_integral (poly3 l) p q r).
Proof. exact sharp_lemma. Qed.
Print Assumptions C67_triangle_degree_sharp.
(** The specification integrates constants as expected. *)
Theorem C67_specification_area : forall c p q r, surface_integral (fun _ => c) p q r = c * area p q r.
Proof. exact surface_const. Qed.
Print Assumptions C67_specification_area.
(** x y + 3 over the triangle (1,0,0), (3,0,0), (1,4,0), of area 4. *)
Example C67_example : area (mkV3 1 0 0) (mkV3 3 0 0) (mkV3 1 4 0) = 4 /\
  exists v, (let* t := tri_new (poly3 [mkM3 1 1 1 0; mkM3 3 0 0 0]) 2 in tri_compute t (mkV3 1 0 0) (mkV3 3 0 0) (mkV3 1 4 0)) = Ok v /\
    Rabs (v - surface_integral (poly3 [mkM3 1 1 1 0; mkM3 3 0 0 0]) (mkV3 1 0 0) (mkV3 3 0 0) (mkV3 1 4 0)) <= 3 / 10 ^ 12.
Proof.
  assert (A : area (mkV3 1 0 0) (mkV3 3 0 0) (mkV3 1 4 0) = 4).
  { unfold area, sq. cbn [vx vy vz]. replace (_ * _ - _) with (8 * 8) by ring. rewrite sqrt_square; lra. }
  split; [exact A|].
  destruct (C67_triangle_degree 2 [mkM3 1 1 1 0; mkM3 3 0 0 0] (mkV3 1 0 0) (mkV3 3 0 0) (mkV3 1 4 0)) as (v & E & B);
    [lia|repeat constructor|]. exists v. split; [exact E|]. eapply Rle_trans; [exact B|]. rewrite A.
  unfold size, reach. cbn [fold_right m_c m_i m_j m_k vx vy vz].
  replace (3 - 1) with 2 by ring. replace (1 - 1) with 0 by ring. replace (0 - 0) with 0 by ring. replace (4 - 0) with 4 by ring.
  rewrite Rabs_R0, !Rabs_right by lra. lra.
Qed.

(** C68. Linearity ... *)
Theorem C68_triangle_linear : forall (f g : vec3 R -> R) a b d p q r, (1 <= d <= 8)%nat -> exists vf vg,
  (let* t := tri_new f (Z.of_nat d) in tri_compute t p q r) = Ok vf /\
  (let* t := tri_new g (Z.of_nat d) in tri_compute t p q r) = Ok vg /\
  (let* t := tri_new (fun x => a * f x + b * g x) (Z.of_nat d) in tri_compute t p q r) = Ok (a * vf + b * vg).
Proof. exact linear_lemma. Qed.
Print Assumptions C68_triangle_linear.
(** ... component by component for vector or complex valued integrands ... *)
Theorem C68_triangle_componentwise : forall V (VN : VNum R V) (phi : V -> R) (f : vec3 R -> V) d p q r,
  ((forall x y, phi (vadd x y) = phi x + phi y) /\ (forall w x, phi (vmull w x) = w * phi x) /\ (forall w x, phi (vmulr x w) = phi x * w)) ->
  omap phi (let* t := tri_new f d in tri_compute t p q r) = (let* t := tri_new (fun x => phi (f x)) d in tri_compute t p q r).
Proof. exact (fun V VN phi f d p q r H => vector_lemma (VN := VN) phi f d p q r H). Qed.
Print Assumptions C68_triangle_componentwise.
(** ... exchanging the last two vertices (the orientation) changes nothing, for any integrand ... *)
Theorem C68_triangle_orientation : forall (f : vec3 R -> R) d p q r,
  (let* t := tri_new f d in tri_compute t p r q) = (let* t := tri_new f d in tri_compute t p q r).
Proof. exact flip_lemma. Qed.
Print Assumptions C68_triangle_orientation.
(** ... the integrand only matters inside the triangle ... *)
Theorem C68_triangle_local : forall (f g : vec3 R -> R) d p q r, (forall v, inside p q r v -> f v = g v) ->
  (let* t := tri_new f d in tri_compute t p q r) = (let* t := tri_new g d in tri_compute t p q r).
Proof. exact local_lemma. Qed.
Print Assumptions C68_triangle_local.
(** ... bounds and sign ... *)
Theorem C68_triangle_bound : forall (f : vec3 R -> R) d p q r M, (1 <= d <= 8)%nat -> (forall v, inside p q r v -> Rabs (f v) <= M) ->
  exists v, (let* t := tri_new f (Z.of_nat d) in tri_compute t p q r) = Ok v /\
    Rabs v <= (if existsb (Nat.eqb d) [1; 2; 4; 5; 6; 8]%nat then 1 + 1 / 10 ^ 13 else 22 / 10) * area p q r * M.
Proof. exact bound_lemma. Qed.
Print Assumptions C68_triangle_bound.
Theorem C68_triangle_positive : forall (f : vec3 R -> R) d p q r, In d [1; 2; 4; 5; 6; 8]%nat -> (forall v, inside p q r v -> 0 <= f v) ->
  exists v, (let* t := tri_new f (Z.of_nat d) in tri_compute t p q r) = Ok v /\ 0 <= v.
Proof. exact positive_lemma. Qed.
Print Assumptions C68_triangle_positive.
(** Order 3 has a negative weight. *)
Theorem C68_triangle_order3_positive_refuted : exists f p q r v, (forall x : vec3 R, 0 <= f x) /\
  (let* t := tri_new f 3 in tri_compute t p q r) = Ok v /\ v < 0.
Proof. exact negative_lemma. Qed.
Print Assumptions C68_triangle_order3_positive_refuted.
(** ... orders outside 1..8 exit. *)
Theorem C68_triangle_order_range : forall (f : vec3 R -> R) order,
  ((order < 1 \/ 8 < order)%Z -> tri_new f order = Exit 0) /\
  ((1 <= order <= 8)%Z -> forall p q r, exists v, (let* t := tri_new f order in tri_compute t p q r) = Ok v).
Proof. exact range_lemma. Qed.
Print Assumptions C68_triangle_order_range.
Example C68_example : tri_new (fun v : vec3 R => vx v) 9 = Exit 0 /\
  (let* t := tri_new (fun v => vx v) 4 in tri_compute t (mkV3 0 0 0) (mkV3 0 1 0) (mkV3 1 0 0)) =
  (let* t := tri_new (fun v => vx v) 4 in tri_compute t (mkV3 0 0 0) (mkV3 1 0 0) (mkV3 0 1 0)) /\
  omap fst (let* t := tri_new (fun v : vec3 R => (vx v, vy v)) 4 in tri_compute (VN := VNum_complex) t (mkV3 0 0 0) (mkV3 1 0 0) (mkV3 0 1 0)) =
  (let* t := tri_new (fun v => vx v) 4 in tri_compute t (mkV3 0 0 0) (mkV3 1 0 0) (mkV3 0 1 0)).
Proof.
  split; [|split].
  - apply C68_triangle_order_range. right. reflexivity.
  - exact (C68_triangle_orientation (fun v => vx v) 4 (mkV3 0 0 0) (mkV3 1 0 0) (mkV3 0 1 0)).
  - apply (C68_triangle_componentwise _ VNum_complex fst (fun v => (vx v, vy v))). repeat split; intros; destruct x; try destruct y; reflexivity.
Qed.
