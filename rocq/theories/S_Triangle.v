(** Specification vocabulary for integration over a triangle in space. *)
From Coq Require Import List Arith ZArith Reals.
From Coquelicot Require Import Coquelicot.
From Verif Require Import M_Triangle.
Import ListNotations.
Open Scope R_scope.

Definition sq (x : R) := x * x.
(** Area of the triangle from its Gram determinant. *)
Definition area (p q r : vec3 R) : R :=
  let uu := sq (vx q - vx p) + sq (vy q - vy p) + sq (vz q - vz p) in
  let ww := sq (vx r - vx p) + sq (vy r - vy p) + sq (vz r - vz p) in
  let uw := (vx q - vx p) * (vx r - vx p) + (vy q - vy p) * (vy r - vy p) + (vz q - vz p) * (vz r - vz p) in
  sqrt (uu * ww - sq uw) / 2.

(** The point p + a (q - p) + b (r - p). *)
Definition point (p q r : vec3 R) (a b : R) : vec3 R :=
  mkV3 (vx p + a * (vx q - vx p) + b * (vx r - vx p))
       (vy p + a * (vy q - vy p) + b * (vy r - vy p))
       (vz p + a * (vz q - vz p) + b * (vz r - vz p)).

(** Surface integral of [f] over the triangle: the parametrisation by
    0 <= a, 0 <= b, a + b <= 1 has the constant area element 2 * area. *)
Definition surface_integral (f : vec3 R -> R) (p q r : vec3 R) : R :=
  2 * area p q r * RInt (fun a => RInt (fun b => f (point p q r a b)) 0 (1 - a)) 0 1.

(** Polynomials in x, y, z: lists of monomials c x^i y^j z^k. *)
Record mono3 := mkM3 { m_c : R; m_i : nat; m_j : nat; m_k : nat }.
Definition mono_at (m : mono3) (v : vec3 R) : R := m_c m * vx v ^ m_i m * vy v ^ m_j m * vz v ^ m_k m.
Definition poly3 (l : list mono3) (v : vec3 R) : R := fold_right (fun m s => mono_at m v + s) 0 l.
Definition degree_le (d : nat) (l : list mono3) : Prop := List.Forall (fun m => m_i m + m_j m + m_k m <= d)%nat l.

(** Size of the coefficients of the polynomial on the triangle: each monomial
    counts |c| X^i Y^j Z^k, where X bounds |x| on the triangle by
    |x1| + |x2 - x1| + |x3 - x1|, etc. *)
Definition reach (a b c : R) : R := Rabs a + Rabs (b - a) + Rabs (c - a).
Definition size (l : list mono3) (p q r : vec3 R) : R :=
  fold_right (fun m s => Rabs (m_c m) * reach (vx p) (vx q) (vx r) ^ m_i m * reach (vy p) (vy q) (vy r) ^ m_j m
                         * reach (vz p) (vz q) (vz r) ^ m_k m + s) 0 l.

(** The closed triangle. *)
Definition inside (p q r v : vec3 R) : Prop :=
  exists a b, 0 <= a /\ 0 <= b /\ a + b <= 1 /\ v = point p q r a b.
