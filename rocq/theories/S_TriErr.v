(** Specification vocabulary for the accuracy of the quadrature over triangles. *)
From Coq Require Import List Arith ZArith Reals.
From Verif Require Import Outcome Num NumFun M_Triangle S_Triangle.
Import ListNotations.
Open Scope R_scope.

(** Coordinate by coordinate, less than [d] apart. *)
Definition close3 (d : R) (v w : vec3 R) : Prop :=
  Rabs (vx v - vx w) < d /\ Rabs (vy v - vy w) < d /\ Rabs (vz v - vz w) < d.
(** The restriction of [f] to [A] is continuous. *)
Definition continuous_in (A : vec3 R -> Prop) (f : vec3 R -> R) : Prop :=
  forall v, A v -> forall eps, 0 < eps -> exists d, 0 < d /\ forall w, A w -> close3 d w v -> Rabs (f w - f v) <= eps.

(** Sum of the absolute weights of the rule of order d, at most. *)
Definition weights (d : nat) : R := if existsb (Nat.eqb d) [1; 2; 4; 5; 6; 8]%nat then 1 + 1 / 10 ^ 13 else 22 / 10.

(** A mesh: a list of triangles; sums over it. *)
Definition triangle := (vec3 R * vec3 R * vec3 R)%type.
Definition over (g : vec3 R -> vec3 R -> vec3 R -> R) (t : triangle) : R := let '(p, q, r) := t in g p q r.
Definition mesh_sum (g : vec3 R -> vec3 R -> vec3 R -> R) (ts : list triangle) : R := fold_right (fun t s => over g t + s) 0 ts.
(** The quadratures over the triangles of a mesh, one after the other. *)
Definition quadrature (f : vec3 R -> R) (d : nat) (p q r : vec3 R) : outcome R :=
  let* t := tri_new f (Z.of_nat d) in tri_compute t p q r.
Fixpoint mesh_quadrature (f : vec3 R -> R) (d : nat) (ts : list triangle) : outcome R :=
  match ts with
  | [] => Ok 0
  | (p, q, r) :: ts => let* v := quadrature f d p q r in let* s := mesh_quadrature f d ts in Ok (v + s)
  end.
(** The triangle is inside [A] and its vertices are less than [h] apart. *)
Definition small_in (A : vec3 R -> Prop) (h : R) (t : triangle) : Prop :=
  let '(p, q, r) := t in (forall v, inside p q r v -> A v) /\ close3 h q p /\ close3 h r p.
(** A box of space. *)
Definition in_cuboid (lo hi v : vec3 R) : Prop :=
  vx lo <= vx v <= vx hi /\ vy lo <= vy v <= vy hi /\ vz lo <= vz v <= vz hi.
