(** Specification vocabulary for rotations of space. *)
From Coq Require Import Reals.
From Verif Require Import M_Triangle M_Geometry.
Open Scope R_scope.

(** Row times column. *)
Definition mm (a b : mat3 R) : mat3 R :=
  {| r00 := r00 a * r00 b + r01 a * r10 b + r02 a * r20 b;
     r01 := r00 a * r01 b + r01 a * r11 b + r02 a * r21 b;
     r02 := r00 a * r02 b + r01 a * r12 b + r02 a * r22 b;
     r10 := r10 a * r00 b + r11 a * r10 b + r12 a * r20 b;
     r11 := r10 a * r01 b + r11 a * r11 b + r12 a * r21 b;
     r12 := r10 a * r02 b + r11 a * r12 b + r12 a * r22 b;
     r20 := r20 a * r00 b + r21 a * r10 b + r22 a * r20 b;
     r21 := r20 a * r01 b + r21 a * r11 b + r22 a * r21 b;
     r22 := r20 a * r02 b + r21 a * r12 b + r22 a * r22 b |}.
Definition mv (a : mat3 R) (v : vec3 R) : vec3 R :=
  mkV3 (r00 a * vx v + r01 a * vy v + r02 a * vz v)
       (r10 a * vx v + r11 a * vy v + r12 a * vz v)
       (r20 a * vx v + r21 a * vy v + r22 a * vz v).
Definition tr (a : mat3 R) : mat3 R :=
  mkM33 (r00 a) (r10 a) (r20 a) (r01 a) (r11 a) (r21 a) (r02 a) (r12 a) (r22 a).
Definition id3 : mat3 R := mkM33 1 0 0 0 1 0 0 0 1.
Definition det3 (a : mat3 R) : R :=
  r00 a * (r11 a * r22 a - r12 a * r21 a) - r01 a * (r10 a * r22 a - r12 a * r20 a)
  + r02 a * (r10 a * r21 a - r11 a * r20 a).

(** Rotations: orthogonal matrices of determinant one. *)
Definition rotation (m : mat3 R) : Prop := mm (tr m) m = id3 /\ mm m (tr m) = id3 /\ det3 m = 1.

(** Elementary rotations about the axes. *)
Definition Rot_x (a : R) : mat3 R := mkM33 1 0 0  0 (cos a) (- sin a)  0 (sin a) (cos a).
Definition Rot_y (a : R) : mat3 R := mkM33 (cos a) 0 (sin a)  0 1 0  (- sin a) 0 (cos a).
Definition Rot_z (a : R) : mat3 R := mkM33 (cos a) (- sin a) 0  (sin a) (cos a) 0  0 0 1.

(** Quaternions: Hamilton's product from i^2 = j^2 = k^2 = ijk = -1. *)
Definition qmul (a b : quat R) : quat R :=
  mkQ (qw a * qw b - qx a * qx b - qy a * qy b - qz a * qz b)
      (qw a * qx b + qx a * qw b + qy a * qz b - qz a * qy b)
      (qw a * qy b - qx a * qz b + qy a * qw b + qz a * qx b)
      (qw a * qz b + qx a * qy b - qy a * qx b + qz a * qw b).
Definition qconj (a : quat R) : quat R := mkQ (qw a) (- qx a) (- qy a) (- qz a).
Definition qopp (a : quat R) : quat R := mkQ (- qw a) (- qx a) (- qy a) (- qz a).
Definition qvec (v : vec3 R) : quat R := mkQ 0 (vx v) (vy v) (vz v).
Definition unit_quat (q : quat R) : Prop := qw q * qw q + qx q * qx q + qy q * qy q + qz q * qz q = 1.

(** Roll and yaw in (-pi, pi], pitch strictly between -pi/2 and pi/2. *)
Definition principal (e : vec3 R) : Prop :=
  - PI < vx e <= PI /\ - (PI / 2) < vy e < PI / 2 /\ - PI < vz e <= PI.
