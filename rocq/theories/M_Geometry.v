(** Model of src/MathUtils/Geometry.h.  Angles, quaternion coefficients and
    matrix entries are of one scalar type (double in the source).
    [Eigen::Vector3d] euler_angles is [vec3]: vx = roll, vy = pitch, vz = yaw;
    [Eigen::Quaterniond] and [Eigen::Matrix3d] are plain records. *)
From Coq Require Import List Arith ZArith Bool.
From Verif Require Import Outcome Num NumFun M_Triangle.

Record quat (T : Type) := mkQ { qw : T; qx : T; qy : T; qz : T }.
Arguments mkQ {T}. Arguments qw {T}. Arguments qx {T}. Arguments qy {T}. Arguments qz {T}.

(** Entries R(i, j), row by row. *)
Record mat3 (T : Type) := mkM33
  { r00 : T; r01 : T; r02 : T; r10 : T; r11 : T; r12 : T; r20 : T; r21 : T; r22 : T }.
Arguments mkM33 {T}.
Arguments r00 {T}. Arguments r01 {T}. Arguments r02 {T}.
Arguments r10 {T}. Arguments r11 {T}. Arguments r12 {T}.
Arguments r20 {T}. Arguments r21 {T}. Arguments r22 {T}.

Section Geometry.
Context {T : Type} `{NT : Num T} `{TT : NumTr T}.
Let two : T := nofZ 2.

(** Geometry.h:12-23. *)
Definition quaternionToEulerAnglesZYX (q : quat T) : vec3 T :=
  mkV3 (natan2 (two * qw q * qx q + two * qy q * qz q)%num
               (qw q * qw q - qx q * qx q - qy q * qy q + qz q * qz q)%num)
       (nneg (nasin (two * qx q * qz q - two * qw q * qy q)%num))
       (natan2 (two * qw q * qz q + two * qx q * qy q)%num
               (qw q * qw q + qx q * qx q - qy q * qy q - qz q * qz q)%num).

(** Geometry.h:25-37. *)
Definition eulerAnglesZYXToQuaternion (e : vec3 T) : quat T :=
  let r := (vx e / two)%num in
  let p := (vy e / two)%num in
  let y := (vz e / two)%num in
  mkQ (ncos r * ncos p * ncos y + nsin r * nsin p * nsin y)%num
      (nsin r * ncos p * ncos y - ncos r * nsin p * nsin y)%num
      (ncos r * nsin p * ncos y + nsin r * ncos p * nsin y)%num
      (ncos r * ncos p * nsin y - nsin r * nsin p * ncos y)%num.

(** Geometry.h:39-47. *)
Definition rotationMatrixToEulerAnglesZYX (m : mat3 T) : vec3 T :=
  mkV3 (natan2 (r21 m) (r22 m))
       (nneg (natan2 (r20 m) (nsqrt (npow (r21 m) two + npow (r22 m) two)%num)))
       (natan2 (r10 m) (r00 m)).

(** Geometry.h:49-70. *)
Definition eulerAnglesZYXToRotationMatrix (e : vec3 T) : mat3 T :=
  let r := vx e in
  let p := vy e in
  let y := vz e in
  {| r00 := (ncos y * ncos p)%num;
     r10 := (nsin y * ncos p)%num;
     r20 := nneg (nsin p);
     r01 := (ncos y * nsin p * nsin r - nsin y * ncos r)%num;
     r11 := (nsin y * nsin p * nsin r + ncos y * ncos r)%num;
     r21 := (ncos p * nsin r)%num;
     r02 := (ncos y * nsin p * ncos r + nsin y * nsin r)%num;
     r12 := (nsin y * nsin p * ncos r - ncos y * nsin r)%num;
     r22 := (ncos p * ncos r)%num |}.

(** Geometry.h:72-89. *)
Definition quaternionToRotationMatrix (q : quat T) : mat3 T :=
  {| r00 := (qw q * qw q + qx q * qx q - qy q * qy q - qz q * qz q)%num;
     r10 := (two * qw q * qz q + two * qx q * qy q)%num;
     r20 := (two * qx q * qz q - two * qw q * qy q)%num;
     r01 := (two * qx q * qy q - two * qw q * qz q)%num;
     r11 := (qw q * qw q - qx q * qx q + qy q * qy q - qz q * qz q)%num;
     r21 := (two * qw q * qx q + two * qy q * qz q)%num;
     r02 := (two * qw q * qy q + two * qx q * qz q)%num;
     r12 := (two * qy q * qz q - two * qw q * qx q)%num;
     r22 := (qw q * qw q - qx q * qx q - qy q * qy q + qz q * qz q)%num |}.

(** Geometry.h:91-94 calls the constructor Eigen::Quaterniond(R), which is not
    in /repo.  It is transcribed here from Eigen's published algorithm
    (Eigen/src/Geometry/Quaternion.h, quaternionbase_assign_impl<3,3>,
    Shoemake 1987): the trace when it is positive, otherwise the largest
    diagonal entry, serves as pivot. *)
Definition RotationMatrixToQuaternion (m : mat3 T) : quat T :=
  let one := nofZ 1 in
  let half := nlit 1 2 in
  let t := (r00 m + r11 m + r22 m)%num in
  if (nofZ 0 <? t)%num then
    let t1 := nsqrt (t + one)%num in
    let t2 := (half / t1)%num in
    mkQ (half * t1)%num ((r21 m - r12 m) * t2)%num ((r02 m - r20 m) * t2)%num ((r10 m - r01 m) * t2)%num
  else
    let i := if (r00 m <? r11 m)%num then (if (r11 m <? r22 m)%num then 2 else 1)
             else (if (r00 m <? r22 m)%num then 2 else 0) in
    match i with
    | 0 =>
      let t1 := nsqrt (r00 m - r11 m - r22 m + one)%num in
      let t2 := (half / t1)%num in
      mkQ ((r21 m - r12 m) * t2)%num (half * t1)%num ((r10 m + r01 m) * t2)%num ((r20 m + r02 m) * t2)%num
    | 1 =>
      let t1 := nsqrt (r11 m - r22 m - r00 m + one)%num in
      let t2 := (half / t1)%num in
      mkQ ((r02 m - r20 m) * t2)%num ((r01 m + r10 m) * t2)%num (half * t1)%num ((r21 m + r12 m) * t2)%num
    | _ =>
      let t1 := nsqrt (r22 m - r00 m - r11 m + one)%num in
      let t2 := (half / t1)%num in
      mkQ ((r10 m - r01 m) * t2)%num ((r02 m + r20 m) * t2)%num ((r12 m + r21 m) * t2)%num (half * t1)%num
    end.
End Geometry.
