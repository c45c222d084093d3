(** Model of src/MathUtils/Vector2d.h, Vector3d.h, Vector6d.h and Complex.h.

    The vector classes inherit from fixed-size Eigen matrices; the operations
    of Eigen that are used (copy, element access, maxCoeff, lpNorm<Infinity>,
    norm, normalize, transposed products) are given their documented meaning.
    print is not modelled; IsEqual is in M_Approx.v. *)
From Coq Require Import List Arith ZArith Bool.
From Verif Require Import Outcome Num NumFun M_Basics M_Triangle M_Geometry.
Import ListNotations.

Record vec2 (T : Type) := mkV2 { ux : T; uy : T }.
Arguments mkV2 {T}. Arguments ux {T}. Arguments uy {T}.

(** ** Vector2d.h *)
Section Vector2d.
Context {T : Type} `{NT : Num T} `{TT : NumTr T}.

(** Vector2d.h:169-176, the in-place method. *)
Definition ProjectLocalOnNED (v : vec2 T) (angle : T) (unit : angle_unit) : vec2 T :=
  let '(c, s) := get_trigo angle unit in
  let x := (c * ux v - s * uy v)%num in
  let v := mkV2 (ux v) (s * ux v + c * uy v)%num in   (* at(1) = ... *)
  mkV2 x (uy v).                                      (* at(0) = x *)

(** Vector2d.h:184-191. *)
Definition ProjectNEDOnLocal (v : vec2 T) (angle : T) (unit : angle_unit) : vec2 T :=
  let '(c, s) := get_trigo angle unit in
  let x := (c * ux v + s * uy v)%num in
  let v := mkV2 (ux v) (nneg s * ux v + c * uy v)%num in
  mkV2 x (uy v).

(** Vector2d.h:193-219. *)
Definition ProjectOnNorthAxis (v : vec2 T) (angle : T) (unit : angle_unit) : T :=
  let '(c, s) := get_trigo angle unit in (c * ux v - s * uy v)%num.
Definition ProjectOnEastAxis (v : vec2 T) (angle : T) (unit : angle_unit) : T :=
  let '(c, s) := get_trigo angle unit in (s * ux v + c * uy v)%num.
Definition ProjectOnLocalXAxis (v : vec2 T) (angle : T) (unit : angle_unit) : T :=
  let '(c, s) := get_trigo angle unit in (c * ux v + s * uy v)%num.
Definition ProjectOnLocalYAxis (v : vec2 T) (angle : T) (unit : angle_unit) : T :=
  let '(c, s) := get_trigo angle unit in (nneg s * ux v + c * uy v)%num.

(** Vector2d.h:145-149. *)
Definition SetNEDFromLocal (x y angle : T) (unit : angle_unit) : vec2 T :=
  ProjectLocalOnNED (mkV2 x y) angle unit.

(** Vector2d.h:221-224: Eigen's maxCoeff of the two coefficients. *)
Definition v2_infNorm (v : vec2 T) : T := if nlt (ux v) (uy v) then uy v else ux v.

Definition speed_unit_eqb (u v : speed_unit) : bool :=
  match u, v with MS, MS | KNOT, KNOT | KMH, KMH => true | _, _ => false end.

(** Vector2d.h:288-305. *)
Definition GetNEDVelocityVector (longitudinal lateral angle : T) (aunit : angle_unit) (inu outu : speed_unit) : vec2 T :=
  let longitudinal' := if speed_unit_eqb inu outu then longitudinal else convert_velocity_unit longitudinal inu outu in
  let lateral' := if speed_unit_eqb inu outu then lateral else convert_velocity_unit lateral inu outu in
  ProjectLocalOnNED (mkV2 longitudinal' lateral') angle aunit.

(** References: methods with reference arguments run on a store of Vector2d
    objects, so that two arguments may be the same object. *)
Definition store := nat -> vec2 T.
Definition supd (h : store) (r : nat) (v : vec2 T) : store := fun r' => if Nat.eqb r' r then v else h r'.

(** Vector2d.h:232-243: this->TransportAtPoint(point, pw, funit); the two
    coefficients are written one after the other while [point] is a reference. *)
Definition TransportAtPoint (h : store) (this point : nat) (pw : T) (funit : frequency_unit) : store :=
  let w := if frequency_unit_eqb funit RADS then pw else convert_frequency pw funit RADS in
  let h := supd h this (mkV2 (ux (h this) - uy (h point) * w)%num (uy (h this))) in
  supd h this (mkV2 (ux (h this)) (uy (h this) + ux (h point) * w)%num).
(** Vector2d.h:225-230: this->TransportAtPoint(out, point, pw, funit). *)
Definition TransportAtPoint_out (h : store) (this out point : nat) (pw : T) (funit : frequency_unit) : store :=
  TransportAtPoint (supd h out (h this)) out point pw funit.
(** Vector2d.h:307-313, the free function: both arguments are copies. *)
Definition TransportAtPoint_fun (v point : vec2 T) (w : T) (funit : frequency_unit) : vec2 T :=
  TransportAtPoint (fun r => if Nat.eqb r 0 then v else point) 0 1 w funit 0.
(** Vector2d.h:163-167 and 178-182: the versions with an output reference. *)
Definition ProjectLocalOnNED_out (h : store) (this out : nat) (angle : T) (unit : angle_unit) : store :=
  let h := supd h out (h this) in supd h out (ProjectLocalOnNED (h out) angle unit).
Definition ProjectNEDOnLocal_out (h : store) (this out : nat) (angle : T) (unit : angle_unit) : store :=
  let h := supd h out (h this) in supd h out (ProjectNEDOnLocal (h out) angle unit).
End Vector2d.

(** ** Vector3d.h *)
Section Vector3d.
Context {T : Type} `{NT : Num T} `{FT : NumFm T} `{TT : NumTr T}.

(** Vector3d.h:65-83. *)
Definition in_unit (unit : angle_unit) (angle : T) : T :=
  match unit with DEG => (angle * mu_180_pi)%num | RAD => angle end.
Definition GetProjectedAngleAroundX (v : vec3 T) (unit : angle_unit) : T := in_unit unit (natan2 (vz v) (vy v)).
Definition GetProjectedAngleAroundY (v : vec3 T) (unit : angle_unit) : T := in_unit unit (natan2 (vx v) (vz v)).
Definition GetProjectedAngleAroundZ (v : vec3 T) (unit : angle_unit) : T := in_unit unit (natan2 (vy v) (vx v)).

(** lpNorm<Infinity>: the largest absolute value of the coefficients, 0 for an
    empty vector (Vector3d.h:130-133, Vector6d.h:103-106, VectorN.h:149-152). *)
Definition infNorm (l : list T) : T :=
  fold_left (fun m x => if nlt m (nfabs x) then nfabs x else m) l (nofZ 0).
Definition v3_infNorm (v : vec3 T) : T := infNorm [vx v; vy v; vz v].

(** Vector3d.h:135-138: Eigen's normalize() divides by the norm unless the
    squared norm is zero. *)
Definition Normalize (v : vec3 T) : vec3 T :=
  let z := (vx v * vx v + vy v * vy v + vz v * vz v)%num in
  if nlt (nofZ 0) z then mkV3 (vx v / nsqrt z)%num (vy v / nsqrt z)%num (vz v / nsqrt z)%num else v.

(** Vector3d.h:140-143, with the default tolerances of Check.h:14. *)
Definition IsUnit (v : vec3 T) : bool :=
  IsClose (v3_norm v) (nofZ 1) (nlit 1 100000) (nlit 1 100000000).

(** Vector3d.h:156-169. *)
Definition outer (v1 v2 : vec3 T) : mat3 T :=
  mkM33 (vx v1 * vx v2)%num (vx v1 * vy v2)%num (vx v1 * vz v2)%num
        (vy v1 * vx v2)%num (vy v1 * vy v2)%num (vy v1 * vz v2)%num
        (vz v1 * vx v2)%num (vz v1 * vy v2)%num (vz v1 * vz v2)%num.
Definition inner (v1 v2 : vec3 T) : T := (vx v1 * vx v2 + vy v1 * vy v2 + vz v1 * vz v2)%num.
End Vector3d.

(** ** Complex.h: std::complex is a pair (real, imag). *)
Section Complex.
Context {T : Type} `{NT : Num T} `{TT : NumTr T}.

(** Complex.h:10-18, 20-28. *)
Definition c_Real (v : list (T * T)) : list T := map (fun z => fst z) v.
Definition c_Imag (v : list (T * T)) : list T := map (fun z => snd z) v.
(** Complex.h:30-41. *)
Definition Amplitude (v : list (T * T)) : list T :=
  map (fun z => nsqrt (fst z * fst z + snd z * snd z)%num) v.
(** Complex.h:43-61. *)
Definition Phase (v : list (T * T)) (unit : angle_unit) : list T :=
  let c := match unit with DEG => (nofZ 1 * mu_180_pi)%num | RAD => nofZ 1 end in
  map (fun z => (natan2 (snd z) (fst z) * c)%num) v.
End Complex.
