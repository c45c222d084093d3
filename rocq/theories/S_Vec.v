(** Specification vocabulary for plane and space vectors and complex series. *)
From Coq Require Import List Arith Reals.
From Verif Require Import M_Basics M_Triangle M_Vec S_Basics.
Import ListNotations.
Open Scope R_scope.

(** Value in radians of an angle given in unit [u]. *)
Definition radians (u : angle_unit) (a : R) : R := match u with DEG => a / 180 * PI | RAD => a end.

Definition add2 (a b : vec2 R) : vec2 R := mkV2 (ux a + ux b) (uy a + uy b).
Definition sub2 (a b : vec2 R) : vec2 R := mkV2 (ux a - ux b) (uy a - uy b).
Definition scal2 (k : R) (a : vec2 R) : vec2 R := mkV2 (k * ux a) (k * uy a).
Definition dot2 (a b : vec2 R) : R := ux a * ux b + uy a * uy b.
(** Unit vector at angle [t] from the first axis. *)
Definition dir (t : R) : vec2 R := mkV2 (cos t) (sin t).
(** A quarter turn; (rate) x (position) in the plane is [scal2 w (quarter p)]. *)
Definition quarter (a : vec2 R) : vec2 R := mkV2 (- uy a) (ux a).

(** [n] is the infinity norm of the coefficients [l]. *)
Definition is_inf_norm (l : list R) (n : R) : Prop :=
  (forall x, In x l -> Rabs x <= n) /\ (n = 0 \/ exists x, In x l /\ Rabs x = n).

Definition dot3 (a b : vec3 R) : R := vx a * vx b + vy a * vy b + vz a * vz b.
Definition scal3 (k : R) (a : vec3 R) : vec3 R := mkV3 (k * vx a) (k * vy a) (k * vz a).

(** [t] is the polar angle of the point (x, y), in (-pi, pi]. *)
Definition polar_angle (x y t : R) : Prop :=
  - PI < t <= PI /\ x = sqrt (x * x + y * y) * cos t /\ y = sqrt (x * x + y * y) * sin t.
