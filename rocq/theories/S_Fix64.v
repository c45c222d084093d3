(** Vocabulary for PowerSeries3d at a fixed z in binary64. *)
From Coq Require Import List Arith Reals.
From Flocq Require Import Core.Core IEEE754.BinarySingleNaN.
From Verif Require Import Outcome Num F64 M_Series S_Angles S_Series S_Cheb S_Double S_Rot64 S_Ser64 S_Der64.
Local Open Scope R_scope.

(** Coefficients of all orders in z at (i, j): their polynomial at [w], and the
    sum of their magnitudes. *)
Definition colv (B : list (mat f64)) (i j : nat) (w : R) : R := bsum (length B) (fun k => dvalue (m_at (nth k B no_mat) i j) * w ^ k).
Definition cols (B : list (mat f64)) (i j : nat) : R := bsum (length B) (fun k => Rabs (dvalue (m_at (nth k B no_mat) i j))).
(** Multiple of [tiny] covering underflow. *)
Definition cells (nx ny : nat) : R := (INR nx * INR nx) * (INR ny * INR ny).

(** The calls at a fixed z with the matrix [A]: [tz] is the unit coordinate of
    z, [err] the relative error.  The value; the derivative along x; the one
    along y when the y axis is a segment (on a half-line the separate call is
    wrong, see C57); the value and both derivatives in one call.  Derivatives
    are compared with the derivative [D] of the exact series. *)
Definition fixed_ok bm (ax ay : axis f64) (B : list (mat f64)) nx ny (s : ps3 f64) (x y : f64) (A : mat f64) (tz err : R) : Prop :=
  let u := unit_of (axis_values ax) (dvalue x) in let v := unit_of (axis_values ay) (dvalue y) in
  let cx := unit_rate (axis_values ax) (dvalue x) in let cy := unit_rate (axis_values ay) (dvalue y) in
  let floor := cells nx ny * tiny in
  let hyp_x D := rate_moderate (axis_values ax) (dvalue x) /\ box_dsum_x B <= / 4 * huge /\ cx * box_dsum_x B <= / 4 * huge /\ derivable_pt_lim (fun t => box_poly B (unit_of (axis_values ax) t) v tz) (dvalue x) D in
  let hyp_y D := rate_moderate (axis_values ay) (dvalue y) /\ box_dsum_y B <= / 4 * huge /\ cy * box_dsum_y B <= / 4 * huge /\ derivable_pt_lim (fun t => box_poly B u (unit_of (axis_values ay) t) tz) (dvalue y) D in
  let good_f f := within (3 * err * (box_sum B + floor)) f (box_poly B u v tz) in
  let good_x D r := close_to_rate r D (4 * err + 36 * uround) cx (box_dsum_x B + floor) in
  let good_y D r := close_to_rate r D (4 * err + 36 * uround) cy (box_dsum_y B + floor) in
  (exists f, ps3_evaluate_z_predefined bm s x y A = Ok f /\ good_f f) /\
  (forall D, hyp_x D -> exists r, ps3_derivative_x_z_predefined bm s x y A = Ok r /\ good_x D r) /\
  (forall D lo hi, ay = Closed lo hi -> hyp_y D -> exists r, ps3_derivative_y_z_predefined bm s x y A = Ok r /\ good_y D r) /\
  (forall Dx Dy, hyp_x Dx -> hyp_y Dy -> exists f dx dy, ps3_f_dfdx_dfdy_z_predefined bm s x y A = Ok (f, dx, dy) /\ good_f f /\ good_x Dx dx /\ good_y Dy dy).
