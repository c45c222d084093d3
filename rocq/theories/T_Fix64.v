(** C134: 3D power series at a fixed z and at infinite z, in binary64. *)
From Coq Require Import List Arith ZArith Reals.
From Flocq Require Import Core.Core IEEE754.BinarySingleNaN.
From Verif Require Import Outcome Num NumFun F64 M_Series S_Angles S_Series S_Cheb S_Double S_Rot64 S_Ser64 S_Der64 S_Fix64 L_Fix64.
Import ListNotations.
Local Open Scope R_scope.

(** C134: the matrix of coefficients at a fixed z. *)
Theorem C134_coefficients_fixed_z : forall bm (ax ay az : axis f64) (B : list (mat f64)) nx ny (s : ps3 f64) z, usable az z -> B <> [] -> box_ok nx ny B -> box_sum B <= huge -> ps3_make B ax ay az = Ok s ->
  let kz := axis_cond (axis_values az) in kz * uround <= / 2 -> power_err (length B) kz <= / 2 ->
  exists A, ps3_compute_cij bm s z = Ok A /\ m_rows A = nx /\ m_cols A = ny /\
    forall i j, (i < nx)%nat -> (j < ny)%nat -> within (power_err (length B) kz * (cols B i j + tiny)) (m_at A i j) (colv B i j (unit_of (axis_values az) (dvalue z))).
Proof. exact cij_z_pf. Qed.
Print Assumptions C134_coefficients_fixed_z.

(** C134: the calls with that matrix approximate the series at z. *)
Theorem C134_calls_fixed_z : forall bm (ax ay az : axis f64) (B : list (mat f64)) nx ny (s : ps3 f64) x y z A, usable ax x -> usable ay y -> usable az z -> (0 < nx)%nat -> (0 < ny)%nat -> B <> [] -> box_ok nx ny B ->
  box_sum B <= / 4 * huge -> ps3_make B ax ay az = Ok s -> ps3_compute_cij bm s z = Ok A ->
  let kx := axis_cond (axis_values ax) in let ky := axis_cond (axis_values ay) in let kz := axis_cond (axis_values az) in kx * uround <= / 2 -> ky * uround <= / 2 -> kz * uround <= / 2 ->
  let err := power_err nx kx + power_err ny ky + power_err (length B) kz in err <= / 2 -> fixed_ok bm ax ay B nx ny s x y A (unit_of (axis_values az) (dvalue z)) err.
Proof. exact fixed_z_pf. Qed.
Print Assumptions C134_calls_fixed_z.

(** C134: the same at infinite z, where the unit coordinate is exactly 1. *)
Theorem C134_coefficients_infinite_z : forall bm (ax ay az : axis f64) (B : list (mat f64)) nx ny (s : ps3 f64), B <> [] -> box_ok nx ny B -> box_sum B <= huge -> ps3_make B ax ay az = Ok s -> power_err (length B) 0 <= / 2 ->
  exists A, ps3_compute_cij_zinf bm s = Ok A /\ m_rows A = nx /\ m_cols A = ny /\
    forall i j, (i < nx)%nat -> (j < ny)%nat -> within (power_err (length B) 0 * (cols B i j + tiny)) (m_at A i j) (colv B i j 1).
Proof. exact cij_inf_pf. Qed.
Print Assumptions C134_coefficients_infinite_z.
Theorem C134_calls_infinite_z : forall bm (ax ay az : axis f64) (B : list (mat f64)) nx ny (s : ps3 f64) x y A, usable ax x -> usable ay y -> (0 < nx)%nat -> (0 < ny)%nat -> B <> [] -> box_ok nx ny B ->
  box_sum B <= / 4 * huge -> ps3_make B ax ay az = Ok s -> ps3_compute_cij_zinf bm s = Ok A ->
  let kx := axis_cond (axis_values ax) in let ky := axis_cond (axis_values ay) in kx * uround <= / 2 -> ky * uround <= / 2 ->
  let err := power_err nx kx + power_err ny ky + power_err (length B) 0 in err <= / 2 -> fixed_ok bm ax ay B nx ny s x y A 1 err.
Proof. exact fixed_inf_pf. Qed.
Print Assumptions C134_calls_infinite_z.

(** C134: the direct calls at infinite z. *)
Theorem C134_direct_infinite_z : forall bm (ax ay az : axis f64) (B : list (mat f64)) nx ny (s : ps3 f64) (x y : f64), usable ax x -> usable ay y ->
  (0 < nx)%nat -> (0 < ny)%nat -> B <> [] -> box_ok nx ny B -> ps3_make B ax ay az = Ok s -> box_sum B <= huge ->
  let kx := axis_cond (axis_values ax) in let ky := axis_cond (axis_values ay) in kx * uround <= / 2 -> ky * uround <= / 2 ->
  let err := power_err nx kx + power_err ny ky + power_err (length B) 0 in err <= / 2 ->
  let u := unit_of (axis_values ax) (dvalue x) in let v := unit_of (axis_values ay) (dvalue y) in
  let floor := (INR (length B) * INR (length B) * (INR nx * INR nx + 1) + 1) * tiny in
  (exists f, ps3_evaluate_zinf bm s x y = Ok f /\ within ((err + 2 * uround) * (box_sum B + floor)) f (box_poly B u v 1)) /\
  (forall D, let c := unit_rate (axis_values ax) (dvalue x) in rate_moderate (axis_values ax) (dvalue x) -> box_dsum_x B <= huge -> c * box_dsum_x B <= huge ->
     derivable_pt_lim (fun t => box_poly B (unit_of (axis_values ax) t) v 1) (dvalue x) D ->
     exists r, ps3_derivative_x_zinf bm s x y = Ok r /\ close_to_rate r D err c (box_dsum_x B + floor)) /\
  (forall D, let c := unit_rate (axis_values ay) (dvalue y) in rate_moderate (axis_values ay) (dvalue y) -> box_dsum_y B <= huge -> c * box_dsum_y B <= huge ->
     derivable_pt_lim (fun t => box_poly B u (unit_of (axis_values ay) t) 1) (dvalue y) D ->
     exists r, ps3_derivative_y_zinf bm s x y = Ok r /\ close_to_rate r D err c (box_dsum_y B + floor)).
Proof. exact zinf_pf. Qed.
Print Assumptions C134_direct_infinite_z.

(** Non-vacuity: a trilinear series on [1, 5] and two half-lines, at (4, 4, 4)
    and at (4, 4, infinity). *)
Example C134_example_fixed : exists A f dx dy, ps3_compute_cij Release exs (f64_ofZ 4) = Ok A /\ Rabs (dvalue (m_at A 1 1) - 4) <= / 1000000000000 /\
  ps3_f_dfdx_dfdy_z_predefined Release exs (f64_ofZ 4) (f64_ofZ 4) A = Ok (f, dx, dy) /\
  Rabs (dvalue f - 3) <= / 10000000000 /\ Rabs (dvalue dx - 9 / 4) <= / 10000000000 /\ Rabs (dvalue dy - 7 / 16) <= / 10000000000.
Proof. exact ex_fixed. Qed.
Example C134_example_infinite : exists f r, ps3_evaluate_zinf Release exs (f64_ofZ 4) (f64_ofZ 4) = Ok f /\ Rabs (dvalue f - 15 / 4) <= / 10000000000 /\
  ps3_derivative_x_zinf Release exs (f64_ofZ 4) (f64_ofZ 4) = Ok r /\ Rabs (dvalue r - 11 / 4) <= / 10000000000.
Proof. exact ex_inf. Qed.
