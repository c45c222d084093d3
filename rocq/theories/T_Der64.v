(** Theorems on the derivatives of power series in binary64. *)
From Coq Require Import List Arith ZArith Reals Bool Lia Lra.
From Flocq Require Import Core.Core IEEE754.BinarySingleNaN.
From Verif Require Import Outcome Num NumFun F64 M_Series S_Angles S_Series S_Cheb S_Double S_Ser64 S_Der64 L_Der64.
Import ListNotations.
Local Open Scope R_scope.

(** C127: one variable: the double result is close to the derivative [D] of the
    exact series, relative to the rate of the unit coordinate times the sum of
    the magnitudes weighted by the exponents. *)
Theorem C127_derivative_1d_double : forall (a : axis f64) (b : list f64) (x : f64) D, usable a x -> rate_moderate (axis_values a) (dvalue x) -> b <> [] -> all_finite b ->
  let c := unit_rate (axis_values a) (dvalue x) in vec_dsum b <= huge -> c * vec_dsum b <= huge ->
  let k := axis_cond (axis_values a) in k * uround <= / 2 -> power_err (length b) k <= / 2 ->
  derivable_pt_lim (fun t => poly (dvalues b) (unit_of (axis_values a) t)) (dvalue x) D ->
  exists v, ps1_derivative_x (mkPS1 b a) x = Ok v /\ close_to_rate v D (power_err (length b) k) c (vec_dsum b + tiny).
Proof. exact ps1_deriv_lemma. Qed.
Print Assumptions C127_derivative_1d_double.

(** C127: two variables, the derivative along x. *)
Theorem C127_derivative_x_2d_double : forall bm (ax ay : axis f64) (A : mat f64) (x y : f64) D, usable ax x -> usable ay y -> rate_moderate (axis_values ax) (dvalue x) -> (0 < m_rows A)%nat -> (0 < m_cols A)%nat -> mat_finite A ->
  let c := unit_rate (axis_values ax) (dvalue x) in mat_sum A <= huge -> mat_dsum_x A <= huge -> c * mat_dsum_x A <= huge ->
  let kx := axis_cond (axis_values ax) in let ky := axis_cond (axis_values ay) in kx * uround <= / 2 -> ky * uround <= / 2 ->
  let err := power_err (m_rows A) kx + power_err (m_cols A) ky in err <= / 2 ->
  derivable_pt_lim (fun t => mat_poly A (unit_of (axis_values ax) t) (unit_of (axis_values ay) (dvalue y))) (dvalue x) D ->
  exists v, ps2_derivative_x bm (mkPS2 A ax ay) x y = Ok v /\ close_to_rate v D err c (mat_dsum_x A + (INR (m_rows A) * INR (m_rows A) + 1) * tiny).
Proof. exact ps2_dx_lemma. Qed.
Print Assumptions C127_derivative_x_2d_double.

(** C127: two variables, the derivative along y. *)
Theorem C127_derivative_y_2d_double : forall bm (ax ay : axis f64) (A : mat f64) (x y : f64) D, usable ax x -> usable ay y -> rate_moderate (axis_values ay) (dvalue y) -> (0 < m_rows A)%nat -> (0 < m_cols A)%nat -> mat_finite A ->
  let c := unit_rate (axis_values ay) (dvalue y) in mat_dsum_y A <= huge -> c * mat_dsum_y A <= huge ->
  let kx := axis_cond (axis_values ax) in let ky := axis_cond (axis_values ay) in kx * uround <= / 2 -> ky * uround <= / 2 ->
  let err := power_err (m_rows A) kx + power_err (m_cols A) ky in err <= / 2 ->
  derivable_pt_lim (fun t => mat_poly A (unit_of (axis_values ax) (dvalue x)) (unit_of (axis_values ay) t)) (dvalue y) D ->
  exists v, ps2_derivative_y bm (mkPS2 A ax ay) x y = Ok v /\ close_to_rate v D err c (mat_dsum_y A + (INR (m_rows A) * INR (m_rows A) + 1) * tiny).
Proof. exact ps2_dy_lemma. Qed.
Print Assumptions C127_derivative_y_2d_double.

(** C127: three variables, each of the three partial derivatives. *)
Theorem C127_derivatives_3d_double : forall bm (ax ay az : axis f64) (B : list (mat f64)) nx ny (s : ps3 f64) (x y z : f64), usable ax x -> usable ay y -> usable az z ->
  (0 < nx)%nat -> (0 < ny)%nat -> B <> [] -> box_ok nx ny B -> ps3_make B ax ay az = Ok s -> box_sum B <= huge ->
  let kx := axis_cond (axis_values ax) in let ky := axis_cond (axis_values ay) in let kz := axis_cond (axis_values az) in
  kx * uround <= / 2 -> ky * uround <= / 2 -> kz * uround <= / 2 ->
  let err := power_err nx kx + power_err ny ky + power_err (length B) kz in err <= / 2 ->
  let u := unit_of (axis_values ax) (dvalue x) in let v := unit_of (axis_values ay) (dvalue y) in let w := unit_of (axis_values az) (dvalue z) in
  let floor := (INR (length B) * INR (length B) * (INR nx * INR nx + 1) + 1) * tiny in
  (forall D, let c := unit_rate (axis_values ax) (dvalue x) in rate_moderate (axis_values ax) (dvalue x) -> box_dsum_x B <= huge -> c * box_dsum_x B <= huge ->
     derivable_pt_lim (fun t => box_poly B (unit_of (axis_values ax) t) v w) (dvalue x) D ->
     exists r, ps3_derivative_x bm s x y z = Ok r /\ close_to_rate r D err c (box_dsum_x B + floor)) /\
  (forall D, let c := unit_rate (axis_values ay) (dvalue y) in rate_moderate (axis_values ay) (dvalue y) -> box_dsum_y B <= huge -> c * box_dsum_y B <= huge ->
     derivable_pt_lim (fun t => box_poly B u (unit_of (axis_values ay) t) w) (dvalue y) D ->
     exists r, ps3_derivative_y bm s x y z = Ok r /\ close_to_rate r D err c (box_dsum_y B + floor)) /\
  (forall D, let c := unit_rate (axis_values az) (dvalue z) in rate_moderate (axis_values az) (dvalue z) -> box_dsum_z B <= huge -> c * box_dsum_z B <= huge ->
     derivable_pt_lim (fun t => box_poly B u v (unit_of (axis_values az) t)) (dvalue z) D ->
     exists r, ps3_derivative_z bm s x y z = Ok r /\ close_to_rate r D err c (box_dsum_z B + floor)).
Proof. exact ps3_deriv_lemma. Qed.
Print Assumptions C127_derivatives_3d_double.

(** C127: in any arithmetic, hence bit for bit in double, the call returning
    value and two derivatives returns what the three separate calls return. *)
Theorem C127_combined_call : forall (T : Type) (NT : Num T) bm (s : ps3 T) x y z f dx dy,
  ps3_evaluate bm s x y z = Ok f -> ps3_derivative_x bm s x y z = Ok dx -> ps3_derivative_y bm s x y z = Ok dy ->
  ps3_f_dfdx_dfdy bm s x y z = Ok (f, dx, dy).
Proof. exact @combined_lemma. Qed.
Print Assumptions C127_combined_call.
(** The same with coefficients fixed in z, for a y axis that is a segment (on a
    half-line the separate y derivative is wrong, see C57). *)
Theorem C127_combined_call_fixed_z : forall (T : Type) (NT : Num T) bm (s : ps3 T) x y c f dx dy lo hi, p3_y s = Closed lo hi ->
  ps3_evaluate_z_predefined bm s x y c = Ok f -> ps3_derivative_x_z_predefined bm s x y c = Ok dx -> ps3_derivative_y_z_predefined bm s x y c = Ok dy ->
  ps3_f_dfdx_dfdy_z_predefined bm s x y c = Ok (f, dx, dy).
Proof. exact @combined_pre_lemma. Qed.
Print Assumptions C127_combined_call_fixed_z.

(** C127, without the range condition on a half-line, refuted: on the half-line
    from 2^600, at its end, the derivative of "t" is 2^-599 and the double
    result is 0. *)
Theorem C127_far_halfline_refuted : exists (a : axis f64) (b : list f64) x v, usable a x /\ all_finite b /\ vec_dsum b = 1 /\
  ps1_derivative_x (mkPS1 b a) x = Ok v /\ dvalue v = 0 /\
  derivable_pt_lim (fun t => poly (dvalues b) (unit_of (axis_values a) t)) (dvalue x) (bpow radix2 (-599)).
Proof. exact far_refuted_pf. Qed.
Print Assumptions C127_far_halfline_refuted.

(** Non-vacuity: 1 + 2t + 3t^2 on [1, 5] at 4; the y derivative of a bilinear
    series with y on a half-line; the z derivative of a trilinear one. *)
Example C127_example_1d : exists v, ps1_derivative_x (mkPS1 (map f64_ofZ [1; 2; 3]%Z) (Closed (f64_ofZ 1) (f64_ofZ 5))) (f64_ofZ 4) = Ok v /\ Rabs (dvalue v - 5 / 2) <= / 1000000000000.
Proof. exact ex_der1. Qed.
Example C127_example_2d : exists v,
  ps2_derivative_y Release (mkPS2 (mkMat 2 2 (fun i j => f64_ofZ (Z.of_nat (2 * i + j)))) (Closed (f64_ofZ 1) (f64_ofZ 5)) (Opened (f64_ofZ 1))) (f64_ofZ 4) (f64_ofZ 4) = Ok v /\
  Rabs (dvalue v - 5 / 16) <= / 1000000000000.
Proof. exact ex_der2. Qed.
Example C127_example_3d : exists s v,
  ps3_make [mkMat 2 2 (fun i j => f64_ofZ (Z.of_nat (2 * i + j))); mkMat 2 2 (fun i j => f64_ofZ (Z.of_nat (i + j)))]
    (Closed (f64_ofZ 1) (f64_ofZ 5)) (Opened (f64_ofZ 1)) (Opened (f64_ofZ 1)) = Ok s /\
  ps3_derivative_z Release s (f64_ofZ 4) (f64_ofZ 4) (f64_ofZ 4) = Ok v /\
  Rabs (dvalue v - 3 / 16) <= / 1000000000000.
Proof. exact ex_der3. Qed.
