(** Theorems on the derivatives of Chebyshev series in binary64. *)
From Coq Require Import List Arith ZArith Reals Bool Lia Lra.
From Flocq Require Import Core.Core IEEE754.BinarySingleNaN.
From Verif Require Import Outcome Num NumFun F64 M_Series M_Cheb S_Angles S_Series S_Cheb S_Double S_Ser64 S_Der64 S_DCheb64 L_DCheb64.
Import ListNotations.
Local Open Scope R_scope.

(** C129: one variable: the double result is close to the derivative [D] of the
    exact series, relative to the rate of the unit coordinate times the sum of
    the magnitudes weighted by the squares of the orders. *)
Theorem C129_chebyshev_derivative_1d_double : forall f (ax : axis f64) n (a : nat -> f64) x D, usable ax x -> rate_moderate (axis_values ax) (dvalue x) -> (forall i, (i <= n)%nat -> is_finite (a i) = true) ->
  let c := unit_rate (axis_values ax) (dvalue x) in cheb_dsum n a <= huge -> c * cheb_dsum n a <= huge ->
  let k := axis_cond (axis_values ax) in k * uround <= / 2 -> let err := cheb_err n k + terms_err (n + 1) in err <= / 4 ->
  derivable_pt_lim (fun t => bsum (n + 1) (fun i => dvalue (a i) * cheb i (unit_of (axis_values ax) t))) (dvalue x) D ->
  close_to_rate (cs1_derivative_x (mkCS1 f ax n a) x) D err c (cheb_dsum n a + INR n * INR n * INR (n + 1) * tiny).
Proof. exact cs1_deriv_lemma. Qed.
Print Assumptions C129_chebyshev_derivative_1d_double.

(** C129: two variables, each of the two partial derivatives. *)
Theorem C129_chebyshev_derivatives_2d_double : forall f (ax ay : axis f64) m n (a : nat -> nat -> f64) x y, usable ax x -> usable ay y ->
  (forall i j, (i <= m)%nat -> (j <= n)%nat -> is_finite (a i j) = true) -> bsum (m + 1) (fun i => bsum (n + 1) (fun j => Rabs (dvalue (a i j)))) <= huge ->
  let kx := axis_cond (axis_values ax) in let ky := axis_cond (axis_values ay) in kx * uround <= / 2 -> ky * uround <= / 2 ->
  let u := unit_of (axis_values ax) in let v := unit_of (axis_values ay) in
  let exact s t := bsum (m + 1) (fun i => bsum (n + 1) (fun j => dvalue (a i j) * cheb j (v t)) * cheb i (u s)) in
  (forall D, rate_moderate (axis_values ax) (dvalue x) -> let c := unit_rate (axis_values ax) (dvalue x) in let S := cheb_dsum2 m n a in S <= huge -> c * S <= huge ->
     let err := cheb_err m kx + cheb_err n ky + terms_err (m + 1) in err <= / 4 -> derivable_pt_lim (fun s => exact s (dvalue y)) (dvalue x) D ->
     close_to_rate (cs2_derivative_x (mkCS2 f ax ay m n a) x y) D err c (S + INR m * INR m * INR (m + 1) * tiny)) /\
  (forall D, rate_moderate (axis_values ay) (dvalue y) -> let c := unit_rate (axis_values ay) (dvalue y) in let S := cheb_dsum2 n m (fun j i => a i j) in S <= huge -> c * S <= huge ->
     let err := cheb_err n ky + cheb_err m kx + terms_err (n + 1) in err <= / 4 -> derivable_pt_lim (fun t => exact (dvalue x) t) (dvalue y) D ->
     close_to_rate (cs2_derivative_y (mkCS2 f ax ay m n a) x y) D err c (S + INR n * INR n * INR (n + 1) * tiny)).
Proof. exact cs2_deriv_lemma. Qed.
Print Assumptions C129_chebyshev_derivatives_2d_double.

(** C129: three variables, each of the three partial derivatives. *)
Theorem C129_chebyshev_derivatives_3d_double : forall f (ax ay az : axis f64) m n p (a : nat -> nat -> nat -> f64) x y z, usable ax x -> usable ay y -> usable az z ->
  (forall k i j, (k <= p)%nat -> (i <= m)%nat -> (j <= n)%nat -> is_finite (a k i j) = true /\ Rabs (dvalue (a k i j)) <= huge) ->
  let kx := axis_cond (axis_values ax) in let ky := axis_cond (axis_values ay) in let kz := axis_cond (axis_values az) in
  kx * uround <= / 2 -> ky * uround <= / 2 -> kz * uround <= / 2 ->
  let count := ((m + 1) * (n + 1) * (p + 1))%nat in let err := cheb_err m kx + cheb_err n ky + cheb_err p kz + terms_err count in err <= / 4 ->
  let u := unit_of (axis_values ax) in let v := unit_of (axis_values ay) in let w := unit_of (axis_values az) in
  let exact s t r := bsum (m + 1) (fun i => bsum (n + 1) (fun j => bsum (p + 1) (fun k => dvalue (a k i j) * cheb k (w r)) * cheb j (v t)) * cheb i (u s)) in
  (forall D, rate_moderate (axis_values ax) (dvalue x) -> let c := unit_rate (axis_values ax) (dvalue x) in let S := cheb_dsum3 m n p (fun i j k => a k i j) in S <= huge -> c * S <= huge ->
     derivable_pt_lim (fun s => exact s (dvalue y) (dvalue z)) (dvalue x) D ->
     close_to_rate (cs3_derivative_x (mkCS3 f ax ay az m n p a) x y z) D err c (S + INR m * INR m * INR count * tiny)) /\
  (forall D, rate_moderate (axis_values ay) (dvalue y) -> let c := unit_rate (axis_values ay) (dvalue y) in let S := cheb_dsum3 n m p (fun j i k => a k i j) in S <= huge -> c * S <= huge ->
     derivable_pt_lim (fun t => exact (dvalue x) t (dvalue z)) (dvalue y) D ->
     close_to_rate (cs3_derivative_y (mkCS3 f ax ay az m n p a) x y z) D err c (S + INR n * INR n * INR count * tiny)) /\
  (forall D, rate_moderate (axis_values az) (dvalue z) -> let c := unit_rate (axis_values az) (dvalue z) in let S := cheb_dsum3 p m n (fun k i j => a k i j) in S <= huge -> c * S <= huge ->
     derivable_pt_lim (fun r => exact (dvalue x) (dvalue y) r) (dvalue z) D ->
     close_to_rate (cs3_derivative_z (mkCS3 f ax ay az m n p a) x y z) D err c (S + INR p * INR p * INR count * tiny)).
Proof. exact cs3_deriv_lemma. Qed.
Print Assumptions C129_chebyshev_derivatives_3d_double.

(** Non-vacuity: T0 + 2 T1 + 3 T2 on [1, 5] at 4; the x derivative of a series
    in two variables with y on a half-line; the z derivative of a series in
    three variables. *)
Example C129_example_1d : forall f,
  Rabs (dvalue (cs1_derivative_x (mkCS1 f (Closed (f64_ofZ 1) (f64_ofZ 5)) 2 (fun i => f64_ofZ (Z.of_nat i + 1))) (f64_ofZ 4)) - 4) <= / 100000000000.
Proof. exact ex_dcheb1. Qed.
Example C129_example_2d : forall f,
  Rabs (dvalue (cs2_derivative_x (mkCS2 f (Closed (f64_ofZ 1) (f64_ofZ 5)) (Opened (f64_ofZ 1)) 1 2 (fun i j => f64_ofZ (Z.of_nat (2 * i + j)))) (f64_ofZ 4) (f64_ofZ 4)) - 3 / 4) <= / 100000000000.
Proof. exact ex_dcheb2. Qed.
Example C129_example_3d : forall f,
  Rabs (dvalue (cs3_derivative_z (mkCS3 f (Closed (f64_ofZ 1) (f64_ofZ 5)) (Opened (f64_ofZ 1)) (Opened (f64_ofZ 1)) 1 1 1 (fun k i j => f64_ofZ (Z.of_nat (2 * i + j + k * i)))) (f64_ofZ 4) (f64_ofZ 4) (f64_ofZ 4)) - 3 / 8) <= / 100000000000.
Proof. exact ex_dcheb3. Qed.
