(** C133: conversion of a Chebyshev series to a power series in binary64. *)
From Coq Require Import List Arith ZArith Reals.
From Flocq Require Import Core.Core IEEE754.BinarySingleNaN.
From Verif Require Import Outcome Num NumFun F64 M_Series M_Cheb S_Angles S_Series S_Cheb S_Double S_Rot64 S_Ser64 S_Conv64 L_Conv64b.
Import ListNotations.
Local Open Scope R_scope.

(** C133: the transformation coefficients are the integer coefficients of the
    Chebyshev polynomials, without error. *)
Theorem C133_coefficients_exact : forall (TT : NumTr f64) n k, pow_exact TT -> (k <= n <= 18)%nat ->
  is_finite (transformation_coefficient n k) = true /\ dvalue (transformation_coefficient n k) = IZR (cheb_coef n k).
Proof. exact coefficients_pf. Qed.
Print Assumptions C133_coefficients_exact.

(** The specification of the integers: they are the coefficients of T_n. *)
Theorem C133_integers : forall n x, cheb n x = bsum (n + 1) (fun k => IZR (cheb_coef n k) * x ^ k).
Proof. exact cheb_coef_pf. Qed.
Print Assumptions C133_integers.

(** C133: one variable.  The computed power coefficients, and the power series
    built on them compared with the Chebyshev sum. *)
Theorem C133_conversion_1d_double : forall (TT : NumTr f64) f (ax : axis f64) n (a : nat -> f64), pow_exact TT -> (n <= 18)%nat -> (forall r, (r <= n)%nat -> is_finite (a r) = true) ->
  let sz := power_size n (fun r => mag (a r)) in let W := bsum (n + 1) sz in W <= / 2 * huge ->
  exists b, cs1_compute_bi (mkCS1 f ax n a) = Ok b /\ length b = (n + 1)%nat /\
    (forall i, (i <= n)%nat -> within (32 * uround * sz i) (nth i b (nofZ 0)) (power_coef n (fun r => dvalue (a r)) i)) /\
    (forall x, usable ax x -> let k := axis_cond (axis_values ax) in k * uround <= / 2 -> power_err (n + 1) k <= / 2 ->
     exists v, ps1_evaluate (mkPS1 b ax) x = Ok v /\
       within ((3 * power_err (n + 1) k + 32 * uround) * W) v (bsum (n + 1) (fun r => dvalue (a r) * cheb r (unit_of (axis_values ax) (dvalue x))))).
Proof. exact conv1_lemma. Qed.
Print Assumptions C133_conversion_1d_double.

(** C133: two variables. *)
Theorem C133_conversion_2d_double : forall (TT : NumTr f64) bm f (ax ay : axis f64) m n (a : nat -> nat -> f64), pow_exact TT -> (m <= 18)%nat -> (n <= 18)%nat ->
  (forall r s, (r <= m)%nat -> (s <= n)%nat -> is_finite (a r s) = true) ->
  let sz := fun i j => power_size m (fun r => power_size n (fun s => mag (a r s)) j) i in
  let W := bsum (m + 1) (fun i => bsum (n + 1) (fun j => sz i j)) in W <= / 2 * huge ->
  exists A, cs2_compute_bij (mkCS2 f ax ay m n a) = Ok A /\ m_rows A = (m + 1)%nat /\ m_cols A = (n + 1)%nat /\
    (forall i j, (i <= m)%nat -> (j <= n)%nat -> within (64 * uround * sz i j) (m_at A i j) (power_coef m (fun r => power_coef n (fun s => dvalue (a r s)) j) i)) /\
    (forall x y, usable ax x -> usable ay y -> let kx := axis_cond (axis_values ax) in let ky := axis_cond (axis_values ay) in kx * uround <= / 2 -> ky * uround <= / 2 ->
     let err := power_err (m + 1) kx + power_err (n + 1) ky in err <= / 2 ->
     exists v, ps2_evaluate bm (mkPS2 A ax ay) x y = Ok v /\
       within ((3 * err + 64 * uround) * W) v
         (bsum (m + 1) (fun r => bsum (n + 1) (fun s => dvalue (a r s) * cheb s (unit_of (axis_values ay) (dvalue y))) * cheb r (unit_of (axis_values ax) (dvalue x))))).
Proof. exact conv2_lemma. Qed.
Print Assumptions C133_conversion_2d_double.

(** C133: three variables; the coefficients of the class are indexed z, x, y. *)
Theorem C133_conversion_3d_double : forall (TT : NumTr f64) bm f (ax ay az : axis f64) m n p (a : nat -> nat -> nat -> f64), pow_exact TT -> (m <= 18)%nat -> (n <= 18)%nat -> (p <= 18)%nat ->
  (forall t r s, (t <= p)%nat -> (r <= m)%nat -> (s <= n)%nat -> is_finite (a t r s) = true) ->
  let sz := fun k i j => power_size m (fun r => power_size n (fun s => power_size p (fun t => mag (a t r s)) k) j) i in
  let W := bsum (p + 1) (fun k => bsum (m + 1) (fun i => bsum (n + 1) (fun j => sz k i j))) in W <= / 2 * huge ->
  exists B, cs3_compute_bijk (mkCS3 f ax ay az m n p a) = Ok B /\ length B = (p + 1)%nat /\
    (forall k, (k <= p)%nat -> let A := nth k B no_mat in m_rows A = (m + 1)%nat /\ m_cols A = (n + 1)%nat /\ forall i j, (i <= m)%nat -> (j <= n)%nat ->
      within (96 * uround * sz k i j) (m_at A i j) (power_coef m (fun r => power_coef n (fun s => power_coef p (fun t => dvalue (a t r s)) k) j) i)) /\
    exists ser, ps3_make B ax ay az = Ok ser /\
    (forall x y z, usable ax x -> usable ay y -> usable az z ->
     let kx := axis_cond (axis_values ax) in let ky := axis_cond (axis_values ay) in let kz := axis_cond (axis_values az) in
     kx * uround <= / 2 -> ky * uround <= / 2 -> kz * uround <= / 2 ->
     let err := power_err (m + 1) kx + power_err (n + 1) ky + power_err (p + 1) kz in err <= / 2 ->
     exists v, ps3_evaluate bm ser x y z = Ok v /\
       within ((3 * err + 96 * uround) * W) v
         (bsum (p + 1) (fun t => bsum (m + 1) (fun r => bsum (n + 1) (fun s => dvalue (a t r s) * cheb s (unit_of (axis_values ay) (dvalue y))) *
            cheb r (unit_of (axis_values ax) (dvalue x))) * cheb t (unit_of (axis_values az) (dvalue z))))).
Proof. exact conv3_lemma. Qed.
Print Assumptions C133_conversion_3d_double.

(** Non-vacuity: a library meeting the hypothesis; the series 1 + 2 T_1 + 3 T_2
    on [1, 5] becomes -2 + 2 t + 6 t^2, with value 1/2 at 4; two and three
    variables with half-lines. *)
Example C133_example_library : pow_exact exact_pow.
Proof. exact exact_pow_ok. Qed.
Example C133_example_1d : exists b v, cs1_compute_bi (TT := exact_pow) (mkCS1 (fun x => x) (Closed (f64_ofZ 1) (f64_ofZ 5)) 2 (fun r => f64_ofZ (Z.of_nat r + 1))) = Ok b /\
  Rabs (dvalue (nth 0 b (nofZ 0)) - -2) <= / 1000000000000 /\ Rabs (dvalue (nth 1 b (nofZ 0)) - 2) <= / 1000000000000 /\ Rabs (dvalue (nth 2 b (nofZ 0)) - 6) <= / 1000000000000 /\
  ps1_evaluate (mkPS1 b (Closed (f64_ofZ 1) (f64_ofZ 5))) (f64_ofZ 4) = Ok v /\ Rabs (dvalue v - / 2) <= / 100000000000.
Proof. exact ex_conv1. Qed.
Example C133_example_2d : exists A v, cs2_compute_bij (TT := exact_pow) (mkCS2 (fun x y => x) (Closed (f64_ofZ 1) (f64_ofZ 5)) (Opened (f64_ofZ 1)) 2 1 (fun r s => f64_ofZ (Z.of_nat (1 + r + 2 * s)))) = Ok A /\
  Rabs (dvalue (m_at A 2 1) - 10) <= / 1000000000000 /\
  ps2_evaluate Release (mkPS2 A (Closed (f64_ofZ 1) (f64_ofZ 5)) (Opened (f64_ofZ 1))) (f64_ofZ 4) (f64_ofZ 4) = Ok v /\ Rabs (dvalue v - 7 / 4) <= / 10000000000.
Proof. exact ex_conv2. Qed.
Example C133_example_3d : exists B s v, cs3_compute_bijk (TT := exact_pow) (mkCS3 (fun x y z => x) (Closed (f64_ofZ 1) (f64_ofZ 5)) (Opened (f64_ofZ 1)) (Opened (f64_ofZ 1)) 2 1 1
    (fun t r s => f64_ofZ (Z.of_nat (1 + r + 2 * s + 4 * t)))) = Ok B /\
  ps3_make B (Closed (f64_ofZ 1) (f64_ofZ 5)) (Opened (f64_ofZ 1)) (Opened (f64_ofZ 1)) = Ok s /\
  ps3_evaluate Release s (f64_ofZ 4) (f64_ofZ 4) (f64_ofZ 4) = Ok v /\ Rabs (dvalue v - 45 / 8) <= / 1000000000.
Proof. exact ex_conv3. Qed.
