(** Theorems on power and Chebyshev series in binary64. *)
From Coq Require Import List Arith ZArith Reals Bool Lia Lra.
From Flocq Require Import Core.Core IEEE754.BinarySingleNaN.
From Verif Require Import Outcome Num NumFun F64 M_Series M_Cheb S_Angles S_Series S_Cheb S_Double S_Ser64 L_Ser64.
Import ListNotations.
Local Open Scope R_scope.

(** C119: a power series of one variable, on a segment or a half-line: the
    double result is finite and within [power_err] of the polynomial at the
    exact unit coordinate, relative to the sum of the magnitudes. *)
Theorem C119_power_series_1d_double : forall (a : axis f64) (b : list f64) (x : f64), usable a x -> b <> [] -> all_finite b -> vec_sum b <= huge ->
  let k := axis_cond (axis_values a) in k * uround <= / 2 -> power_err (length b) k <= / 2 ->
  exists v, ps1_evaluate (mkPS1 b a) x = Ok v /\ is_finite v = true /\
    Rabs (dvalue v - poly (dvalues b) (unit_of (axis_values a) (dvalue x))) <= power_err (length b) k * (vec_sum b + tiny).
Proof. exact ps1_double_lemma. Qed.
Print Assumptions C119_power_series_1d_double.

(** C119: two variables, any mixture of segments and half-lines; the relative
    errors of the two axes add. *)
Theorem C119_power_series_2d_double : forall bm (ax ay : axis f64) (A : mat f64) (x y : f64), usable ax x -> usable ay y -> (0 < m_rows A)%nat -> (0 < m_cols A)%nat -> mat_finite A ->
  mat_sum A <= huge ->
  let kx := axis_cond (axis_values ax) in let ky := axis_cond (axis_values ay) in kx * uround <= / 2 -> ky * uround <= / 2 ->
  power_err (m_rows A) kx + power_err (m_cols A) ky <= / 2 ->
  exists v, ps2_evaluate bm (mkPS2 A ax ay) x y = Ok v /\ is_finite v = true /\
    Rabs (dvalue v - mat_poly A (unit_of (axis_values ax) (dvalue x)) (unit_of (axis_values ay) (dvalue y))) <=
      (power_err (m_rows A) kx + power_err (m_cols A) ky) * (mat_sum A + INR (m_rows A) * tiny).
Proof. exact ps2_double_lemma. Qed.
Print Assumptions C119_power_series_2d_double.

(** C119: three variables. *)
Theorem C119_power_series_3d_double : forall bm (ax ay az : axis f64) (B : list (mat f64)) nx ny (s : ps3 f64) (x y z : f64), usable ax x -> usable ay y -> usable az z ->
  (0 < nx)%nat -> (0 < ny)%nat -> B <> [] -> box_ok nx ny B -> box_sum B <= huge -> ps3_make B ax ay az = Ok s ->
  let kx := axis_cond (axis_values ax) in let ky := axis_cond (axis_values ay) in let kz := axis_cond (axis_values az) in
  kx * uround <= / 2 -> ky * uround <= / 2 -> kz * uround <= / 2 ->
  let err := power_err nx kx + power_err ny ky + power_err (length B) kz in err <= / 2 ->
  exists v, ps3_evaluate bm s x y z = Ok v /\ is_finite v = true /\
    Rabs (dvalue v - box_poly B (unit_of (axis_values ax) (dvalue x)) (unit_of (axis_values ay) (dvalue y)) (unit_of (axis_values az) (dvalue z))) <=
      err * (box_sum B + INR (length B) * INR nx * tiny).
Proof. exact ps3_double_lemma. Qed.
Print Assumptions C119_power_series_3d_double.

(** C119: a Chebyshev series of one variable; the error grows with the square
    of the order. *)
Theorem C119_chebyshev_series_1d_double : forall f (ax : axis f64) n (a : nat -> f64) x, usable ax x -> (forall i, (i <= n)%nat -> is_finite (a i) = true) ->
  let S := bsum (n + 1) (fun i => Rabs (dvalue (a i))) in S <= huge ->
  let k := axis_cond (axis_values ax) in k * uround <= / 2 -> cheb_err n k <= / 2 ->
  let v := cs1_evaluate (mkCS1 f ax n a) x in
  is_finite v = true /\
  Rabs (dvalue v - bsum (n + 1) (fun i => dvalue (a i) * cheb i (unit_of (axis_values ax) (dvalue x)))) <= cheb_err n k * (S + tiny).
Proof. exact cs1_double_lemma. Qed.
Print Assumptions C119_chebyshev_series_1d_double.

(** C119: two variables. *)
Theorem C119_chebyshev_series_2d_double : forall f (ax ay : axis f64) m n (a : nat -> nat -> f64) x y, usable ax x -> usable ay y ->
  (forall i j, (i <= m)%nat -> (j <= n)%nat -> is_finite (a i j) = true) ->
  let S := bsum (m + 1) (fun i => bsum (n + 1) (fun j => Rabs (dvalue (a i j)))) in S <= huge ->
  let kx := axis_cond (axis_values ax) in let ky := axis_cond (axis_values ay) in kx * uround <= / 2 -> ky * uround <= / 2 ->
  cheb_err m kx + cheb_err n ky <= / 2 ->
  let v := cs2_evaluate (mkCS2 f ax ay m n a) x y in let u := unit_of (axis_values ax) (dvalue x) in let w := unit_of (axis_values ay) (dvalue y) in
  is_finite v = true /\
  Rabs (dvalue v - bsum (m + 1) (fun i => bsum (n + 1) (fun j => dvalue (a i j) * cheb j w) * cheb i u)) <= (cheb_err m kx + cheb_err n ky) * (S + INR (m + 1) * tiny).
Proof. exact cs2_double_lemma. Qed.
Print Assumptions C119_chebyshev_series_2d_double.

(** C119: three variables; the coefficients of the class are indexed z, x, y. *)
Theorem C119_chebyshev_series_3d_double : forall f (ax ay az : axis f64) m n p (a : nat -> nat -> nat -> f64) x y z, usable ax x -> usable ay y -> usable az z ->
  (forall k i j, (k <= p)%nat -> (i <= m)%nat -> (j <= n)%nat -> is_finite (a k i j) = true) ->
  let S := bsum (m + 1) (fun i => bsum (n + 1) (fun j => bsum (p + 1) (fun k => Rabs (dvalue (a k i j))))) in S <= huge ->
  let kx := axis_cond (axis_values ax) in let ky := axis_cond (axis_values ay) in let kz := axis_cond (axis_values az) in
  kx * uround <= / 2 -> ky * uround <= / 2 -> kz * uround <= / 2 ->
  let err := cheb_err m kx + cheb_err n ky + cheb_err p kz in err <= / 2 ->
  let v := cs3_evaluate (mkCS3 f ax ay az m n p a) x y z in
  let u := unit_of (axis_values ax) (dvalue x) in let w := unit_of (axis_values ay) (dvalue y) in let q := unit_of (axis_values az) (dvalue z) in
  is_finite v = true /\
  Rabs (dvalue v - bsum (m + 1) (fun i => bsum (n + 1) (fun j => bsum (p + 1) (fun k => dvalue (a k i j) * cheb k q) * cheb j w) * cheb i u)) <=
    err * (S + INR (m + 1) * INR (n + 1) * tiny).
Proof. exact cs3_double_lemma. Qed.
Print Assumptions C119_chebyshev_series_3d_double.

(** C119, an accuracy independent of the axis, refuted: on the segment
    [2^52, 2^52 + 1] the series "t" gives 0 at the lower end instead of -1. *)
Theorem C119_short_segment_refuted : exists (a : axis f64) (b : list f64) x v, usable a x /\ all_finite b /\ vec_sum b = 1 /\
  ps1_evaluate (mkPS1 b a) x = Ok v /\ dvalue v = 0 /\ poly (dvalues b) (unit_of (axis_values a) (dvalue x)) = -1.
Proof. exact short_refuted_pf. Qed.
Print Assumptions C119_short_segment_refuted.

(** Non-vacuity: 1 + 2t + 3t^2 on [1, 5] at 4, where t = 1/2; the Chebyshev
    series with the same coefficients; two variables, with a half-line. *)
Example C119_example_power : exists v, ps1_evaluate (mkPS1 (map f64_ofZ [1; 2; 3]%Z) (Closed (f64_ofZ 1) (f64_ofZ 5))) (f64_ofZ 4) = Ok v /\
  Rabs (dvalue v - 11 / 4) <= / 1000000000000.
Proof. exact ex_power1. Qed.
Example C119_example_chebyshev : forall f,
  Rabs (dvalue (cs1_evaluate (mkCS1 f (Closed (f64_ofZ 1) (f64_ofZ 5)) 2 (fun i => f64_ofZ (Z.of_nat i + 1))) (f64_ofZ 4)) - / 2) <= / 100000000000.
Proof. exact ex_cheb1. Qed.
Example C119_example_power_2d : exists v,
  ps2_evaluate Release (mkPS2 (mkMat 2 2 (fun i j => f64_ofZ (Z.of_nat (2 * i + j)))) (Closed (f64_ofZ 1) (f64_ofZ 5)) (Opened (f64_ofZ 1))) (f64_ofZ 4) (f64_ofZ 4) = Ok v /\
  Rabs (dvalue v - 9 / 4) <= / 1000000000000.
Proof. exact ex_power2. Qed.
(** Three variables, and the Chebyshev series of two and three. *)
Example C119_example_power_3d : exists s v,
  ps3_make [mkMat 2 2 (fun i j => f64_ofZ (Z.of_nat (2 * i + j))); mkMat 2 2 (fun i j => f64_ofZ (Z.of_nat (i + j)))]
    (Closed (f64_ofZ 1) (f64_ofZ 5)) (Opened (f64_ofZ 1)) (Opened (f64_ofZ 1)) = Ok s /\
  ps3_evaluate Release s (f64_ofZ 4) (f64_ofZ 4) (f64_ofZ 4) = Ok v /\
  Rabs (dvalue v - 3) <= / 1000000000000.
Proof. exact ex_power3. Qed.
Example C119_example_chebyshev_2d : forall f,
  Rabs (dvalue (cs2_evaluate (mkCS2 f (Closed (f64_ofZ 1) (f64_ofZ 5)) (Opened (f64_ofZ 1)) 1 2 (fun i j => f64_ofZ (Z.of_nat (2 * i + j)))) (f64_ofZ 4) (f64_ofZ 4)) - / 4) <= / 100000000000.
Proof. exact ex_cheb2. Qed.
Example C119_example_chebyshev_3d : forall f,
  Rabs (dvalue (cs3_evaluate (mkCS3 f (Closed (f64_ofZ 1) (f64_ofZ 5)) (Opened (f64_ofZ 1)) (Opened (f64_ofZ 1)) 1 1 1 (fun k i j => f64_ofZ (Z.of_nat (2 * i + j + k * i)))) (f64_ofZ 4) (f64_ofZ 4) (f64_ofZ 4)) - 15 / 4) <= / 100000000000.
Proof. exact ex_cheb3. Qed.
