(** Property C132: coefficients and interpolation by Chebyshev series in double. *)
From Coq Require Import List Arith ZArith Reals.
From Flocq Require Import Core.Core IEEE754.BinarySingleNaN.
From Verif Require Import Outcome Num NumFun F64 M_Series S_Series S_Angles S_Double S_Rot64 M_Cheb S_Cheb S_Ser64 S_CCoef64 L_CCoef64e.
Local Open Scope R_scope.

(** C132: one variable. The function is sampled at doubles within rounding of
    the nodes of the axis; every coefficient is the normalised sum of the samples
    against a Chebyshev polynomial up to rounding; and the series evaluated at
    any point of the axis is the polynomial of degree n through the samples up
    to rounding. *)
Theorem C132_chebyshev_interpolation_1d_double : forall kappa (TT : NumTr f64) (f : f64 -> f64) (a : axis f64) n M, libm_near kappa TT -> 0 <= kappa <= 1000 -> axis_usable a -> sampled kappa f a n M -> tiny <= M <= bpow radix2 600 ->
  let e := coef_err kappa n in e <= / 10 ->
  let s := cs1_compute_ai (cs1_new f a n) in
  exists x : nat -> f64, (forall r, (r <= n)%nat -> near_node kappa a n r (x r)) /\
    (forall i, (i <= n)%nat -> within (2 * e * M) (c1_a s i) (weight n i * bsum (n + 1) (fun r => dvalue (f (x r)) * cheb i (node n r)))) /\
    (forall g, (forall r, (r <= n)%nat -> bsum (n + 1) (fun l => g l * node n r ^ l) = dvalue (f (x r))) ->
     forall y, usable a y -> let k := axis_cond (axis_values a) in k * uround <= / 2 -> cheb_err n k <= / 2 ->
     within (INR (n + 1) * (2 * e + 4 * cheb_err n k) * M) (cs1_evaluate s y) (bsum (n + 1) (fun l => g l * unit_of (axis_values a) (dvalue y) ^ l))).
Proof. exact cc1_lemma. Qed.
Print Assumptions C132_chebyshev_interpolation_1d_double.

(** C132: two variables, on any mixture of segments and half-lines. *)
Theorem C132_chebyshev_interpolation_2d_double : forall kappa (TT : NumTr f64) (f : f64 -> f64 -> f64) (ax ay : axis f64) m n M, libm_near kappa TT -> 0 <= kappa <= 1000 -> axis_usable ax -> axis_usable ay ->
  sampled2 kappa f ax ay m n M -> tiny <= M <= bpow radix2 600 -> let e := coef_err2 kappa m n in e <= / 10 ->
  let s := cs2_compute_aij (cs2_new f ax ay m n) in
  exists x y : nat -> f64, (forall r, (r <= m)%nat -> near_node kappa ax m r (x r)) /\ (forall r, (r <= n)%nat -> near_node kappa ay n r (y r)) /\
    (forall i j, (i <= m)%nat -> (j <= n)%nat -> within (4 * e * M) (c2_a s i j)
       (weight m i * weight n j * bsum (m + 1) (fun r => bsum (n + 1) (fun q => dvalue (f (x r) (y q)) * cheb i (node m r) * cheb j (node n q))))) /\
    (forall g, (forall r q, (r <= m)%nat -> (q <= n)%nat -> bsum (m + 1) (fun k => bsum (n + 1) (fun l => g k l * node m r ^ k * node n q ^ l)) = dvalue (f (x r) (y q))) ->
     forall u v, usable ax u -> usable ay v -> let kx := axis_cond (axis_values ax) in let ky := axis_cond (axis_values ay) in
     kx * uround <= / 2 -> ky * uround <= / 2 -> let c := cheb_err m kx + cheb_err n ky in c <= / 2 ->
     within (INR (m + 1) * INR (n + 1) * (4 * e + 6 * c) * M) (cs2_evaluate s u v)
       (bsum (m + 1) (fun k => bsum (n + 1) (fun l => g k l * unit_of (axis_values ax) (dvalue u) ^ k * unit_of (axis_values ay) (dvalue v) ^ l)))).
Proof. exact cc2_lemma. Qed.
Print Assumptions C132_chebyshev_interpolation_2d_double.

(** C132: three variables; the coefficients of the class are indexed z, x, y. *)
Theorem C132_chebyshev_interpolation_3d_double : forall kappa (TT : NumTr f64) (f : f64 -> f64 -> f64 -> f64) (ax ay az : axis f64) m n p M, libm_near kappa TT -> 0 <= kappa <= 1000 -> axis_usable ax -> axis_usable ay -> axis_usable az ->
  sampled3 kappa f ax ay az m n p M -> tiny <= M <= bpow radix2 600 -> let e := coef_err3 kappa m n p in e <= / 10 ->
  let s := cs3_compute_aijk (cs3_new f ax ay az m n p) in
  exists x y z : nat -> f64, (forall r, (r <= m)%nat -> near_node kappa ax m r (x r)) /\ (forall r, (r <= n)%nat -> near_node kappa ay n r (y r)) /\ (forall r, (r <= p)%nat -> near_node kappa az p r (z r)) /\
    (forall k i j, (k <= p)%nat -> (i <= m)%nat -> (j <= n)%nat -> within (8 * e * M) (c3_a s k i j)
       (weight m i * weight n j * weight p k * bsum (m + 1) (fun r => bsum (n + 1) (fun q => bsum (p + 1) (fun t => dvalue (f (x r) (y q) (z t)) * cheb i (node m r) * cheb j (node n q) * cheb k (node p t)))))) /\
    (forall g, (forall r q t, (r <= m)%nat -> (q <= n)%nat -> (t <= p)%nat -> bsum (m + 1) (fun a => bsum (n + 1) (fun b => bsum (p + 1) (fun c => g a b c * node m r ^ a * node n q ^ b * node p t ^ c))) = dvalue (f (x r) (y q) (z t))) ->
     forall u v w, usable ax u -> usable ay v -> usable az w -> let kx := axis_cond (axis_values ax) in let ky := axis_cond (axis_values ay) in let kz := axis_cond (axis_values az) in
     kx * uround <= / 2 -> ky * uround <= / 2 -> kz * uround <= / 2 -> let c := cheb_err m kx + cheb_err n ky + cheb_err p kz in c <= / 2 ->
     within (INR (m + 1) * INR (n + 1) * INR (p + 1) * (8 * e + 10 * c) * M) (cs3_evaluate s u v w)
       (bsum (m + 1) (fun a => bsum (n + 1) (fun b => bsum (p + 1) (fun c => g a b c * unit_of (axis_values ax) (dvalue u) ^ a * unit_of (axis_values ay) (dvalue v) ^ b * unit_of (axis_values az) (dvalue w) ^ c))))).
Proof. exact cc3_lemma. Qed.
Print Assumptions C132_chebyshev_interpolation_3d_double.

(** Non-vacuity: the identity on [1, 5] with order 1 has coefficients 3 and 2
    and takes the value 4 at 4, up to rounding; then the first coordinate of two
    and three variables, with a half-line. *)
Example C132_example_1d : let s := cs1_compute_ai (TT := exact_trig) (cs1_new (fun x => x) seg15 1) in
  Rabs (dvalue (c1_a s 0) - 3) <= / 10000000000 /\ Rabs (dvalue (c1_a s 1) - 2) <= / 10000000000 /\ Rabs (dvalue (cs1_evaluate s (f64_ofZ 4)) - 4) <= / 10000000000.
Proof. exact ex_cc1. Qed.
Example C132_example_2d : let s := cs2_compute_aij (TT := exact_trig) (cs2_new (fun x y => x) seg15 half1 1 1) in
  Rabs (dvalue (c2_a s 1 0) - 2) <= / 1000000000 /\ Rabs (dvalue (cs2_evaluate s (f64_ofZ 4) (f64_ofZ 4)) - 4) <= / 1000000000.
Proof. exact ex_cc2. Qed.
Example C132_example_3d : let s := cs3_compute_aijk (TT := exact_trig) (cs3_new (fun x y z => x) seg15 half1 seg15 1 1 1) in
  Rabs (dvalue (c3_a s 0 1 0) - 2) <= / 1000000000 /\ Rabs (dvalue (cs3_evaluate s (f64_ofZ 4) (f64_ofZ 4) (f64_ofZ 4)) - 4) <= / 1000000000.
Proof. exact ex_cc3. Qed.
