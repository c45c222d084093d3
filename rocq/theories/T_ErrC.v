(** Property C137: distance between a Chebyshev series built from a function
    and that function.  [in_axis a x]: point of the segment or half-line;
    [smooth_on a k f M]: as a function of the unit coordinate of the axis [f]
    has [k] derivatives, the k-th bounded by [M]; [cheb_remainder n M] =
    M / (2^n (n+1)!); [growth n] = 2 n + 1. *)
From Coq Require Import List Arith ZArith Reals Lra Lia Bool.
From Flocq Require Import Core.Core IEEE754.BinarySingleNaN.
From Verif Require Import Outcome Num NumFun F64 M_Series S_Series M_Cheb S_Cheb S_Angles S_Double S_Rot64 S_Ser64 S_CCoef64 S_ErrC S_ErrC64
  L_CCoef64e L_ErrC L_ErrC64.
Local Open Scope R_scope.

(** One variable, segment or half-line. *)
Theorem C137_error_1d : forall f a n M x, axis_valid a -> smooth_on a (n + 1) f M -> in_axis a x ->
  Rabs (cs1_evaluate (cs1_compute_ai (cs1_new f a n)) x - f x) <= cheb_remainder n M.
Proof. exact err1. Qed.
Print Assumptions C137_error_1d.
(** On a segment, with the derivatives with respect to x. *)
Theorem C137_error_segment : forall f D lo hi n M x, lo < hi -> (forall t, lo <= t <= hi -> D 0%nat t = f t) ->
  derivatives (fun t => lo <= t <= hi) (n + 1) D M -> lo <= x <= hi ->
  Rabs (cs1_evaluate (cs1_compute_ai (cs1_closed f lo hi n)) x - f x) <= M * ((hi - lo) / 2) ^ (n + 1) / (2 ^ n * INR (fact (n + 1))).
Proof. exact err1_closed. Qed.
Print Assumptions C137_error_segment.
(** Functions that differ by at most [e] have series that differ by at most (2 n + 1) e. *)
Theorem C137_sensitivity : forall f g a n e x, axis_valid a -> in_axis a x -> (forall t, in_axis a t -> Rabs (f t - g t) <= e) ->
  Rabs (cs1_evaluate (cs1_compute_ai (cs1_new f a n)) x - cs1_evaluate (cs1_compute_ai (cs1_new g a n)) x) <= growth n * e.
Proof. exact sens1. Qed.
Print Assumptions C137_sensitivity.
(** Two variables. *)
Theorem C137_error_2d : forall f ax ay m n Mx My x y, axis_valid ax -> axis_valid ay ->
  (forall t, in_axis ay t -> smooth_on ax (m + 1) (fun s => f s t) Mx) -> (forall s, in_axis ax s -> smooth_on ay (n + 1) (f s) My) ->
  in_axis ax x -> in_axis ay y ->
  Rabs (cs2_evaluate (cs2_compute_aij (cs2_new f ax ay m n)) x y - f x y) <= cheb_remainder m Mx + growth m * cheb_remainder n My.
Proof. exact err2. Qed.
Print Assumptions C137_error_2d.
(** Three variables. *)
Theorem C137_error_3d : forall f ax ay az m n p Mx My Mz x y z, axis_valid ax -> axis_valid ay -> axis_valid az ->
  (forall t w, in_axis ay t -> in_axis az w -> smooth_on ax (m + 1) (fun s => f s t w) Mx) ->
  (forall s w, in_axis ax s -> in_axis az w -> smooth_on ay (n + 1) (fun t => f s t w) My) ->
  (forall s t, in_axis ax s -> in_axis ay t -> smooth_on az (p + 1) (f s t) Mz) ->
  in_axis ax x -> in_axis ay y -> in_axis az z ->
  Rabs (cs3_evaluate (cs3_compute_aijk (cs3_new f ax ay az m n p)) x y z - f x y z) <=
    cheb_remainder m Mx + growth m * (cheb_remainder n My + growth n * cheb_remainder p Mz).
Proof. exact err3. Qed.
Print Assumptions C137_error_3d.

(** In double, the rounding bound of C132 and the error of the samples are added. *)
Theorem C137_double_1d : forall kappa (TT : NumTr f64) (f : f64 -> f64) (a : axis f64) n M (F : R -> R) B delta y, libm_near kappa TT -> 0 <= kappa <= 1000 -> axis_usable a -> sampled kappa f a n M -> tiny <= M <= bpow radix2 600 ->
  let e := coef_err kappa n in e <= / 10 -> usable a y -> let k := axis_cond (axis_values a) in k * uround <= / 2 -> cheb_err n k <= / 2 ->
  smooth_on (axis_values a) (n + 1) F B -> faithful kappa f a n F delta ->
  within (INR (n + 1) * (2 * e + 4 * cheb_err n k) * M + (cheb_remainder n B + growth n * delta))
    (cs1_evaluate (cs1_compute_ai (cs1_new f a n)) y) (F (dvalue y)).
Proof. exact double1. Qed.
Print Assumptions C137_double_1d.
Theorem C137_double_2d : forall kappa (TT : NumTr f64) (f : f64 -> f64 -> f64) (ax ay : axis f64) m n M (F : R -> R -> R) Bx By delta u v, libm_near kappa TT -> 0 <= kappa <= 1000 -> axis_usable ax -> axis_usable ay ->
  sampled2 kappa f ax ay m n M -> tiny <= M <= bpow radix2 600 -> let e := coef_err2 kappa m n in e <= / 10 -> usable ax u -> usable ay v ->
  let kx := axis_cond (axis_values ax) in let ky := axis_cond (axis_values ay) in
  kx * uround <= / 2 -> ky * uround <= / 2 -> let c := cheb_err m kx + cheb_err n ky in c <= / 2 ->
  (forall t, in_axis (axis_values ay) t -> smooth_on (axis_values ax) (m + 1) (fun s => F s t) Bx) -> (forall s, in_axis (axis_values ax) s -> smooth_on (axis_values ay) (n + 1) (F s) By) ->
  faithful2 kappa f ax ay m n F delta ->
  within (INR (m + 1) * INR (n + 1) * (4 * e + 6 * c) * M + (cheb_remainder m Bx + growth m * (cheb_remainder n By + growth n * delta)))
    (cs2_evaluate (cs2_compute_aij (cs2_new f ax ay m n)) u v) (F (dvalue u) (dvalue v)).
Proof. exact double2. Qed.
Print Assumptions C137_double_2d.
Theorem C137_double_3d : forall kappa (TT : NumTr f64) (f : f64 -> f64 -> f64 -> f64) (ax ay az : axis f64) m n p M (F : R -> R -> R -> R) Bx By Bz delta u v w, libm_near kappa TT -> 0 <= kappa <= 1000 -> axis_usable ax -> axis_usable ay -> axis_usable az ->
  sampled3 kappa f ax ay az m n p M -> tiny <= M <= bpow radix2 600 -> let e := coef_err3 kappa m n p in e <= / 10 -> usable ax u -> usable ay v -> usable az w ->
  let kx := axis_cond (axis_values ax) in let ky := axis_cond (axis_values ay) in let kz := axis_cond (axis_values az) in
  kx * uround <= / 2 -> ky * uround <= / 2 -> kz * uround <= / 2 -> let c := cheb_err m kx + cheb_err n ky + cheb_err p kz in c <= / 2 ->
  (forall t q, in_axis (axis_values ay) t -> in_axis (axis_values az) q -> smooth_on (axis_values ax) (m + 1) (fun s => F s t q) Bx) ->
  (forall s q, in_axis (axis_values ax) s -> in_axis (axis_values az) q -> smooth_on (axis_values ay) (n + 1) (fun t => F s t q) By) ->
  (forall s t, in_axis (axis_values ax) s -> in_axis (axis_values ay) t -> smooth_on (axis_values az) (p + 1) (F s t) Bz) ->
  faithful3 kappa f ax ay az m n p F delta ->
  within (INR (m + 1) * INR (n + 1) * INR (p + 1) * (8 * e + 10 * c) * M + (cheb_remainder m Bx + growth m * (cheb_remainder n By + growth n * (cheb_remainder p Bz + growth p * delta))))
    (cs3_evaluate (cs3_compute_aijk (cs3_new f ax ay az m n p)) u v w) (F (dvalue u) (dvalue v) (dvalue w)).
Proof. exact double3. Qed.
Print Assumptions C137_double_3d.

(** *** Concrete cases *)
(** The bound is attained: x^2 on [-1, 1] with order 1 gives 1/2 at x = 1. *)
Example C137_example_sharp : smooth_on (Closed (-1) 1) (1 + 1) (fun x => x ^ 2) 2 /\ cheb_remainder 1 2 = / 2 /\
  cs1_evaluate (T := R) (cs1_compute_ai (cs1_new (fun x => x ^ 2) (Closed (-1) 1) 1)) 1 = / 2.
Proof. exact ex_sq. Qed.
(** 1/x on [1, oo) is of degree 1 in the unit coordinate. *)
Example C137_example_halfline : cs1_evaluate (T := R) (cs1_compute_ai (cs1_new (fun x => / x) (Opened 1) 1)) 3 = / 3.
Proof. exact ex_inv. Qed.
Example C137_example_2d : forall x y, -1 <= x <= 1 -> -1 <= y <= 1 ->
  Rabs (cs2_evaluate (T := R) (cs2_compute_aij (cs2_new (fun x y => x ^ 2 * y) (Closed (-1) 1) (Closed (-1) 1) 1 1)) x y - x ^ 2 * y) <= / 2.
Proof. exact ex_2d. Qed.
Example C137_example_3d : forall x y z, -1 <= x <= 1 -> -1 <= y <= 1 -> 1 <= z ->
  Rabs (cs3_evaluate (T := R) (cs3_compute_aijk (cs3_new (fun x y z => x ^ 2 * (y / z)) (Closed (-1) 1) (Closed (-1) 1) (Opened 1) 1 1 1)) x y z - x ^ 2 * (y / z)) <= / 2.
Proof. exact ex_3d. Qed.
(** The first coordinate on [1, 5], [1, 5] x [1, oo) and [1, 5] x [1, oo) x [1, 5] in double. *)
Example C137_example_double_1d : Rabs (dvalue (cs1_evaluate (cs1_compute_ai (TT := exact_trig) (cs1_new (fun x => x) seg15 1)) (f64_ofZ 4)) - 4) <= / 10000000000.
Proof. exact ex_double1. Qed.
Example C137_example_double_2d : Rabs (dvalue (cs2_evaluate (cs2_compute_aij (TT := exact_trig) (cs2_new (fun x y => x) seg15 half1 1 1)) (f64_ofZ 4) (f64_ofZ 4)) - 4) <= / 100000000.
Proof. exact ex_double2. Qed.
Example C137_example_double_3d : Rabs (dvalue (cs3_evaluate (cs3_compute_aijk (TT := exact_trig) (cs3_new (fun x y z => x) seg15 half1 seg15 1 1 1)) (f64_ofZ 4) (f64_ofZ 4) (f64_ofZ 4)) - 4) <= / 100000000.
Proof. exact ex_double3. Qed.
