(** C59-C63: Chebyshev series. *)
From Coq Require Import List Arith ZArith Reals Lra Lia.
From Verif Require Import Outcome Num NumFun M_Series S_Series M_Cheb S_Cheb L_Series L_Cheb L_Cheb2 L_Cheb3 L_Cheb4.
Import ListNotations.
Local Open Scope R_scope.

(** C59. The polynomials are the Chebyshev polynomials. *)
Theorem C59_chebyshev_polynomials : forall n t, chebyshev_t n (cos t) = cos (INR n * t).
Proof. exact (fun n t => eq_trans (chebyshev_t_ok n (cos t)) (cheb_cos n t)). Qed.
Print Assumptions C59_chebyshev_polynomials.
Theorem C59_specification_polynomials : forall n t, cheb n (cos t) = cos (INR n * t).
Proof. exact cheb_cos. Qed.
Print Assumptions C59_specification_polynomials.
(** Evaluation, whatever the coefficients (computed or not). *)
Theorem C59_evaluate_1d : forall (s : cs1 R) x, regular (c1_x s) x ->
  cs1_evaluate s x = bsum (c1_n s + 1) (fun i => c1_a s i * cheb i (unit_of (c1_x s) x)).
Proof. exact eval1_unit. Qed.
Print Assumptions C59_evaluate_1d.
Theorem C59_evaluate_2d : forall (s : cs2 R) x y, regular (c2_x s) x -> regular (c2_y s) y ->
  cs2_evaluate s x y = bsum (c2_m s + 1) (fun i => bsum (c2_n s + 1) (fun j =>
    c2_a s i j * cheb i (unit_of (c2_x s) x) * cheb j (unit_of (c2_y s) y))).
Proof. exact eval2_unit. Qed.
Print Assumptions C59_evaluate_2d.
Theorem C59_evaluate_3d : forall (s : cs3 R) x y z, regular (c3_x s) x -> regular (c3_y s) y -> regular (c3_z s) z ->
  cs3_evaluate s x y z = bsum (c3_m s + 1) (fun i => bsum (c3_n s + 1) (fun j => bsum (c3_p s + 1) (fun k =>
    c3_a s k i j * cheb i (unit_of (c3_x s) x) * cheb j (unit_of (c3_y s) y) * cheb k (unit_of (c3_z s) z)))).
Proof. exact eval3_unit. Qed.
Print Assumptions C59_evaluate_3d.
Example C59_example :
  cs1_evaluate (mkCS1 (fun x => x) (Closed 0 4) 2 (fun i => INR i + 1)) 3 = 1 / 2.
Proof. rewrite C59_evaluate_1d by (cbn; lra). cbn [c1_n c1_x c1_a unit_of bsum Nat.add cheb]. unfold segment_unit. simpl. lra. Qed.

(** C60. After one computation of the coefficients the series interpolates the
    function at the nodes ... *)
Theorem C60_nodes_1d : forall f a n r x, axis_valid a -> (r <= n)%nat -> is_node a n r x ->
  cs1_evaluate (cs1_compute_ai (cs1_new f a n)) x = f x.
Proof. exact nodes1. Qed.
Print Assumptions C60_nodes_1d.
Theorem C60_nodes_2d : forall f ax ay m n r t x y, axis_valid ax -> axis_valid ay -> (r <= m)%nat -> (t <= n)%nat ->
  is_node ax m r x -> is_node ay n t y ->
  cs2_evaluate (cs2_compute_aij (cs2_new f ax ay m n)) x y = f x y.
Proof. exact nodes2. Qed.
Print Assumptions C60_nodes_2d.
Theorem C60_nodes_3d : forall f ax ay az m n p r t q x y z, axis_valid ax -> axis_valid ay -> axis_valid az ->
  (r <= m)%nat -> (t <= n)%nat -> (q <= p)%nat ->
  is_node ax m r x -> is_node ay n t y -> is_node az p q z ->
  cs3_evaluate (cs3_compute_aijk (cs3_new f ax ay az m n p)) x y z = f x y z.
Proof. exact nodes3. Qed.
Print Assumptions C60_nodes_3d.
(** ... which exist, are in the domain and are pairwise distinct ... *)
Theorem C60_nodes_exist : forall a n r, axis_valid a -> (r <= n)%nat ->
  exists x, is_node a n r x /\ (forall r', (r' <= n)%nat -> is_node a n r' x -> r' = r) /\
    match a with Closed lo hi => lo <= x <= hi | Opened lo => lo <= x end.
Proof. exact node_domain. Qed.
Print Assumptions C60_nodes_exist.
(** ... and it is exact everywhere on polynomials of the order of the series
    (in x on segments, in 1/x on half-lines). *)
Theorem C60_exact_1d : forall f a n x, axis_valid a -> is_poly1 a n f -> regular a x ->
  cs1_evaluate (cs1_compute_ai (cs1_new f a n)) x = f x.
Proof. exact exact_poly1. Qed.
Print Assumptions C60_exact_1d.
Theorem C60_exact_2d : forall f ax ay m n x y, axis_valid ax -> axis_valid ay -> is_poly2 ax ay m n f ->
  regular ax x -> regular ay y ->
  cs2_evaluate (cs2_compute_aij (cs2_new f ax ay m n)) x y = f x y.
Proof. exact exact_poly2. Qed.
Print Assumptions C60_exact_2d.
Theorem C60_exact_3d : forall f ax ay az m n p x y z, axis_valid ax -> axis_valid ay -> axis_valid az ->
  is_poly3 ax ay az m n p f -> regular ax x -> regular ay y -> regular az z ->
  cs3_evaluate (cs3_compute_aijk (cs3_new f ax ay az m n p)) x y z = f x y z.
Proof. exact exact_poly3. Qed.
Print Assumptions C60_exact_3d.
Example C60_example_1d : cs1_evaluate (cs1_compute_ai (cs1_closed (fun x => 1 + x * x) 0 2 2)) 5 = 26.
Proof.
  unfold cs1_closed. rewrite C60_exact_1d; [lra|cbn; lra| |cbn; lra].
  exists (fun i => match i with 0%nat => 1 | 1%nat => 0 | _ => 1 end). intros x _. cbn. lra.
Qed.
Example C60_example_opened : cs1_evaluate (cs1_compute_ai (cs1_opened (fun x => 3 - / x) 1 1)) 4 = 11 / 4.
Proof.
  unfold cs1_opened. rewrite C60_exact_1d; [lra|cbn; lra| |cbn; lra].
  exists (fun i => match i with 0%nat => 3 | _ => -1 end). intros x _. cbn. lra.
Qed.
Example C60_example_2d : cs2_evaluate (cs2_compute_aij (cs2_mixed (fun x y => x * x / y) 0 2 1 2 1)) 3 2 = 9 / 2.
Proof.
  unfold cs2_mixed. rewrite C60_exact_2d; try (cbn; lra).
  exists (fun i j => match i, j with 2%nat, 1%nat => 1 | _, _ => 0 end). intros x y _ _. cbn. lra.
Qed.
Example C60_example_3d : cs3_evaluate (cs3_compute_aijk (cs3_z_opened (fun x y z => x * y / z) 0 2 (-1) 1 1 1 1 1)) 3 2 4 = 3 / 2.
Proof.
  unfold cs3_z_opened. rewrite C60_exact_3d; try (cbn; lra).
  exists (fun i j k => match i, j, k with 1%nat, 1%nat, 1%nat => 1 | _, _, _ => 0 end). intros x y z _ _ _. cbn. lra.
Qed.

(** C61. Derivatives, whatever the coefficients. *)
Theorem C61_derivative_1d : forall s : cs1 R, derivative_on (regular (c1_x s)) (cs1_evaluate s) (cs1_derivative_x s).
Proof. exact d1. Qed.
Print Assumptions C61_derivative_1d.
Theorem C61_derivative_2d : forall s : cs2 R,
  (forall y, derivative_on (regular (c2_x s)) (fun x => cs2_evaluate s x y) (fun x => cs2_derivative_x s x y)) /\
  (forall x, derivative_on (regular (c2_y s)) (fun y => cs2_evaluate s x y) (fun y => cs2_derivative_y s x y)).
Proof. exact (fun s => conj (d2x s) (d2y s)). Qed.
Print Assumptions C61_derivative_2d.
Theorem C61_derivative_3d : forall s : cs3 R,
  (forall y z, derivative_on (regular (c3_x s)) (fun x => cs3_evaluate s x y z) (fun x => cs3_derivative_x s x y z)) /\
  (forall x z, derivative_on (regular (c3_y s)) (fun y => cs3_evaluate s x y z) (fun y => cs3_derivative_y s x y z)) /\
  (forall x y, derivative_on (regular (c3_z s)) (fun z => cs3_evaluate s x y z) (fun z => cs3_derivative_z s x y z)).
Proof. exact (fun s => conj (d3x s) (conj (d3y s) (d3z s))). Qed.
Print Assumptions C61_derivative_3d.
(** T_2(u) with u = x - 1 on [0, 2]: derivative 4 u. *)
Example C61_example : cs1_derivative_x (mkCS1 (fun x => x) (Closed 0 2) 2 (fun i => match i with 2%nat => 1 | _ => 0 end)) 3 = 8.
Proof.
  unfold cs1_derivative_x. rewrite acc_loop_ok. cbn [c1_n c1_x c1_a bsum Nat.add]. rewrite !t_prime_ok.
  unfold dcheb, to_unit, coef_deriv. rn. simpl. lra.
Qed.

(** C62. Conversion to a power series. *)
Theorem C62_conversion_1d : forall s : cs1 R,
  ((c1_n s <= 18)%nat -> exists b, cs1_compute_bi s = Ok b /\ length b = (c1_n s + 1)%nat /\
     forall x, ps1_evaluate (mkPS1 b (c1_x s)) x = Ok (cs1_evaluate s x)) /\
  ((18 < c1_n s)%nat -> cs1_compute_bi s = Exit 0).
Proof. exact (fun s => conj (bi1 s) (bi1_exit s)). Qed.
Print Assumptions C62_conversion_1d.
Theorem C62_conversion_2d : forall (s : cs2 R) bm,
  ((c2_m s <= 18)%nat -> (c2_n s <= 18)%nat ->
     exists b, cs2_compute_bij s = Ok b /\ m_rows b = (c2_m s + 1)%nat /\ m_cols b = (c2_n s + 1)%nat /\
     forall x y, ps2_evaluate bm (mkPS2 b (c2_x s) (c2_y s)) x y = Ok (cs2_evaluate s x y)) /\
  ((18 < c2_m s)%nat \/ (18 < c2_n s)%nat -> cs2_compute_bij s = Exit 0).
Proof. exact (fun s bm => conj (bij s bm) (bij_exit s)). Qed.
Print Assumptions C62_conversion_2d.
Theorem C62_conversion_3d : forall (s : cs3 R) bm,
  ((c3_m s <= 18)%nat -> (c3_n s <= 18)%nat -> (c3_p s <= 18)%nat ->
     exists b t, cs3_compute_bijk s = Ok b /\ shaped b (c3_m s + 1) (c3_n s + 1) /\ length b = (c3_p s + 1)%nat /\
     ps3_make b (c3_x s) (c3_y s) (c3_z s) = Ok t /\
     forall x y z, ps3_evaluate bm t x y z = Ok (cs3_evaluate s x y z)) /\
  ((18 < c3_m s)%nat \/ (18 < c3_n s)%nat \/ (18 < c3_p s)%nat -> cs3_compute_bijk s = Exit 0).
Proof. exact (fun s bm => conj (bijk s bm) (bijk_exit s)). Qed.
Print Assumptions C62_conversion_3d.
(** The conversion coefficients are those of T_n, without bound on n. *)
Theorem C62_transformation_coefficients : forall n x,
  cheb n x = bsum (n + 1) (fun k => transformation_coefficient n k * x ^ k).
Proof. exact cheb_poly. Qed.
Print Assumptions C62_transformation_coefficients.
(** T_4 = 8 x^4 - 8 x^2 + 1 at 2, from the theorem; order 20 exits. *)
Example C62_example :
  cheb 4 2 = 97 /\ bsum (4 + 1) (fun k => transformation_coefficient 4 k * 2 ^ k) = 97 /\
  cs1_compute_bi (cs1_closed (fun x : R => x) 0 1 20) = Exit 0.
Proof.
  split; [cbn; lra|]. split; [|reflexivity].
  rewrite <- (C62_transformation_coefficients 4 2). cbn [cheb]. lra.
Qed.

(** C63 (defect). Each further computation adds the old coefficients into the
    sums: after k+1 calls a coefficient is its first value times
    1 + w + ... + w^k; the second call leaves it unchanged only if it is 0. *)
Theorem C63_repeated_1d : forall f a n k i,
  c1_a (Nat.iter (S k) cs1_compute_ai (cs1_new f a n)) i =
  c1_a (cs1_compute_ai (cs1_new f a n)) i * bsum (S k) (fun j => weight n i ^ j).
Proof. exact rep1. Qed.
Print Assumptions C63_repeated_1d.
Theorem C63_repeated_2d : forall f ax ay m n k i j,
  c2_a (Nat.iter (S k) cs2_compute_aij (cs2_new f ax ay m n)) i j =
  c2_a (cs2_compute_aij (cs2_new f ax ay m n)) i j * bsum (S k) (fun l => (weight m i * weight n j) ^ l).
Proof. exact rep2. Qed.
Print Assumptions C63_repeated_2d.
Theorem C63_repeated_3d : forall f ax ay az m n p k l i j,
  c3_a (Nat.iter (S k) cs3_compute_aijk (cs3_new f ax ay az m n p)) l i j =
  c3_a (cs3_compute_aijk (cs3_new f ax ay az m n p)) l i j * bsum (S k) (fun q => (weight m i * weight n j * weight p l) ^ q).
Proof. exact rep3. Qed.
Print Assumptions C63_repeated_3d.
Theorem C63_second_call_1d : forall f a n i,
  c1_a (cs1_compute_ai (cs1_compute_ai (cs1_new f a n))) i = c1_a (cs1_compute_ai (cs1_new f a n)) i <->
  c1_a (cs1_compute_ai (cs1_new f a n)) i = 0.
Proof. exact twice1. Qed.
Print Assumptions C63_second_call_1d.
Theorem C63_second_call_2d : forall f ax ay m n i j,
  c2_a (cs2_compute_aij (cs2_compute_aij (cs2_new f ax ay m n))) i j = c2_a (cs2_compute_aij (cs2_new f ax ay m n)) i j <->
  c2_a (cs2_compute_aij (cs2_new f ax ay m n)) i j = 0.
Proof. exact twice2. Qed.
Print Assumptions C63_second_call_2d.
Theorem C63_second_call_3d : forall f ax ay az m n p k i j,
  c3_a (cs3_compute_aijk (cs3_compute_aijk (cs3_new f ax ay az m n p))) k i j =
    c3_a (cs3_compute_aijk (cs3_new f ax ay az m n p)) k i j <->
  c3_a (cs3_compute_aijk (cs3_new f ax ay az m n p)) k i j = 0.
Proof. exact twice3. Qed.
Print Assumptions C63_second_call_3d.
(** The intended claim, that a second computation changes nothing, is false. *)
Theorem C63_recompute_refuted : exists f a n x, axis_valid a /\ regular a x /\
  cs1_evaluate (cs1_compute_ai (cs1_compute_ai (cs1_new f a n))) x <>
  cs1_evaluate (cs1_compute_ai (cs1_new f a n)) x.
Proof. exact recompute_witness. Qed.
Print Assumptions C63_recompute_refuted.
Example C63_example :
  cs1_evaluate (cs1_compute_ai (cs1_closed (fun _ => 7) 0 1 0)) 3 = 7 /\
  cs1_evaluate (cs1_compute_ai (cs1_compute_ai (cs1_closed (fun _ => 7) 0 1 0))) 3 = 2 * 7 /\
  cs2_evaluate (cs2_compute_aij (cs2_compute_aij (cs2_closed (fun _ _ => 7) 0 1 0 1 0 0))) 3 3 = 2 * 7 /\
  cs3_evaluate (cs3_compute_aijk (cs3_compute_aijk (cs3_closed (fun _ _ _ => 7) 0 1 0 1 0 1 0 0 0))) 3 3 3 = 2 * 7.
Proof.
  exact (conj (proj1 (const1 7 (Closed 0 1) 3)) (conj (proj2 (const1 7 (Closed 0 1) 3))
    (conj (proj2 (const2 7 (Closed 0 1) (Closed 0 1) 3 3)) (proj2 (const3 7 (Closed 0 1) (Closed 0 1) (Closed 0 1) 3 3 3))))).
Qed.
