(** C150: the map from a function to its Chebyshev series. *)
From Coq Require Import List Arith ZArith Reals Lra Lia.
From Verif Require Import Outcome Num NumFun M_Series S_Series M_Cheb S_Cheb L_Series L_Cheb L_Cheb2 L_Cheb3 L_Cheb4 L_ChebAlg.
Import ListNotations.
Local Open Scope R_scope.

(** The series of a linear combination is the combination of the series. *)
Theorem C150_linear_1d : forall f g al be a n x, regular a x ->
  cs1_evaluate (cs1_compute_ai (cs1_new (fun t => al * f t + be * g t) a n)) x =
  al * cs1_evaluate (cs1_compute_ai (cs1_new f a n)) x + be * cs1_evaluate (cs1_compute_ai (cs1_new g a n)) x.
Proof. exact linear1. Qed.
Print Assumptions C150_linear_1d.
Theorem C150_linear_2d : forall f g al be ax ay m n x y, regular ax x -> regular ay y ->
  cs2_evaluate (cs2_compute_aij (cs2_new (fun s t => al * f s t + be * g s t) ax ay m n)) x y =
  al * cs2_evaluate (cs2_compute_aij (cs2_new f ax ay m n)) x y + be * cs2_evaluate (cs2_compute_aij (cs2_new g ax ay m n)) x y.
Proof. exact linear2. Qed.
Print Assumptions C150_linear_2d.
Theorem C150_linear_3d : forall f g al be ax ay az m n p x y z, regular ax x -> regular ay y -> regular az z ->
  cs3_evaluate (cs3_compute_aijk (cs3_new (fun s t u => al * f s t u + be * g s t u) ax ay az m n p)) x y z =
  al * cs3_evaluate (cs3_compute_aijk (cs3_new f ax ay az m n p)) x y z +
  be * cs3_evaluate (cs3_compute_aijk (cs3_new g ax ay az m n p)) x y z.
Proof. exact linear3. Qed.
Print Assumptions C150_linear_3d.

(** The series depends on the values of the function at the nodes only. *)
Theorem C150_local_1d : forall f g a n, axis_valid a ->
  (forall r x, (r <= n)%nat -> is_node a n r x -> f x = g x) -> forall x, regular a x ->
  cs1_evaluate (cs1_compute_ai (cs1_new f a n)) x = cs1_evaluate (cs1_compute_ai (cs1_new g a n)) x.
Proof. exact local1. Qed.
Print Assumptions C150_local_1d.
Theorem C150_local_2d : forall f g ax ay m n, axis_valid ax -> axis_valid ay ->
  (forall r t x y, (r <= m)%nat -> (t <= n)%nat -> is_node ax m r x -> is_node ay n t y -> f x y = g x y) ->
  forall x y, regular ax x -> regular ay y ->
  cs2_evaluate (cs2_compute_aij (cs2_new f ax ay m n)) x y = cs2_evaluate (cs2_compute_aij (cs2_new g ax ay m n)) x y.
Proof. exact local2. Qed.
Print Assumptions C150_local_2d.
Theorem C150_local_3d : forall f g ax ay az m n p, axis_valid ax -> axis_valid ay -> axis_valid az ->
  (forall r t q x y z, (r <= m)%nat -> (t <= n)%nat -> (q <= p)%nat ->
     is_node ax m r x -> is_node ay n t y -> is_node az p q z -> f x y z = g x y z) ->
  forall x y z, regular ax x -> regular ay y -> regular az z ->
  cs3_evaluate (cs3_compute_aijk (cs3_new f ax ay az m n p)) x y z =
  cs3_evaluate (cs3_compute_aijk (cs3_new g ax ay az m n p)) x y z.
Proof. exact local3. Qed.
Print Assumptions C150_local_3d.
(** At order 1 the function 2x^2 is not told from the constant 1. *)
Example C150_local_example :
  cs1_evaluate (cs1_compute_ai (cs1_new (fun x => 2 * x ^ 2) (Closed (-1) 1) 1)) 1 = 1.
Proof.
  rewrite (C150_local_1d _ (fun _ => 1)); [|cbn; lra| |cbn; lra].
  - apply exact_poly1; [cbn; lra| |cbn; lra]. exists (fun i => match i with O => 1 | _ => 0 end).
    intros x _. cbn [bsum Nat.add poly_var pow]. ring.
  - intros r x Hr [_ E]. cbn [unit_of] in E. unfold segment_unit in E.
    assert (E2 : x = node 1 r) by (rewrite <- E; field). subst x. unfold node.
    assert (H : r = 0%nat \/ r = 1%nat) by lia. destruct H as [-> | ->]; simpl INR.
    + replace (PI * (2 * 0 + 1) / (2 * (1 + 1))) with (PI / 4) by field. rewrite cos_PI4.
      assert (S : sqrt 2 * sqrt 2 = 2) by (apply sqrt_sqrt; lra). field_simplify_eq; [|apply Rgt_not_eq; apply sqrt_lt_R0; lra].
      simpl. rewrite Rmult_1_r, S. lra.
    + replace (PI * (2 * 1 + 1) / (2 * (1 + 1))) with (3 * (PI / 4)) by field. rewrite cos_3PI4.
      assert (S : sqrt 2 * sqrt 2 = 2) by (apply sqrt_sqrt; lra). field_simplify_eq; [|apply Rgt_not_eq; apply sqrt_lt_R0; lra].
      simpl. rewrite Rmult_1_r, S. lra.
Qed.
Example C150_linear_example :
  cs1_evaluate (cs1_compute_ai (cs1_new (fun x => 5 * (2 * x ^ 2) + 3 * x) (Closed (-1) 1) 1)) 1 = 8.
Proof.
  rewrite (C150_linear_1d (fun x => 2 * x ^ 2) (fun x => x)) by (cbn; lra). rewrite C150_local_example.
  rewrite (exact_poly1 (fun x => x)); [lra|cbn; lra| |cbn; lra].
  exists (fun i => match i with 1%nat => 1 | _ => 0 end). intros x _. cbn [bsum Nat.add poly_var pow]. ring.
Qed.

(** The series of a product of functions of separate variables is the product
    of their series. *)
Theorem C150_product_2d : forall f g ax ay m n x y, regular ax x -> regular ay y ->
  cs2_evaluate (cs2_compute_aij (cs2_new (fun s t => f s * g t) ax ay m n)) x y =
  cs1_evaluate (cs1_compute_ai (cs1_new f ax m)) x * cs1_evaluate (cs1_compute_ai (cs1_new g ay n)) y.
Proof. exact product2. Qed.
Print Assumptions C150_product_2d.
Theorem C150_product_3d : forall f g h ax ay az m n p x y z, regular ax x -> regular ay y -> regular az z ->
  cs3_evaluate (cs3_compute_aijk (cs3_new (fun s t u => f s * g t * h u) ax ay az m n p)) x y z =
  cs1_evaluate (cs1_compute_ai (cs1_new f ax m)) x * cs1_evaluate (cs1_compute_ai (cs1_new g ay n)) y *
  cs1_evaluate (cs1_compute_ai (cs1_new h az p)) z.
Proof. exact product3. Qed.
Print Assumptions C150_product_3d.
Example C150_product_example :
  cs2_evaluate (cs2_compute_aij (cs2_new (fun s t => 2 * s ^ 2 * t) (Closed (-1) 1) (Closed 0 4) 1 3)) 1 3 = 3.
Proof.
  rewrite (C150_product_2d (fun s => 2 * s ^ 2) (fun t => t)) by (cbn; lra). rewrite C150_local_example.
  rewrite (exact_poly1 (fun x => x)); [lra|cbn; lra| |cbn; lra].
  exists (fun i => match i with 1%nat => 1 | _ => 0 end). intros x _. cbn [bsum Nat.add poly_var pow]. ring.
Qed.

(** Turning a segment round turns the series round. *)
Theorem C150_reflection : forall f lo hi n x, lo < hi ->
  cs1_evaluate (cs1_compute_ai (cs1_new (fun t => f (lo + hi - t)) (Closed lo hi) n)) x =
  cs1_evaluate (cs1_compute_ai (cs1_new f (Closed lo hi) n)) (lo + hi - x).
Proof. exact reflect1. Qed.
Print Assumptions C150_reflection.
Example C150_reflection_example :
  cs1_evaluate (cs1_compute_ai (cs1_new (fun t => exp (0 + 2 - t)) (Closed 0 2) 3)) (1 / 2) =
  cs1_evaluate (cs1_compute_ai (cs1_new exp (Closed 0 2) 3)) (3 / 2).
Proof. rewrite C150_reflection by lra. f_equal. lra. Qed.

(** The sum of the squares at the nodes is read off the coefficients. *)
Theorem C150_energy : forall f a n x, axis_valid a -> (forall r, (r <= n)%nat -> is_node a n r (x r)) ->
  let s := cs1_compute_ai (cs1_new f a n) in
  bsum (n + 1) (fun r => f (x r) ^ 2) =
  (INR n + 1) * c1_a s 0%nat ^ 2 + (INR n + 1) / 2 * bsum n (fun i => c1_a s (S i) ^ 2).
Proof. exact energy1. Qed.
Print Assumptions C150_energy.
Example C150_energy_example :
  let s := cs1_compute_ai (cs1_new (fun _ : R => 3) (Opened 2) 4) in
  (INR 4 + 1) * c1_a s 0%nat ^ 2 + (INR 4 + 1) / 2 * bsum 4 (fun i => c1_a s (S i) ^ 2) = 45.
Proof.
  intros s. unfold s. rewrite <- (C150_energy (fun _ => 3) (Opened 2) 4 (seg (Opened 2) 4)).
  - cbn [bsum Nat.add]. lra.
  - cbn. lra.
  - intros r Hr. apply seg_is_node; [cbn; lra|lia].
Qed.

(** Taking the series of a series, at the same order or a higher one, gives
    its coefficients back, and no others. *)
Theorem C150_recover : forall (s : cs1 R) N i, axis_valid (c1_x s) -> (c1_n s <= N)%nat -> (i <= N)%nat ->
  c1_a (cs1_compute_ai (cs1_new (cs1_evaluate s) (c1_x s) N)) i = if (i <=? c1_n s)%nat then c1_a s i else 0.
Proof. exact recover1. Qed.
Print Assumptions C150_recover.
Example C150_recover_example :
  let s := mkCS1 (fun x : R => x) (Closed 0 4) 2 (fun i => INR i + 1) in
  let t := cs1_compute_ai (cs1_new (cs1_evaluate s) (Closed 0 4) 5) in
  c1_a t 2%nat = 3 /\ c1_a t 4%nat = 0.
Proof.
  intros s t. unfold t. change (Closed 0 4) with (c1_x s). split.
  - rewrite (C150_recover s 5 2) by (cbn; lra || lia). cbn. lra.
  - rewrite (C150_recover s 5 4) by (cbn; lra || lia). reflexivity.
Qed.
(** Two series of the same order on the same axis take the same values exactly
    when they have the same coefficients. *)
Theorem C150_coefficients_unique : forall s t : cs1 R,
  c1_x s = c1_x t -> c1_n s = c1_n t -> axis_valid (c1_x s) ->
  ((forall x, regular (c1_x s) x -> cs1_evaluate s x = cs1_evaluate t x) <->
   (forall i, (i <= c1_n s)%nat -> c1_a s i = c1_a t i)).
Proof. exact same_series. Qed.
Print Assumptions C150_coefficients_unique.
Example C150_unique_example : exists x, regular (Closed 0 4) x /\
  cs1_evaluate (mkCS1 (fun x : R => x) (Closed 0 4) 2 (fun i => INR i + 1)) x <>
  cs1_evaluate (mkCS1 (fun x : R => x) (Closed 0 4) 2 (fun i => 1)) x.
Proof.
  exists 4. split; [cbn; lra|]. rewrite !eval1_unit by (cbn; lra).
  cbn [c1_n c1_x c1_a unit_of bsum Nat.add cheb]. unfold segment_unit. simpl. lra.
Qed.
(** The same in two and three dimensions. *)
Theorem C150_recover_2d : forall (s : cs2 R) M N i j, axis_valid (c2_x s) -> axis_valid (c2_y s) ->
  (c2_m s <= M)%nat -> (c2_n s <= N)%nat -> (i <= M)%nat -> (j <= N)%nat ->
  c2_a (cs2_compute_aij (cs2_new (cs2_evaluate s) (c2_x s) (c2_y s) M N)) i j =
  if ((i <=? c2_m s) && (j <=? c2_n s))%nat%bool then c2_a s i j else 0.
Proof. exact recover2. Qed.
Print Assumptions C150_recover_2d.
Theorem C150_recover_3d : forall (s : cs3 R) M N P i j k, axis_valid (c3_x s) -> axis_valid (c3_y s) -> axis_valid (c3_z s) ->
  (c3_m s <= M)%nat -> (c3_n s <= N)%nat -> (c3_p s <= P)%nat -> (i <= M)%nat -> (j <= N)%nat -> (k <= P)%nat ->
  c3_a (cs3_compute_aijk (cs3_new (cs3_evaluate s) (c3_x s) (c3_y s) (c3_z s) M N P)) k i j =
  if ((i <=? c3_m s) && (j <=? c3_n s) && (k <=? c3_p s))%nat%bool then c3_a s k i j else 0.
Proof. exact recover3. Qed.
Print Assumptions C150_recover_3d.
Example C150_recover_3d_example :
  let s := mkCS3 (fun x y z : R => x) (Closed 0 4) (Opened 1) (Closed (-1) 1) 2 1 3 (fun k i j => INR i + 10 * INR j + 100 * INR k) in
  let t := cs3_compute_aijk (cs3_new (cs3_evaluate s) (Closed 0 4) (Opened 1) (Closed (-1) 1) 2 2 4) in
  c3_a t 3%nat 2%nat 1%nat = 312 /\ c3_a t 3%nat 2%nat 2%nat = 0.
Proof.
  intros s t. unfold t.
  change (cs3_new (cs3_evaluate s) (Closed 0 4) (Opened 1) (Closed (-1) 1)) with
    (cs3_new (cs3_evaluate s) (c3_x s) (c3_y s) (c3_z s)). split.
  - rewrite (C150_recover_3d s 2 2 4 2 1 3) by (cbn; lra || lia). cbn. lra.
  - rewrite (C150_recover_3d s 2 2 4 2 2 3) by (cbn; lra || lia). reflexivity.
Qed.
