(** Chebyshev series in one, two and three variables. *)
From Coq Require Import List Arith ZArith Reals Lra Lia Bool.
From Verif Require Import Outcome Num NumFun M_Series S_Series L_Series M_Cheb S_Cheb L_Cheb L_Cheb2.
Import ListNotations.
Local Open Scope R_scope.

(** *** Evaluation *)
Lemma eval1 s x : cs1_evaluate s x = bsum (c1_n s + 1) (fun i => c1_a s i * cheb i (to_unit (c1_x s) x)).
Proof. apply clenshaw_sum_ok. Qed.
Lemma eval2 s x y : cs2_evaluate s x y =
  bsum (c2_m s + 1) (fun i => bsum (c2_n s + 1) (fun j => c2_a s i j * cheb i (to_unit (c2_x s) x) * cheb j (to_unit (c2_y s) y))).
Proof.
  unfold cs2_evaluate. rewrite clenshaw_sum_ok. apply bsum_ext. intros i _.
  rewrite clenshaw_sum_ok, <- bsum_scal_r. apply bsum_ext. intros. ring.
Qed.
Lemma eval3 s x y z : cs3_evaluate s x y z =
  bsum (c3_m s + 1) (fun i => bsum (c3_n s + 1) (fun j => bsum (c3_p s + 1) (fun k =>
    c3_a s k i j * cheb i (to_unit (c3_x s) x) * cheb j (to_unit (c3_y s) y) * cheb k (to_unit (c3_z s) z)))).
Proof.
  unfold cs3_evaluate. rewrite clenshaw_sum_ok. apply bsum_ext. intros i _.
  rewrite clenshaw_sum_ok, <- bsum_scal_r. apply bsum_ext. intros j _.
  rewrite clenshaw_sum_ok, <- !bsum_scal_r. apply bsum_ext. intros. ring.
Qed.

(** *** Coefficients *)
Lemma wgt n i : weight n i = 2 / (INR n + 1) * (if (i =? 0)%nat then / 2 else 1).
Proof. pose proof (npos n). destruct i; simpl; field; lra. Qed.
Lemma coef1 s i : c1_a (cs1_compute_ai s) i =
  (c1_a s i + bsum (c1_n s + 1) (fun r => c1_f s (seg (c1_x s) (c1_n s) r) * cheb i (node (c1_n s) r))) * weight (c1_n s) i.
Proof.
  unfold cs1_compute_ai. cbn [c1_a]. rewrite acc_loop_ok.
  rewrite (bsum_ext _ _ (fun r => c1_f s (seg (c1_x s) (c1_n s) r) * cheb i (node (c1_n s) r)))
    by (intros; rn; now rewrite chebyshev_t_ok, cheb_node_ok).
  rewrite wgt. rn. rewrite <- INR_IZR_INZ. pose proof (npos (c1_n s)).
  destruct (i =? 0)%nat; field; lra.
Qed.
Lemma coef2 s i j : c2_a (cs2_compute_aij s) i j =
  (c2_a s i j + bsum (c2_m s + 1) (fun r => bsum (c2_n s + 1) (fun t =>
     c2_f s (seg (c2_x s) (c2_m s) r) (seg (c2_y s) (c2_n s) t) * cheb i (node (c2_m s) r) * cheb j (node (c2_n s) t))))
  * (weight (c2_m s) i * weight (c2_n s) j).
Proof.
  unfold cs2_compute_aij. cbn [c2_a].
  rewrite (fold_seq_gen _ (fun r => bsum (c2_n s + 1) (fun t =>
     c2_f s (seg (c2_x s) (c2_m s) r) (seg (c2_y s) (c2_n s) t) * cheb i (node (c2_m s) r) * cheb j (node (c2_n s) t)))).
  - rewrite !wgt. rn. rewrite <- !INR_IZR_INZ. pose proof (npos (c2_m s)). pose proof (npos (c2_n s)).
    destruct (i =? 0)%nat, (j =? 0)%nat; cbn [andb orb negb]; field; lra.
  - intros acc r. rewrite acc_loop_ok. f_equal. apply bsum_ext. intros t _. rn.
    now rewrite !chebyshev_t_ok, !cheb_node_ok.
Qed.
Lemma coef3_ok s k i j : c3_a (cs3_compute_aijk s) k i j =
  (c3_a s k i j + bsum (c3_m s + 1) (fun r => bsum (c3_n s + 1) (fun t => bsum (c3_p s + 1) (fun q =>
     c3_f s (seg (c3_x s) (c3_m s) r) (seg (c3_y s) (c3_n s) t) (seg (c3_z s) (c3_p s) q)
     * cheb i (node (c3_m s) r) * cheb j (node (c3_n s) t) * cheb k (node (c3_p s) q)))))
  * (weight (c3_m s) i * weight (c3_n s) j * weight (c3_p s) k).
Proof.
  unfold cs3_compute_aijk. cbn [c3_a].
  rewrite (fold_seq_gen _ (fun r => bsum (c3_n s + 1) (fun t => bsum (c3_p s + 1) (fun q =>
     c3_f s (seg (c3_x s) (c3_m s) r) (seg (c3_y s) (c3_n s) t) (seg (c3_z s) (c3_p s) q)
     * cheb i (node (c3_m s) r) * cheb j (node (c3_n s) t) * cheb k (node (c3_p s) q))))).
  - rewrite !wgt. rn. rewrite <- !INR_IZR_INZ.
    pose proof (npos (c3_m s)). pose proof (npos (c3_n s)). pose proof (npos (c3_p s)).
    destruct (i =? 0)%nat, (j =? 0)%nat, (k =? 0)%nat; cbn [andb orb negb]; field; lra.
  - intros acc r. apply fold_seq_gen. intros acc' t. rewrite acc_loop_ok. f_equal. apply bsum_ext. intros q _. rn.
    now rewrite !chebyshev_t_ok, !cheb_node_ok.
Qed.

(** *** The approximation as an interpolation operator *)
Lemma op1 f a n x : regular a x ->
  cs1_evaluate (cs1_compute_ai (cs1_new f a n)) x = bsum (n + 1) (fun r => f (seg a n r) * kern n r (unit_of a x)).
Proof.
  intros Hx. rewrite eval1. cbn [cs1_compute_ai cs1_new c1_n c1_x]. rewrite unit_of_ok by exact Hx.
  set (u := unit_of a x). unfold kern.
  rewrite (bsum_ext (n + 1) _ (fun i => bsum (n + 1) (fun r => f (seg a n r) * (weight n i * cheb i (node n r) * cheb i u)))).
  - rewrite bsum_swap. apply bsum_ext. intros r _. now rewrite bsum_scal.
  - intros i _. change (cs1_compute_ai {| c1_f := f; c1_x := a; c1_n := n; c1_a := fun _ => _ |})
      with (cs1_compute_ai (cs1_new f a n)) || idtac.
    match goal with |- ?A * _ = _ =>
      replace A with (c1_a (cs1_compute_ai (cs1_new f a n)) i) by reflexivity end.
    rewrite coef1. cbn [cs1_new c1_a c1_f c1_x c1_n]. rn.
    rewrite Rplus_0_l, <- !bsum_scal_r. apply bsum_ext. intros. ring.
Qed.
Lemma prod2 m n F (A B : nat -> R) :
  bsum m (fun i => bsum n (fun j => F * B j * A i)) = F * bsum n B * bsum m A.
Proof.
  rewrite <- bsum_scal. apply bsum_ext. intros i _. rewrite bsum_scal_r. now rewrite bsum_scal.
Qed.
Lemma prod3 m n p F (A B C : nat -> R) :
  bsum m (fun i => bsum n (fun j => bsum p (fun k => F * C k * B j * A i))) = F * bsum p C * bsum n B * bsum m A.
Proof.
  rewrite <- bsum_scal. apply bsum_ext. intros i _. rewrite <- bsum_scal, <- bsum_scal_r. apply bsum_ext. intros j _.
  now rewrite !bsum_scal_r, bsum_scal.
Qed.
Lemma swap_in a b c (G : nat -> nat -> nat -> R) :
  bsum a (fun j => bsum b (fun k => bsum c (fun r => G j k r))) = bsum c (fun r => bsum a (fun j => bsum b (fun k => G j k r))).
Proof.
  rewrite <- (bsum_swap a c (fun j r => bsum b (fun k => G j k r))). apply bsum_ext. intros j _. apply bsum_swap.
Qed.
Lemma op2 f ax ay m n x y : regular ax x -> regular ay y ->
  cs2_evaluate (cs2_compute_aij (cs2_new f ax ay m n)) x y =
  bsum (m + 1) (fun r => bsum (n + 1) (fun t => f (seg ax m r) (seg ay n t) * kern n t (unit_of ay y)) * kern m r (unit_of ax x)).
Proof.
  intros Hx Hy. rewrite eval2. set (s := cs2_new f ax ay m n).
  change (c2_m (cs2_compute_aij s)) with m. change (c2_n (cs2_compute_aij s)) with n.
  change (c2_x (cs2_compute_aij s)) with ax. change (c2_y (cs2_compute_aij s)) with ay.
  rewrite !unit_of_ok by assumption. set (u := unit_of ax x). set (v := unit_of ay y).
  transitivity (bsum (m + 1) (fun i => bsum (n + 1) (fun j => bsum (m + 1) (fun r => bsum (n + 1) (fun t =>
    f (seg ax m r) (seg ay n t) * (weight n j * cheb j (node n t) * cheb j v) * (weight m i * cheb i (node m r) * cheb i u)))))).
  - apply bsum_ext. intros i _. apply bsum_ext. intros j _. rewrite coef2. unfold s. cbn [cs2_new c2_a c2_f c2_x c2_y c2_m c2_n]. rn.
    rewrite Rplus_0_l, <- !bsum_scal_r. apply bsum_ext. intros r _. rewrite <- !bsum_scal_r. apply bsum_ext. intros. ring.
  - transitivity (bsum (m + 1) (fun r => bsum (n + 1) (fun t => bsum (m + 1) (fun i => bsum (n + 1) (fun j =>
    f (seg ax m r) (seg ay n t) * (weight n j * cheb j (node n t) * cheb j v) * (weight m i * cheb i (node m r) * cheb i u)))))).
    + rewrite (bsum_ext (m + 1) _ (fun i => bsum (m + 1) (fun r => bsum (n + 1) (fun t => bsum (n + 1) (fun j =>
        f (seg ax m r) (seg ay n t) * (weight n j * cheb j (node n t) * cheb j v) * (weight m i * cheb i (node m r) * cheb i u)))))).
      2:{ intros i _. rewrite bsum_swap. apply bsum_ext. intros r _. now rewrite bsum_swap. }
      rewrite bsum_swap. apply bsum_ext. intros r _. now rewrite bsum_swap.
    + apply bsum_ext. intros r _. rewrite <- bsum_scal_r. apply bsum_ext. intros t _. unfold kern.
      now rewrite prod2.
Qed.
(** The three-variable operator, by freezing one variable: *)
Lemma op3 f ax ay az m n p x y z : regular ax x -> regular ay y -> regular az z ->
  cs3_evaluate (cs3_compute_aijk (cs3_new f ax ay az m n p)) x y z =
  bsum (m + 1) (fun r => bsum (n + 1) (fun t => bsum (p + 1) (fun q =>
    f (seg ax m r) (seg ay n t) (seg az p q) * kern p q (unit_of az z)) * kern n t (unit_of ay y)) * kern m r (unit_of ax x)).
Proof.
  intros Hx Hy Hz. rewrite eval3. set (s := cs3_new f ax ay az m n p).
  change (c3_m (cs3_compute_aijk s)) with m. change (c3_n (cs3_compute_aijk s)) with n. change (c3_p (cs3_compute_aijk s)) with p.
  change (c3_x (cs3_compute_aijk s)) with ax. change (c3_y (cs3_compute_aijk s)) with ay. change (c3_z (cs3_compute_aijk s)) with az.
  rewrite !unit_of_ok by assumption. set (u := unit_of ax x). set (v := unit_of ay y). set (w := unit_of az z).
  set (P := fun i j k r t q => f (seg ax m r) (seg ay n t) (seg az p q)
    * (weight p k * cheb k (node p q) * cheb k w) * (weight n j * cheb j (node n t) * cheb j v) * (weight m i * cheb i (node m r) * cheb i u)).
  transitivity (bsum (m + 1) (fun i => bsum (n + 1) (fun j => bsum (p + 1) (fun k =>
    bsum (m + 1) (fun r => bsum (n + 1) (fun t => bsum (p + 1) (fun q => P i j k r t q))))))).
  - apply bsum_ext. intros i _. apply bsum_ext. intros j _. apply bsum_ext. intros k _.
    rewrite coef3_ok. unfold s. cbn [cs3_new c3_a c3_f c3_x c3_y c3_z c3_m c3_n c3_p]. rn.
    rewrite Rplus_0_l, <- !bsum_scal_r. apply bsum_ext. intros r _. rewrite <- !bsum_scal_r. apply bsum_ext. intros t _.
    rewrite <- !bsum_scal_r. apply bsum_ext. intros. unfold P. ring.
  - transitivity (bsum (m + 1) (fun r => bsum (n + 1) (fun t => bsum (p + 1) (fun q =>
      bsum (m + 1) (fun i => bsum (n + 1) (fun j => bsum (p + 1) (fun k => P i j k r t q))))))).
    + (* move r to the front, then t, then q *)
      transitivity (bsum (m + 1) (fun i => bsum (m + 1) (fun r => bsum (n + 1) (fun j => bsum (p + 1) (fun k => bsum (n + 1) (fun t => bsum (p + 1) (fun q => P i j k r t q))))))).
      { apply bsum_ext. intros i _. apply swap_in. }
      rewrite bsum_swap. apply bsum_ext. intros r _.
      transitivity (bsum (m + 1) (fun i => bsum (n + 1) (fun t => bsum (n + 1) (fun j => bsum (p + 1) (fun k => bsum (p + 1) (fun q => P i j k r t q)))))).
      { apply bsum_ext. intros i _. apply swap_in. }
      rewrite bsum_swap. apply bsum_ext. intros t _.
      transitivity (bsum (m + 1) (fun i => bsum (p + 1) (fun q => bsum (n + 1) (fun j => bsum (p + 1) (fun k => P i j k r t q))))).
      { apply bsum_ext. intros i _. apply swap_in. }
      apply bsum_swap.
    + apply bsum_ext. intros r _. rewrite <- bsum_scal_r. apply bsum_ext. intros t _. rewrite <- !bsum_scal_r.
      apply bsum_ext. intros q _. unfold kern, P.
      now rewrite prod3.
Qed.

(** *** Interpolation at the nodes *)
Lemma nodes1 f a n r x : axis_valid a -> (r <= n)%nat -> is_node a n r x ->
  cs1_evaluate (cs1_compute_ai (cs1_new f a n)) x = f x.
Proof.
  intros Ha Hr Hx. rewrite op1 by apply Hx. rewrite (proj2 Hx), (interp_node n (fun r => f (seg a n r))) by lia.
  rewrite <- (seg_unique a n r x); auto; lia.
Qed.
Lemma nodes2 f ax ay m n r t x y : axis_valid ax -> axis_valid ay -> (r <= m)%nat -> (t <= n)%nat ->
  is_node ax m r x -> is_node ay n t y ->
  cs2_evaluate (cs2_compute_aij (cs2_new f ax ay m n)) x y = f x y.
Proof.
  intros Ha Hb Hr Ht Hx Hy. rewrite op2 by (apply Hx || apply Hy). rewrite (proj2 Hx), (proj2 Hy).
  rewrite (interp_node m (fun r => bsum (n + 1) (fun t' => f (seg ax m r) (seg ay n t') * kern n t' (node n t)))) by lia.
  rewrite (interp_node n (fun t => f (seg ax m r) (seg ay n t))) by lia.
  rewrite <- (seg_unique ax m r x), <- (seg_unique ay n t y); auto; lia.
Qed.
Lemma nodes3 f ax ay az m n p r t q x y z : axis_valid ax -> axis_valid ay -> axis_valid az ->
  (r <= m)%nat -> (t <= n)%nat -> (q <= p)%nat ->
  is_node ax m r x -> is_node ay n t y -> is_node az p q z ->
  cs3_evaluate (cs3_compute_aijk (cs3_new f ax ay az m n p)) x y z = f x y z.
Proof.
  intros Ha Hb Hc Hr Ht Hq Hx Hy Hz. rewrite op3 by (apply Hx || apply Hy || apply Hz). rewrite (proj2 Hx), (proj2 Hy), (proj2 Hz).
  rewrite (interp_node m (fun r => bsum (n + 1) (fun t' => bsum (p + 1) (fun q' => f (seg ax m r) (seg ay n t') (seg az p q') * kern p q' (node p q)) * kern n t' (node n t)))) by lia.
  rewrite (interp_node n (fun t => bsum (p + 1) (fun q' => f (seg ax m r) (seg ay n t) (seg az p q') * kern p q' (node p q)))) by lia.
  rewrite (interp_node p (fun q => f (seg ax m r) (seg ay n t) (seg az p q))) by lia.
  rewrite <- (seg_unique ax m r x), <- (seg_unique ay n t y), <- (seg_unique az p q z); auto; lia.
Qed.

(** *** Exactness on polynomials *)
Lemma exact_poly1 f a n x : axis_valid a -> is_poly1 a n f -> regular a x ->
  cs1_evaluate (cs1_compute_ai (cs1_new f a n)) x = f x.
Proof.
  intros Ha [g Hg] Hx. rewrite op1, (Hg x Hx), <- (exact1 a n g x Ha Hx) by exact Hx.
  apply bsum_ext. intros r Hr. rewrite Hg; [reflexivity|]. now apply seg_node.
Qed.
Lemma exact_poly2 f ax ay m n x y : axis_valid ax -> axis_valid ay -> is_poly2 ax ay m n f -> regular ax x -> regular ay y ->
  cs2_evaluate (cs2_compute_aij (cs2_new f ax ay m n)) x y = f x y.
Proof.
  intros Ha Hb [g Hg] Hx Hy. rewrite op2, (Hg x y Hx Hy) by assumption.
  set (X := poly_var ax x). set (Y := poly_var ay y).
  transitivity (bsum (m + 1) (fun r => bsum (m + 1) (fun i => bsum (n + 1) (fun j => g i j * Y ^ j) * poly_var ax (seg ax m r) ^ i) * kern m r (unit_of ax x))).
  - apply bsum_ext. intros r Hr. f_equal.
    destruct (seg_node ax m r Ha Hr) as [Rr _]. set (Xr := poly_var ax (seg ax m r)).
    transitivity (bsum (n + 1) (fun j => bsum (m + 1) (fun i => g i j * Xr ^ i) * Y ^ j)).
    + unfold Y. rewrite <- (exact1 ay n _ y Hb Hy). apply bsum_ext. intros t Ht. f_equal.
      destruct (seg_node ay n t Hb Ht) as [Rt _]. rewrite (Hg _ _ Rr Rt), bsum_swap.
      apply bsum_ext. intros j _. rewrite <- bsum_scal_r. apply bsum_ext. intros i _. reflexivity.
    + rewrite (bsum_ext (n + 1) _ (fun j => bsum (m + 1) (fun i => g i j * Xr ^ i * Y ^ j))) by (intros; now rewrite bsum_scal_r).
      rewrite bsum_swap. apply bsum_ext. intros i _. rewrite <- bsum_scal_r. apply bsum_ext. intros. ring.
  - rewrite (exact1 ax m _ x Ha Hx). fold X. apply bsum_ext. intros i _. rewrite <- bsum_scal_r. apply bsum_ext. intros. ring.
Qed.
Lemma exact_poly3 f ax ay az m n p x y z : axis_valid ax -> axis_valid ay -> axis_valid az ->
  is_poly3 ax ay az m n p f -> regular ax x -> regular ay y -> regular az z ->
  cs3_evaluate (cs3_compute_aijk (cs3_new f ax ay az m n p)) x y z = f x y z.
Proof.
  intros Ha Hb Hc [g Hg] Hx Hy Hz. rewrite op3 by assumption.
  assert (HX : regular ax x -> forall r, (r < m + 1)%nat ->
    bsum (n + 1) (fun t => bsum (p + 1) (fun q => f (seg ax m r) (seg ay n t) (seg az p q) * kern p q (unit_of az z)) * kern n t (unit_of ay y))
    = f (seg ax m r) y z).
  { intros _ r Hr. destruct (seg_node ax m r Ha Hr) as [Rr _].
    rewrite <- (op2 (f (seg ax m r)) ay az n p y z Hy Hz).
    apply exact_poly2; auto.
    exists (fun j k => bsum (m + 1) (fun i => g i j k * poly_var ax (seg ax m r) ^ i)). intros y' z' Ry Rz.
    rewrite (Hg _ _ _ Rr Ry Rz), bsum_swap. apply bsum_ext. intros j _. rewrite bsum_swap. apply bsum_ext. intros k _.
    rewrite <- !bsum_scal_r. apply bsum_ext. intros. ring. }
  transitivity (cs1_evaluate (cs1_compute_ai (cs1_new (fun x => f x y z) ax m)) x).
  - rewrite op1 by assumption. apply bsum_ext. intros r Hr. now rewrite HX.
  - apply (exact_poly1 (fun x => f x y z)); auto.
    exists (fun i => bsum (n + 1) (fun j => bsum (p + 1) (fun k => g i j k * poly_var ay y ^ j * poly_var az z ^ k))).
    intros x' Rx. rewrite (Hg _ _ _ Rx Hy Hz). apply bsum_ext. intros i _. rewrite <- bsum_scal_r.
    apply bsum_ext. intros j _. rewrite <- bsum_scal_r. apply bsum_ext. intros. ring.
Qed.

Ltac rn' := rn; change (Build_Num R Rplus Rminus Rmult Rdiv Ropp Rltb Rleb Reqb IZR PI) with RNum.
(** *** Derivatives *)
Lemma cheb_axis_deriv a i x : regular a x ->
  derivable_pt_lim (fun t => cheb i (to_unit a t)) x (dcheb i (to_unit a x) * coef_deriv a x).
Proof.
  intros H. apply (derivable_pt_lim_comp (to_unit a) (cheb i)); [now apply axis_deriv|apply cheb_deriv].
Qed.
Lemma deriv_scal f x d c : derivable_pt_lim f x d -> derivable_pt_lim (fun t => c * f t) x (c * d).
Proof. apply (derivable_pt_lim_scal f). Qed.
Lemma deriv_ext f g x d : (forall t, f t = g t) -> derivable_pt_lim f x d -> derivable_pt_lim g x d.
Proof.
  intros E H eps He. destruct (H eps He) as [del Hd]. exists del. intros h Hh Hl. rewrite <- !E. now apply Hd.
Qed.
Lemma cheb_scal_deriv a i x c e : regular a x -> e = dcheb i (to_unit a x) * c ->
  derivable_pt_lim (fun t => c * cheb i (to_unit a t)) x (e * coef_deriv a x).
Proof.
  intros H ->. replace (dcheb i (to_unit a x) * c * coef_deriv a x) with (c * (dcheb i (to_unit a x) * coef_deriv a x)) by ring.
  apply deriv_scal. now apply cheb_axis_deriv.
Qed.
Lemma d1 s : derivative_on (regular (c1_x s)) (cs1_evaluate s) (cs1_derivative_x s).
Proof.
  intros x Hx. apply (deriv_ext _ _ x _ (fun t => eq_sym (eval1 s t))).
  unfold cs1_derivative_x. rewrite acc_loop_ok. rn'. rewrite Rplus_0_l, <- bsum_scal_r.
  apply (bsum_deriv _ (fun i t => c1_a s i * cheb i (to_unit (c1_x s) t))). intros i _.
  rewrite t_prime_ok.
  apply cheb_scal_deriv; [assumption|ring].
Qed.
Lemma d2x s y : derivative_on (regular (c2_x s)) (fun x => cs2_evaluate s x y) (fun x => cs2_derivative_x s x y).
Proof.
  intros x Hx. apply (deriv_ext (fun t => bsum (c2_m s + 1) (fun i =>
    bsum (c2_n s + 1) (fun j => c2_a s i j * cheb j (to_unit (c2_y s) y)) * cheb i (to_unit (c2_x s) t)))).
  { intros t. rewrite eval2. apply bsum_ext. intros i _. rewrite <- bsum_scal_r. apply bsum_ext. intros. ring. }
  unfold cs2_derivative_x. rewrite acc_loop_ok. rn'. rewrite Rplus_0_l, <- bsum_scal_r.
  apply (bsum_deriv _ (fun i t => bsum (c2_n s + 1) (fun j => c2_a s i j * cheb j (to_unit (c2_y s) y)) * cheb i (to_unit (c2_x s) t))).
  intros i _. rewrite t_prime_ok, clenshaw_sum_ok. 
  apply cheb_scal_deriv; [assumption|ring].
Qed.
Lemma d2y s x : derivative_on (regular (c2_y s)) (fun y => cs2_evaluate s x y) (fun y => cs2_derivative_y s x y).
Proof.
  intros y Hy. apply (deriv_ext (fun t => bsum (c2_n s + 1) (fun j =>
    bsum (c2_m s + 1) (fun i => c2_a s i j * cheb i (to_unit (c2_x s) x)) * cheb j (to_unit (c2_y s) t)))).
  { intros t. rewrite eval2, bsum_swap. apply bsum_ext. intros i _. rewrite <- bsum_scal_r. apply bsum_ext. intros. ring. }
  unfold cs2_derivative_y. rewrite acc_loop_ok. rn'. rewrite Rplus_0_l, <- bsum_scal_r.
  apply (bsum_deriv _ (fun j t => bsum (c2_m s + 1) (fun i => c2_a s i j * cheb i (to_unit (c2_x s) x)) * cheb j (to_unit (c2_y s) t))).
  intros i _. rewrite t_prime_ok, clenshaw_sum_ok. 
  apply cheb_scal_deriv; [assumption|ring].
Qed.
Lemma triple_ok m n p (g : nat -> nat -> nat -> R) :
  triple_loop m n p g = bsum (m + 1) (fun i => bsum (n + 1) (fun j => bsum (p + 1) (fun k => g i j k))).
Proof.
  unfold triple_loop.
  rewrite (fold_seq_gen _ (fun i => bsum (n + 1) (fun j => bsum (p + 1) (fun k => g i j k)))); [rn; ring|].
  intros acc i. apply fold_seq_gen. intros acc' j. apply acc_loop_ok.
Qed.
Lemma d3x s y z : derivative_on (regular (c3_x s)) (fun x => cs3_evaluate s x y z) (fun x => cs3_derivative_x s x y z).
Proof.
  intros x Hx. set (V := to_unit (c3_y s) y). set (W := to_unit (c3_z s) z).
  apply (deriv_ext (fun t => bsum (c3_m s + 1) (fun i => bsum (c3_n s + 1) (fun j => bsum (c3_p s + 1) (fun k =>
    c3_a s k i j * cheb j V * cheb k W * cheb i (to_unit (c3_x s) t)))))).
  { intros t. rewrite eval3. repeat (apply bsum_ext; intros). unfold V, W. ring. }
  unfold cs3_derivative_x. rewrite triple_ok. rn'. fold V W.
  rewrite <- bsum_scal_r. apply (bsum_deriv _ (fun i t => _)). intros i _.
  rewrite <- bsum_scal_r. apply (bsum_deriv _ (fun j t => _)). intros j _.
  rewrite <- bsum_scal_r. apply (bsum_deriv _ (fun k t => _)). intros k _.
  rewrite t_prime_ok, !chebyshev_t_ok.
  apply cheb_scal_deriv; [assumption|ring].
Qed.
Lemma d3y s x z : derivative_on (regular (c3_y s)) (fun y => cs3_evaluate s x y z) (fun y => cs3_derivative_y s x y z).
Proof.
  intros y Hy. set (U := to_unit (c3_x s) x). set (W := to_unit (c3_z s) z).
  apply (deriv_ext (fun t => bsum (c3_m s + 1) (fun i => bsum (c3_n s + 1) (fun j => bsum (c3_p s + 1) (fun k =>
    c3_a s k i j * cheb i U * cheb k W * cheb j (to_unit (c3_y s) t)))))).
  { intros t. rewrite eval3. repeat (apply bsum_ext; intros). unfold U, W. ring. }
  unfold cs3_derivative_y. rewrite triple_ok. rn'. fold U W.
  rewrite <- bsum_scal_r. apply (bsum_deriv _ (fun i t => _)). intros i _.
  rewrite <- bsum_scal_r. apply (bsum_deriv _ (fun j t => _)). intros j _.
  rewrite <- bsum_scal_r. apply (bsum_deriv _ (fun k t => _)). intros k _.
  rewrite t_prime_ok, !chebyshev_t_ok.
  apply cheb_scal_deriv; [assumption|ring].
Qed.
Lemma d3z s x y : derivative_on (regular (c3_z s)) (fun z => cs3_evaluate s x y z) (fun z => cs3_derivative_z s x y z).
Proof.
  intros z Hz. set (U := to_unit (c3_x s) x). set (V := to_unit (c3_y s) y).
  apply (deriv_ext (fun t => bsum (c3_m s + 1) (fun i => bsum (c3_n s + 1) (fun j => bsum (c3_p s + 1) (fun k =>
    c3_a s k i j * cheb i U * cheb j V * cheb k (to_unit (c3_z s) t)))))).
  { intros t. rewrite eval3. reflexivity. }
  unfold cs3_derivative_z. rewrite triple_ok. rn'. fold U V.
  rewrite <- bsum_scal_r. apply (bsum_deriv _ (fun i t => _)). intros i _.
  rewrite <- bsum_scal_r. apply (bsum_deriv _ (fun j t => _)). intros j _.
  rewrite <- bsum_scal_r. apply (bsum_deriv _ (fun k t => _)). intros k _.
  rewrite t_prime_ok, !chebyshev_t_ok.
  apply cheb_scal_deriv; [assumption|ring].
Qed.
