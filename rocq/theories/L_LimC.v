(** Convergence of Chebyshev series of analytic functions. *)
From Coq Require Import List Arith ZArith Reals Lra Lia Bool.
From Verif Require Import Outcome Num NumFun M_Series S_Series L_Series M_Cheb S_Cheb L_Cheb L_Cheb2 L_Cheb3 S_ErrC L_ErrC S_Lim.
Local Open Scope R_scope.

Lemma rem_geom n C r : cheb_remainder n (C * r ^ (n + 1) * INR (fact (n + 1))) = C * r * (r / 2) ^ n.
Proof.
  unfold cheb_remainder. rewrite pow_add, pow_1. unfold Rdiv at 2. rewrite Rpow_mult_distr, pow_inv. field. split; [apply pow_nonzero; lra|apply INR_fact_neq_0].
Qed.
Lemma rate1 : forall f a C r n x, axis_valid a -> analytic_on a f C r -> in_axis a x ->
  Rabs (cs1_evaluate (cs1_compute_ai (cs1_new f a n)) x - f x) <= C * r * (r / 2) ^ n.
Proof. intros f a C r n x V A H. rewrite <- rem_geom. apply err1; auto. Qed.
Lemma rate2 : forall f ax ay C r n x y, axis_valid ax -> axis_valid ay ->
  (forall t, in_axis ay t -> analytic_on ax (fun s => f s t) C r) -> (forall s, in_axis ax s -> analytic_on ay (f s) C r) -> in_axis ax x -> in_axis ay y ->
  Rabs (cs2_evaluate (cs2_compute_aij (cs2_new f ax ay n n)) x y - f x y) <= C * r * (2 * INR n + 2) * (r / 2) ^ n.
Proof.
  intros f ax ay C r n x y Vx Vy Ax Ay Hx Hy. eapply Rle_trans; [apply (err2 f ax ay n n _ _ x y Vx Vy (fun t Ht => Ax t Ht (n + 1)%nat) (fun s Hs => Ay s Hs (n + 1)%nat) Hx Hy)|].
  rewrite !rem_geom. unfold growth. right. ring.
Qed.
Lemma rate3 : forall f ax ay az C r n x y z, axis_valid ax -> axis_valid ay -> axis_valid az ->
  (forall t w, in_axis ay t -> in_axis az w -> analytic_on ax (fun s => f s t w) C r) ->
  (forall s w, in_axis ax s -> in_axis az w -> analytic_on ay (fun t => f s t w) C r) ->
  (forall s t, in_axis ax s -> in_axis ay t -> analytic_on az (f s t) C r) -> in_axis ax x -> in_axis ay y -> in_axis az z ->
  Rabs (cs3_evaluate (cs3_compute_aijk (cs3_new f ax ay az n n n)) x y z - f x y z) <= C * r * (4 * INR n ^ 2 + 6 * INR n + 3) * (r / 2) ^ n.
Proof.
  intros f ax ay az C r n x y z Vx Vy Vz Ax Ay Az Hx Hy Hz.
  eapply Rle_trans; [apply (err3 f ax ay az n n n _ _ _ x y z Vx Vy Vz (fun t w Ht Hw => Ax t w Ht Hw (n + 1)%nat) (fun s w Hs Hw => Ay s w Hs Hw (n + 1)%nat) (fun s t Hs Ht => Az s t Hs Ht (n + 1)%nat) Hx Hy Hz)|].
  rewrite !rem_geom. unfold growth. right. ring.
Qed.

(** *** The bounds tend to 0 *)
Lemma pow_small x : 0 <= x < 1 -> forall eps, 0 < eps -> exists N, forall n, (N <= n)%nat -> x ^ n <= eps.
Proof.
  intros Hx eps He. destruct (pow_lt_1_zero x) with (y := eps) as (N & HN); [rewrite Rabs_pos_eq; lra|exact He|].
  exists N. intros n Hn. specialize (HN n Hn). rewrite Rabs_pos_eq in HN by (apply pow_le; lra). lra.
Qed.
Lemma n_pow_bound x : 0 < x < 1 -> forall n, INR n * x ^ n <= / (/ x - 1).
Proof.
  intros Hx n. assert (P : 1 < / x) by (rewrite <- Rinv_1; apply Rinv_lt_contravar; lra). set (d := / x - 1). assert (Hd : 0 < d) by (unfold d; lra).
  assert (B := poly n d Hd). replace (1 + d) with (/ x) in B by (unfold d; ring). rewrite pow_inv in B.
  assert (Q : 0 < x ^ n) by (apply pow_lt; lra). apply Rmult_le_reg_r with d; [exact Hd|]. rewrite Rinv_l by lra.
  apply Rmult_le_compat_r with (r := x ^ n) in B; [|lra]. rewrite Rinv_l in B by lra. lra.
Qed.
Lemma n2_small q : 0 <= q < 1 -> forall eps, 0 < eps -> exists N, forall n, (N <= n)%nat -> (4 * INR n ^ 2 + 6 * INR n + 3) * q ^ n <= eps.
Proof.
  intros Hq eps He. set (p := Rmax q (/ 2)).
  assert (Hp : 0 < p < 1) by (unfold p; split; [apply Rlt_le_trans with (2 := Rmax_r _ _); lra|apply Rmax_lub_lt; lra]).
  set (x := Rpower p (/ 3)).
  assert (E : p = x ^ 3). { unfold x. rewrite <- Rpower_pow by apply exp_pos. rewrite Rpower_mult. replace (/ 3 * INR 3) with 1 by (simpl; field). symmetry. apply Rpower_1. lra. }
  assert (X0 : 0 < x) by apply exp_pos.
  assert (X1 : x < 1). { destruct (Rlt_le_dec x 1) as [|K]; [assumption|]. assert (1 <= x ^ 3) by (apply pow_R1_Rle; exact K). lra. }
  set (b := / (/ x - 1)). pose proof (n_pow_bound x (conj X0 X1)) as B. fold b in B.
  assert (Hb : 0 <= b) by (specialize (B 0%nat); simpl in B; lra).
  set (M := 4 * b ^ 2 + 6 * b + 3). assert (HM : 0 < M) by (unfold M; nra).
  destruct (pow_small x ltac:(lra) (eps / M)) as (N & HN); [now apply Rdiv_lt_0_compat|]. exists N. intros n Hn. specialize (HN n Hn). specialize (B n).
  assert (Q : 0 < x ^ n) by (apply pow_lt; lra). assert (Q1 : x ^ n <= 1) by (rewrite <- (pow1 n); apply pow_incr; lra).
  assert (L : q ^ n <= x ^ n * (x ^ n * x ^ n)).
  { apply Rle_trans with (p ^ n); [apply pow_incr; split; [lra|apply Rmax_l]|]. rewrite E, <- pow_mult. right. rewrite <- !pow_add. f_equal. lia. }
  pose proof (pos_INR n) as P. set (k := INR n) in *. set (y := x ^ n) in *.
  assert (K : (4 * k ^ 2 + 6 * k + 3) * (y * (y * y)) <= M * y).
  { replace ((4 * k ^ 2 + 6 * k + 3) * (y * (y * y))) with ((4 * (k * y) ^ 2 + 6 * (k * y) * y + 3 * (y * y)) * y) by ring.
    apply Rmult_le_compat_r; [lra|]. unfold M. assert (0 <= k * y) by nra. assert ((k * y) ^ 2 <= b ^ 2) by (apply pow_incr; lra). nra. }
  apply Rle_trans with ((4 * k ^ 2 + 6 * k + 3) * (y * (y * y))); [apply Rmult_le_compat_l; [nra|exact L]|]. apply Rle_trans with (1 := K).
  apply Rmult_le_compat_l with (r := M) in HN; [|lra]. replace (M * (eps / M)) with eps in HN by (field; lra). exact HN.
Qed.
Lemma bound_small C r : 0 <= r < 2 -> forall eps, 0 < eps -> exists N, forall n, (N <= n)%nat ->
  forall c, 0 <= c <= 4 * INR n ^ 2 + 6 * INR n + 3 -> C * r * c * (r / 2) ^ n <= eps.
Proof.
  intros Hr eps He. set (K := Rabs (C * r) + 1). assert (HK : 0 < K) by (unfold K; pose proof (Rabs_pos (C * r)); lra).
  destruct (n2_small (r / 2) ltac:(lra) (eps / K)) as (N & HN); [now apply Rdiv_lt_0_compat|]. exists N. intros n Hn c Hc. specialize (HN n Hn).
  assert (Q : 0 <= (r / 2) ^ n) by (apply pow_le; lra).
  assert (c * (r / 2) ^ n <= eps / K) by (apply Rle_trans with (2 := HN); apply Rmult_le_compat_r; lra).
  assert (0 <= c * (r / 2) ^ n) by nra. assert (C * r <= K) by (unfold K; pose proof (Rle_abs (C * r)); lra).
  replace (C * r * c * (r / 2) ^ n) with (C * r * (c * (r / 2) ^ n)) by ring.
  apply Rle_trans with (K * (c * (r / 2) ^ n)); [now apply Rmult_le_compat_r|]. apply Rle_trans with (K * (eps / K)); [apply Rmult_le_compat_l; lra|]. right. field. lra.
Qed.
Lemma chebyshev_converges_1d : forall f a C r, axis_valid a -> analytic_on a f C r -> 0 <= r < 2 -> forall eps, 0 < eps -> exists N, forall n x, (N <= n)%nat -> in_axis a x ->
  Rabs (cs1_evaluate (cs1_compute_ai (cs1_new f a n)) x - f x) <= eps.
Proof.
  intros f a C r V A Hr eps He. destruct (bound_small C r Hr eps He) as (N & HN). exists N. intros n x Hn Hx.
  apply Rle_trans with (1 := rate1 f a C r n x V A Hx). specialize (HN n Hn 1). rewrite Rmult_1_r in HN. apply HN. pose proof (pos_INR n). split; nra.
Qed.
Lemma chebyshev_converges_2d : forall f ax ay C r, axis_valid ax -> axis_valid ay ->
  (forall t, in_axis ay t -> analytic_on ax (fun s => f s t) C r) -> (forall s, in_axis ax s -> analytic_on ay (f s) C r) -> 0 <= r < 2 ->
  forall eps, 0 < eps -> exists N, forall n x y, (N <= n)%nat -> in_axis ax x -> in_axis ay y ->
  Rabs (cs2_evaluate (cs2_compute_aij (cs2_new f ax ay n n)) x y - f x y) <= eps.
Proof.
  intros f ax ay C r Vx Vy Ax Ay Hr eps He. destruct (bound_small C r Hr eps He) as (N & HN). exists N. intros n x y Hn Hx Hy.
  apply Rle_trans with (1 := rate2 f ax ay C r n x y Vx Vy Ax Ay Hx Hy). apply (HN n Hn). pose proof (pos_INR n). split; nra.
Qed.
Lemma chebyshev_converges_3d : forall f ax ay az C r, axis_valid ax -> axis_valid ay -> axis_valid az ->
  (forall t w, in_axis ay t -> in_axis az w -> analytic_on ax (fun s => f s t w) C r) ->
  (forall s w, in_axis ax s -> in_axis az w -> analytic_on ay (fun t => f s t w) C r) ->
  (forall s t, in_axis ax s -> in_axis ay t -> analytic_on az (f s t) C r) -> 0 <= r < 2 ->
  forall eps, 0 < eps -> exists N, forall n x y z, (N <= n)%nat -> in_axis ax x -> in_axis ay y -> in_axis az z ->
  Rabs (cs3_evaluate (cs3_compute_aijk (cs3_new f ax ay az n n n)) x y z - f x y z) <= eps.
Proof.
  intros f ax ay az C r Vx Vy Vz Ax Ay Az Hr eps He. destruct (bound_small C r Hr eps He) as (N & HN). exists N. intros n x y z Hn Hx Hy Hz.
  apply Rle_trans with (1 := rate3 f ax ay az C r n x y z Vx Vy Vz Ax Ay Az Hx Hy Hz). apply (HN n Hn). pose proof (pos_INR n). split; nra.
Qed.

(** *** Examples *)
(** 1/(x + 3) on [-1, 1]: the k-th derivative is bounded by k!/2^(k+1). *)
Lemma deriv_inv_pow k u : -1 <= u <= 1 ->
  derivable_pt_lim (fun u => (-1) ^ k * INR (fact k) * (/ (u + 3)) ^ S k) u ((-1) ^ S k * INR (fact (S k)) * (/ (u + 3)) ^ S (S k)).
Proof.
  intros Hu.
  assert (D0 : derivable_pt_lim (fun u => / (u + 3)) u (- (/ (u + 3)) ^ 2)).
  { assert (D1 : derivable_pt_lim (fun u => u + 3) u 1).
    { replace 1 with (1 + 0) by ring. apply (derivable_pt_lim_plus id (fct_cte 3)); [apply derivable_pt_lim_id|apply derivable_pt_lim_const]. }
    assert (D2 := derivable_pt_lim_div (fct_cte 1) (fun u => u + 3) u 0 1 (derivable_pt_lim_const 1 u) D1 ltac:(lra)).
    unfold fct_cte, div_fct in D2. replace ((0 * (u + 3) - 1 * 1) / Rsqr (u + 3)) with (- (/ (u + 3)) ^ 2) in D2 by (unfold Rsqr; field; lra).
    apply (derivable_pt_lim_ext (fun x => 1 / (x + 3))); [intros z; unfold Rdiv; ring|exact D2]. }
  assert (D3 := derivable_pt_lim_comp (fun u => / (u + 3)) (fun y => y ^ S k) u _ _ D0 (derivable_pt_lim_pow (/ (u + 3)) (S k))).
  assert (D4 := derivable_pt_lim_scal _ ((-1) ^ k * INR (fact k)) u _ D3). unfold mult_real_fct, comp in D4.
  replace ((-1) ^ S k * INR (fact (S k)) * (/ (u + 3)) ^ S (S k)) with ((-1) ^ k * INR (fact k) * (INR (S k) * (/ (u + 3)) ^ Nat.pred (S k) * - (/ (u + 3)) ^ 2)); [exact D4|].
  rewrite fact_simpl, mult_INR. simpl Nat.pred. simpl pow. ring.
Qed.
Lemma ex_analytic : analytic_on (Closed (-1) 1) (fun x => / (x + 3)) (/ 2) (/ 2).
Proof.
  intros k. exists (fun j u => (-1) ^ j * INR (fact j) * (/ (u + 3)) ^ S j). cbn [unit_dom point_of]. split; [|split].
  - intros u Hu. simpl. replace ((1 + -1) / 2 + (1 - -1) / 2 * u) with u by field. field. lra.
  - intros j x _ Hx. now apply deriv_inv_pow.
  - intros x Hx. cbn [unit_dom] in Hx. rewrite !Rabs_mult, pow_1_abs, Rmult_1_l. rewrite (Rabs_pos_eq (INR _)) by apply pos_INR.
    assert (P : 0 <= / (x + 3) <= / 2) by (split; [left; apply Rinv_0_lt_compat; lra|apply Rinv_le_contravar; lra]).
    rewrite Rabs_pos_eq by (apply pow_le; lra). rewrite Rmult_comm. apply Rmult_le_compat_r; [apply pos_INR|].
    change (/ 2 * (/ 2) ^ k) with ((/ 2) ^ S k). apply pow_incr. exact P.
Qed.
Lemma ex_rate : forall n x, -1 <= x <= 1 -> Rabs (cs1_evaluate (cs1_compute_ai (cs1_new (fun x => / (x + 3)) (Closed (-1) 1) n)) x - / (x + 3)) <= (/ 4) ^ S n.
Proof.
  intros n x Hx. eapply Rle_trans; [apply (rate1 (fun x => / (x + 3)) (Closed (-1) 1) (/ 2) (/ 2) n x); [simpl; lra|exact ex_analytic|exact Hx]|].
  right. replace (/ 2 / 2) with (/ 4) by field. simpl. field.
Qed.
