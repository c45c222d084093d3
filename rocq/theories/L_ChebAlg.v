(** Algebra of Chebyshev series: the map from a function to its series. *)
From Coq Require Import List Arith ZArith Reals Lra Lia.
From Verif Require Import Outcome Num NumFun M_Series S_Series M_Cheb S_Cheb L_Series L_Cheb L_Cheb2 L_Cheb3.
Import ListNotations.
Local Open Scope R_scope.

Lemma linear1 f g al be a n x : regular a x ->
  cs1_evaluate (cs1_compute_ai (cs1_new (fun t => al * f t + be * g t) a n)) x =
  al * cs1_evaluate (cs1_compute_ai (cs1_new f a n)) x + be * cs1_evaluate (cs1_compute_ai (cs1_new g a n)) x.
Proof.
  intros H. rewrite !op1 by exact H. rewrite <- !bsum_scal, <- bsum_plus. apply bsum_ext. intros. ring.
Qed.
Lemma linear2 f g al be ax ay m n x y : regular ax x -> regular ay y ->
  cs2_evaluate (cs2_compute_aij (cs2_new (fun s t => al * f s t + be * g s t) ax ay m n)) x y =
  al * cs2_evaluate (cs2_compute_aij (cs2_new f ax ay m n)) x y + be * cs2_evaluate (cs2_compute_aij (cs2_new g ax ay m n)) x y.
Proof.
  intros Hx Hy. rewrite !op2 by assumption. rewrite <- !bsum_scal, <- bsum_plus. apply bsum_ext. intros r _.
  rewrite <- !Rmult_assoc, <- !bsum_scal, <- Rmult_plus_distr_r, <- bsum_plus. f_equal. apply bsum_ext. intros. ring.
Qed.
Lemma linear3 f g al be ax ay az m n p x y z : regular ax x -> regular ay y -> regular az z ->
  cs3_evaluate (cs3_compute_aijk (cs3_new (fun s t u => al * f s t u + be * g s t u) ax ay az m n p)) x y z =
  al * cs3_evaluate (cs3_compute_aijk (cs3_new f ax ay az m n p)) x y z +
  be * cs3_evaluate (cs3_compute_aijk (cs3_new g ax ay az m n p)) x y z.
Proof.
  intros Hx Hy Hz. rewrite !op3 by assumption. rewrite <- !bsum_scal, <- bsum_plus. apply bsum_ext. intros r _.
  rewrite <- !Rmult_assoc, <- !bsum_scal, <- Rmult_plus_distr_r, <- bsum_plus. f_equal. apply bsum_ext. intros t _.
  rewrite <- !Rmult_assoc, <- !bsum_scal, <- Rmult_plus_distr_r, <- bsum_plus. f_equal. apply bsum_ext. intros. ring.
Qed.

Lemma seg_is_node a n r : axis_valid a -> (r < n + 1)%nat -> is_node a n r (seg a n r).
Proof. intros Ha Hr. destruct (seg_node a n r Ha Hr). now split. Qed.

Lemma local1 f g a n : axis_valid a ->
  (forall r x, (r <= n)%nat -> is_node a n r x -> f x = g x) -> forall x, regular a x ->
  cs1_evaluate (cs1_compute_ai (cs1_new f a n)) x = cs1_evaluate (cs1_compute_ai (cs1_new g a n)) x.
Proof.
  intros Ha H x Hx. rewrite !op1 by exact Hx. apply bsum_ext. intros r Hr. f_equal.
  apply (H r); [lia|now apply seg_is_node].
Qed.
Lemma local2 f g ax ay m n : axis_valid ax -> axis_valid ay ->
  (forall r t x y, (r <= m)%nat -> (t <= n)%nat -> is_node ax m r x -> is_node ay n t y -> f x y = g x y) ->
  forall x y, regular ax x -> regular ay y ->
  cs2_evaluate (cs2_compute_aij (cs2_new f ax ay m n)) x y = cs2_evaluate (cs2_compute_aij (cs2_new g ax ay m n)) x y.
Proof.
  intros Ha Hb H x y Hx Hy. rewrite !op2 by assumption. apply bsum_ext. intros r Hr. f_equal.
  apply bsum_ext. intros t Ht. f_equal. apply (H r t); try lia; now apply seg_is_node.
Qed.
Lemma local3 f g ax ay az m n p : axis_valid ax -> axis_valid ay -> axis_valid az ->
  (forall r t q x y z, (r <= m)%nat -> (t <= n)%nat -> (q <= p)%nat ->
     is_node ax m r x -> is_node ay n t y -> is_node az p q z -> f x y z = g x y z) ->
  forall x y z, regular ax x -> regular ay y -> regular az z ->
  cs3_evaluate (cs3_compute_aijk (cs3_new f ax ay az m n p)) x y z =
  cs3_evaluate (cs3_compute_aijk (cs3_new g ax ay az m n p)) x y z.
Proof.
  intros Ha Hb Hc H x y z Hx Hy Hz. rewrite !op3 by assumption. apply bsum_ext. intros r Hr. f_equal.
  apply bsum_ext. intros t Ht. f_equal. apply bsum_ext. intros q Hq. f_equal.
  apply (H r t q); try lia; now apply seg_is_node.
Qed.

Lemma product2 f g ax ay m n x y : regular ax x -> regular ay y ->
  cs2_evaluate (cs2_compute_aij (cs2_new (fun s t => f s * g t) ax ay m n)) x y =
  cs1_evaluate (cs1_compute_ai (cs1_new f ax m)) x * cs1_evaluate (cs1_compute_ai (cs1_new g ay n)) y.
Proof.
  intros Hx Hy. rewrite op2, !op1 by assumption. rewrite <- bsum_scal_r. apply bsum_ext. intros r _.
  rewrite (bsum_ext (n + 1) _ (fun t => f (seg ax m r) * (g (seg ay n t) * kern n t (unit_of ay y)))) by (intros; ring).
  rewrite bsum_scal. ring.
Qed.
Lemma product3 f g h ax ay az m n p x y z : regular ax x -> regular ay y -> regular az z ->
  cs3_evaluate (cs3_compute_aijk (cs3_new (fun s t u => f s * g t * h u) ax ay az m n p)) x y z =
  cs1_evaluate (cs1_compute_ai (cs1_new f ax m)) x * cs1_evaluate (cs1_compute_ai (cs1_new g ay n)) y *
  cs1_evaluate (cs1_compute_ai (cs1_new h az p)) z.
Proof.
  intros Hx Hy Hz. rewrite op3, !op1 by assumption. rewrite Rmult_assoc, <- bsum_scal_r. apply bsum_ext. intros r _.
  rewrite (bsum_ext (n + 1) _ (fun t => f (seg ax m r) * (g (seg ay n t) * kern n t (unit_of ay y)) *
    bsum (p + 1) (fun q => h (seg az p q) * kern p q (unit_of az z)))).
  - rewrite bsum_scal_r, bsum_scal. ring.
  - intros t _.
    rewrite (bsum_ext (p + 1) _ (fun q => f (seg ax m r) * g (seg ay n t) * (h (seg az p q) * kern p q (unit_of az z)))) by (intros; ring).
    rewrite bsum_scal. ring.
Qed.

(** Reflection of a segment. *)
Lemma cheb_neg i : forall u, cheb i (- u) = (-1) ^ i * cheb i u.
Proof.
  enough (H : forall u, cheb i (- u) = (-1) ^ i * cheb i u /\ cheb (S i) (- u) = (-1) ^ S i * cheb (S i) u) by apply H.
  induction i as [|i IH]; intros u; [cbn; lra|]. destruct (IH u) as [A B]. split; [exact B|].
  change (cheb (S (S i)) (- u)) with (2 * - u * cheb (S i) (- u) - cheb i (- u)).
  change (cheb (S (S i)) u) with (2 * u * cheb (S i) u - cheb i u).
  rewrite A, B. cbn [pow]. ring.
Qed.
Lemma node_rev n r : (r <= n)%nat -> node n (n - r) = - node n r.
Proof.
  intros H. unfold node. rewrite minus_INR by exact H. pose proof (pos_INR n).
  replace (PI * (2 * (INR n - INR r) + 1) / (2 * (INR n + 1))) with (PI - PI * (2 * INR r + 1) / (2 * (INR n + 1))) by (field; lra).
  now rewrite Rtrigo_facts.cos_pi_minus.
Qed.
Lemma sgn_sq i : (-1) ^ i * (-1) ^ i = 1.
Proof. rewrite <- Rpow_mult_distr. replace (-1 * -1) with 1 by ring. apply pow1. Qed.
Lemma kern_rev n r u : (r <= n)%nat -> kern n (n - r) u = kern n r (- u).
Proof.
  intros H. unfold kern. apply bsum_ext. intros i _. rewrite node_rev by exact H. rewrite !cheb_neg. ring.
Qed.
Lemma bsum_back n f : bsum (n + 1) f = bsum (n + 1) (fun i => f (n - i)%nat).
Proof.
  rewrite Nat.add_1_r. revert f. induction n as [|n IH]; intros f; [reflexivity|].
  rewrite (bsum_shift (S n) (fun i => f (S n - i)%nat)).
  change (bsum (S (S n)) f) with (bsum (S n) f + f (S n)). rewrite (IH f), Nat.sub_0_r, Rplus_comm. f_equal.
Qed.
Lemma reflect1 f lo hi n x : lo < hi ->
  cs1_evaluate (cs1_compute_ai (cs1_new (fun t => f (lo + hi - t)) (Closed lo hi) n)) x =
  cs1_evaluate (cs1_compute_ai (cs1_new f (Closed lo hi) n)) (lo + hi - x).
Proof.
  intros H. rewrite !op1 by exact H. rewrite bsum_back. apply bsum_ext. intros r Hr.
  rewrite kern_rev by lia. f_equal.
  - f_equal. unfold seg, to_segment. rewrite node_rev by lia. rn. field.
  - f_equal. cbn [unit_of]. unfold segment_unit. field. lra.
Qed.

(** Energy. *)
Lemma energy1 f a n x : axis_valid a -> (forall r, (r <= n)%nat -> is_node a n r (x r)) ->
  let s := cs1_compute_ai (cs1_new f a n) in
  bsum (n + 1) (fun r => f (x r) ^ 2) =
  (INR n + 1) * c1_a s 0%nat ^ 2 + (INR n + 1) / 2 * bsum n (fun i => c1_a s (S i) ^ 2).
Proof.
  intros Ha Hx s. pose proof (pos_INR n) as Pn.
  set (F := fun r => f (seg a n r)).
  transitivity (bsum (n + 1) (fun i => / weight n i * c1_a s i ^ 2)).
  2:{ rewrite Nat.add_1_r, bsum_shift, <- bsum_scal. f_equal.
      - cbn [weight]. field. lra.
      - apply bsum_ext. intros i _. cbn [weight]. field. lra. }
  assert (C : forall i, c1_a s i = weight n i * bsum (n + 1) (fun r => F r * cheb i (node n r))).
  { intros i. unfold s. rewrite coef1. cbn [c1_n c1_f c1_x c1_a cs1_new]. rn. unfold F. ring. }
  assert (W : forall i, weight n i <> 0).
  { intros [|i]; cbn [weight]; apply Rmult_integral_contrapositive_currified; try apply Rinv_neq_0_compat; lra. }
  rewrite (bsum_ext (n + 1) (fun i => / weight n i * _) (fun i => bsum (n + 1) (fun r => bsum (n + 1) (fun q =>
    F q * (F r * (weight n i * cheb i (node n r) * cheb i (node n q))))))).
  2:{ intros i _. rewrite C.
      transitivity (bsum (n + 1) (fun r => F r * cheb i (node n r) * (weight n i * bsum (n + 1) (fun q => F q * cheb i (node n q))))).
      - rewrite bsum_scal_r. specialize (W i). field. exact W.
      - apply bsum_ext. intros r _. rewrite <- !bsum_scal. apply bsum_ext. intros q _. ring. }
  rewrite bsum_swap. apply bsum_ext. intros r Hr. rewrite bsum_swap.
  rewrite (bsum_ext (n + 1) _ (fun q => (F q * F r) * (if (q =? r)%nat then 1 else 0))).
  - rewrite bsum_delta by exact Hr. unfold F. rewrite <- (seg_unique a n r (x r)); [ring|exact Ha|apply Hx; lia|exact Hr].
  - intros q Hq. rewrite Nat.eqb_sym, <- (kern_node n r q Hr Hq). unfold kern. rewrite <- bsum_scal.
    apply bsum_ext. intros i _. ring.
Qed.

(** Orthogonality over the nodes. *)
Lemma odd_sum h N : 2 * sin h * bsum N (fun r => cos ((2 * INR r + 1) * h)) = sin (2 * INR N * h).
Proof.
  induction N as [|N IH]; [cbn [bsum INR]; replace (2 * 0 * h) with 0 by ring; rewrite sin_0; ring|].
  change (bsum (S N) (fun r => cos ((2 * INR r + 1) * h))) with
    (bsum N (fun r => cos ((2 * INR r + 1) * h)) + cos ((2 * INR N + 1) * h)).
  rewrite Rmult_plus_distr_l, IH, S_INR.
  replace (2 * INR N * h) with ((2 * INR N + 1) * h - h) by ring.
  replace (2 * (INR N + 1) * h) with ((2 * INR N + 1) * h + h) by ring.
  rewrite sin_minus, sin_plus. ring.
Qed.
Lemma node_sum n k : (0 < k < 2 * (n + 1))%nat -> bsum (n + 1) (fun r => cos (INR k * (PI * (2 * INR r + 1) / (2 * (INR n + 1))))) = 0.
Proof.
  intros Hk. pose proof (pos_INR n). set (h := INR k * PI / (2 * (INR n + 1))).
  rewrite (bsum_ext _ _ (fun r => cos ((2 * INR r + 1) * h))) by (intros; f_equal; unfold h; field; lra).
  assert (K0 : 0 < INR k) by (apply lt_0_INR; lia).
  assert (K1 : INR k < 2 * (INR n + 1)).
  { pose proof (lt_INR k (2 * (n + 1))) as L. rewrite mult_INR, plus_INR in L. simpl INR in L. apply L. lia. }
  assert (S0 : 0 < sin h).
  { apply sin_gt_0; unfold h; pose proof PI_RGT_0.
    - apply Rmult_lt_0_compat; [nra|apply Rinv_0_lt_compat; lra].
    - apply (Rmult_lt_reg_r (2 * (INR n + 1))); [lra|]. unfold Rdiv. rewrite Rmult_assoc, Rinv_l by lra. nra. }
  pose proof (odd_sum h (n + 1)) as E. rewrite plus_INR in E. simpl (INR 1) in E.
  replace (2 * (INR n + 1) * h) with (INR k * PI) in E by (unfold h; field; lra).
  rewrite INR_IZR_INZ, (sin_eq_0_1 (IZR (Z.of_nat k) * PI)) in E by (now exists (Z.of_nat k)).
  apply Rmult_integral in E. destruct E as [E|E]; [lra|exact E].
Qed.
Lemma ones k : bsum k (fun _ => 1) = INR k.
Proof. induction k as [|k IH]; [reflexivity|]. rewrite S_INR, <- IH. reflexivity. Qed.
Lemma node_orth n i j : (i <= n)%nat -> (j <= n)%nat ->
  weight n i * bsum (n + 1) (fun r => cheb j (node n r) * cheb i (node n r)) = if (j =? i)%nat then 1 else 0.
Proof.
  intros Hi Hj. pose proof (pos_INR n).
  assert (G : forall u v : nat, (v <= u <= n)%nat ->
    bsum (n + 1) (fun r => cheb u (node n r) * cheb v (node n r)) =
    / 2 * (bsum (n + 1) (fun r => cos (INR (u + v) * (PI * (2 * INR r + 1) / (2 * (INR n + 1))))) +
           bsum (n + 1) (fun r => cos (INR (u - v) * (PI * (2 * INR r + 1) / (2 * (INR n + 1))))))).
  { intros u v [L _]. rewrite <- bsum_plus, <- bsum_scal. apply bsum_ext. intros r _. unfold node. rewrite !cheb_cos.
    rewrite plus_INR, minus_INR by exact L. set (t := PI * (2 * INR r + 1) / (2 * (INR n + 1))).
    rewrite Rmult_plus_distr_r, Rmult_minus_distr_r, cos_plus, cos_minus. field. }
  assert (Z0 : bsum (n + 1) (fun r => cos (INR 0 * (PI * (2 * INR r + 1) / (2 * (INR n + 1))))) = INR n + 1).
  { rewrite (bsum_ext _ _ (fun _ => 1)) by (intros; simpl INR; now rewrite Rmult_0_l, cos_0).
    replace (INR n + 1) with (INR (n + 1)) by (rewrite plus_INR; reflexivity).
    apply ones. }
  destruct (Nat.eqb_spec j i) as [->|N].
  - rewrite G by lia. rewrite Nat.sub_diag, Z0. destruct i as [|i].
    + rewrite Nat.add_0_r, Z0. cbn [weight]. field. lra.
    + rewrite node_sum by lia. cbn [weight]. field. lra.
  - destruct (le_lt_dec i j) as [L|L].
    + rewrite G by lia. rewrite !node_sum by lia. ring.
    + rewrite (bsum_ext _ _ (fun r => cheb i (node n r) * cheb j (node n r))) by (intros; ring).
      rewrite G by lia. rewrite !node_sum by lia. ring.
Qed.
Lemma recover1 (s : cs1 R) N i : axis_valid (c1_x s) -> (c1_n s <= N)%nat -> (i <= N)%nat ->
  c1_a (cs1_compute_ai (cs1_new (cs1_evaluate s) (c1_x s) N)) i = if (i <=? c1_n s)%nat then c1_a s i else 0.
Proof.
  intros Ha HN Hi. rewrite coef1. cbn [c1_n c1_f c1_x c1_a cs1_new]. rn.
  set (A := fun j => if (j <=? c1_n s)%nat then c1_a s j else 0).
  assert (E : forall r, (r < N + 1)%nat -> cs1_evaluate s (seg (c1_x s) N r) = bsum (N + 1) (fun j => A j * cheb j (node N r))).
  { intros r Hr. destruct (seg_node (c1_x s) N r Ha Hr) as [R1 R2].
    rewrite eval1, unit_of_ok, R2 by exact R1. replace (N + 1)%nat with (c1_n s + 1 + (N - c1_n s))%nat by lia.
    rewrite (bsum_split (c1_n s + 1) (N - c1_n s)). rewrite (bsum_ext (N - c1_n s) _ (fun _ => 0)), bsum_0, Rplus_0_r.
    - apply bsum_ext. intros j Hj. unfold A. destruct (Nat.leb_spec j (c1_n s)); [reflexivity|lia].
    - intros j _. unfold A. destruct (Nat.leb_spec (c1_n s + 1 + j) (c1_n s)); [lia|ring]. }
  rewrite Rplus_0_l, Rmult_comm, <- bsum_scal.
  rewrite (bsum_ext (N + 1) _ (fun r => bsum (N + 1) (fun j => A j * (weight N i * (cheb j (node N r) * cheb i (node N r)))))).
  2:{ intros r Hr. rewrite E by exact Hr. rewrite <- bsum_scal_r, <- bsum_scal. apply bsum_ext. intros j _. ring. }
  rewrite bsum_swap.
  rewrite (bsum_ext (N + 1) _ (fun j => A j * (if (j =? i)%nat then 1 else 0))).
  - now rewrite bsum_delta by lia.
  - intros j Hj. rewrite bsum_scal, bsum_scal, node_orth by lia. reflexivity.
Qed.
Lemma same_series (s t : cs1 R) : c1_x s = c1_x t -> c1_n s = c1_n t -> axis_valid (c1_x s) ->
  ((forall x, regular (c1_x s) x -> cs1_evaluate s x = cs1_evaluate t x) <->
   (forall i, (i <= c1_n s)%nat -> c1_a s i = c1_a t i)).
Proof.
  intros Ex En Ha. split; intros H.
  - intros i Hi. pose proof (recover1 s (c1_n s) i Ha ltac:(lia) Hi) as A.
    assert (Ht : axis_valid (c1_x t)) by (now rewrite <- Ex).
    pose proof (recover1 t (c1_n t) i Ht ltac:(lia) ltac:(lia)) as B.
    rewrite <- En, <- Ex in B. destruct (Nat.leb_spec i (c1_n s)); [|lia]. rewrite <- A, <- B.
    rewrite !coef1. cbn [c1_n c1_f c1_x c1_a cs1_new]. f_equal. f_equal. apply bsum_ext. intros r Hr. f_equal.
    apply H. now apply seg_node.
  - intros x Hx. rewrite !eval1, <- Ex, <- En. apply bsum_ext. intros i Hi. rewrite H by lia. reflexivity.
Qed.

(** The same in two and three dimensions, one axis at a time. *)
Lemma dct n N i (A : nat -> R) : (n <= N)%nat -> (i <= N)%nat ->
  bsum (N + 1) (fun r => bsum (n + 1) (fun j => A j * cheb j (node N r)) * cheb i (node N r)) * weight N i =
  if (i <=? n)%nat then A i else 0.
Proof.
  intros HN Hi.
  transitivity (bsum (n + 1) (fun j => A j * (if (j =? i)%nat then 1 else 0))).
  - rewrite <- bsum_scal_r.
    rewrite (bsum_ext (N + 1) _ (fun r => bsum (n + 1) (fun j => A j * (weight N i * (cheb j (node N r) * cheb i (node N r)))))).
    2:{ intros r _. rewrite <- !bsum_scal_r. apply bsum_ext. intros. ring. }
    rewrite bsum_swap. apply bsum_ext. intros j Hj. rewrite bsum_scal, bsum_scal, node_orth by lia. reflexivity.
  - destruct (Nat.leb_spec i n) as [L|L].
    + apply bsum_delta. lia.
    + rewrite (bsum_ext _ _ (fun _ => 0)); [apply bsum_0|]. intros j Hj. destruct (Nat.eqb_spec j i); [lia|ring].
Qed.
Lemma recover2 (s : cs2 R) M N i j : axis_valid (c2_x s) -> axis_valid (c2_y s) ->
  (c2_m s <= M)%nat -> (c2_n s <= N)%nat -> (i <= M)%nat -> (j <= N)%nat ->
  c2_a (cs2_compute_aij (cs2_new (cs2_evaluate s) (c2_x s) (c2_y s) M N)) i j =
  if ((i <=? c2_m s) && (j <=? c2_n s))%nat%bool then c2_a s i j else 0.
Proof.
  intros Hx Hy HM HN Hi Hj. rewrite coef2. cbn [c2_m c2_n c2_f c2_x c2_y c2_a cs2_new]. rn. rewrite Rplus_0_l.
  transitivity (bsum (M + 1) (fun r => bsum (c2_m s + 1) (fun i' =>
     (if (j <=? c2_n s)%nat then c2_a s i' j else 0) * cheb i' (node M r)) * cheb i (node M r)) * weight M i).
  2:{ rewrite dct by lia. destruct (i <=? c2_m s)%nat, (j <=? c2_n s)%nat; reflexivity. }
  rewrite ?Rmult_assoc, (Rmult_comm (weight M i)), <- ?Rmult_assoc. f_equal.
  rewrite <- bsum_scal_r. apply bsum_ext. intros r Hr.
  destruct (seg_node (c2_x s) M r Hx Hr) as [R1 R2].
  transitivity (bsum (N + 1) (fun t => bsum (c2_n s + 1) (fun j' =>
     bsum (c2_m s + 1) (fun i' => c2_a s i' j' * cheb i' (node M r)) * cheb j' (node N t)) * cheb j (node N t)) * weight N j
     * cheb i (node M r)).
  - rewrite <- !bsum_scal_r. apply bsum_ext. intros t Ht. destruct (seg_node (c2_y s) N t Hy Ht) as [Q1 Q2].
    rewrite eval2, !unit_of_ok, R2, Q2 by assumption. rewrite bsum_swap.
    rewrite (bsum_ext (c2_n s + 1) _ (fun j' => bsum (c2_m s + 1) (fun i' => c2_a s i' j' * cheb i' (node M r)) * cheb j' (node N t)));
      [ring|]. intros j' _. rewrite <- bsum_scal_r. apply bsum_ext. intros. ring.
  - rewrite dct by lia. f_equal. destruct (j <=? c2_n s)%nat; [reflexivity|].
    rewrite (bsum_ext _ _ (fun _ => 0)); [symmetry; apply bsum_0|]. intros. ring.
Qed.
Lemma recover3 (s : cs3 R) M N P i j k : axis_valid (c3_x s) -> axis_valid (c3_y s) -> axis_valid (c3_z s) ->
  (c3_m s <= M)%nat -> (c3_n s <= N)%nat -> (c3_p s <= P)%nat -> (i <= M)%nat -> (j <= N)%nat -> (k <= P)%nat ->
  c3_a (cs3_compute_aijk (cs3_new (cs3_evaluate s) (c3_x s) (c3_y s) (c3_z s) M N P)) k i j =
  if ((i <=? c3_m s) && (j <=? c3_n s) && (k <=? c3_p s))%nat%bool then c3_a s k i j else 0.
Proof.
  intros Hx Hy Hz HM HN HP Hi Hj Hk. rewrite coef3_ok. cbn [c3_m c3_n c3_p c3_f c3_x c3_y c3_z c3_a cs3_new]. rn. rewrite Rplus_0_l.
  transitivity (bsum (M + 1) (fun r => bsum (c3_m s + 1) (fun i' =>
     (if ((j <=? c3_n s) && (k <=? c3_p s))%nat%bool then c3_a s k i' j else 0) * cheb i' (node M r)) * cheb i (node M r)) * weight M i).
  2:{ rewrite dct by lia. destruct (i <=? c3_m s)%nat, (j <=? c3_n s)%nat, (k <=? c3_p s)%nat; reflexivity. }
  set (S3 := bsum (M + 1) _). rewrite ?Rmult_assoc.
  replace (S3 * _) with (S3 * (weight N j * weight P k) * weight M i) by ring. f_equal. unfold S3. clear S3.
  rewrite <- bsum_scal_r. apply bsum_ext. intros r Hr.
  destruct (seg_node (c3_x s) M r Hx Hr) as [R1 R2].
  transitivity (bsum (N + 1) (fun t => bsum (c3_n s + 1) (fun j' =>
     (if (k <=? c3_p s)%nat then bsum (c3_m s + 1) (fun i' => c3_a s k i' j' * cheb i' (node M r)) else 0)
       * cheb j' (node N t)) * cheb j (node N t)) * weight N j * cheb i (node M r)).
  - rewrite <- !bsum_scal_r. apply bsum_ext. intros t Ht. destruct (seg_node (c3_y s) N t Hy Ht) as [Q1 Q2].
    transitivity (bsum (P + 1) (fun q => bsum (c3_p s + 1) (fun k' =>
      bsum (c3_n s + 1) (fun j' => bsum (c3_m s + 1) (fun i' => c3_a s k' i' j' * cheb i' (node M r)) * cheb j' (node N t))
        * cheb k' (node P q)) * cheb k (node P q)) * weight P k * (cheb j (node N t) * weight N j * cheb i (node M r))).
    + rewrite <- !bsum_scal_r. apply bsum_ext. intros q Hq. destruct (seg_node (c3_z s) P q Hz Hq) as [T1 T2].
      rewrite eval3, !unit_of_ok, R2, Q2, T2 by assumption.
      assert (E : bsum (c3_m s + 1) (fun i' => bsum (c3_n s + 1) (fun j' => bsum (c3_p s + 1) (fun k' =>
          c3_a s k' i' j' * cheb i' (node M r) * cheb j' (node N t) * cheb k' (node P q)))) =
        bsum (c3_p s + 1) (fun k' => bsum (c3_n s + 1) (fun j' => bsum (c3_m s + 1) (fun i' =>
          c3_a s k' i' j' * cheb i' (node M r)) * cheb j' (node N t)) * cheb k' (node P q))).
      { rewrite bsum_swap.
        rewrite (bsum_ext (c3_n s + 1) _ (fun j' => bsum (c3_p s + 1) (fun k' => bsum (c3_m s + 1) (fun i' =>
          c3_a s k' i' j' * cheb i' (node M r) * cheb j' (node N t) * cheb k' (node P q))))) by (intros; apply bsum_swap).
        rewrite bsum_swap. apply bsum_ext. intros k' _. rewrite <- bsum_scal_r. apply bsum_ext. intros j' _.
        rewrite <- !bsum_scal_r. reflexivity. }
      rewrite E. ring.
    + rewrite dct by lia. destruct (k <=? c3_p s)%nat.
      * ring.
      * rewrite (bsum_ext (c3_n s + 1) _ (fun _ => 0)) by (intros; ring). rewrite bsum_0. ring.
  - rewrite dct by lia. f_equal. destruct (j <=? c3_n s)%nat, (k <=? c3_p s)%nat; cbn [andb]; try reflexivity;
    (rewrite (bsum_ext (c3_m s + 1) _ (fun _ => 0)) by (intros; ring)); now rewrite bsum_0.
Qed.
