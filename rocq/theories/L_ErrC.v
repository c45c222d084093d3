(** Accuracy of Chebyshev approximation. *)
From Coq Require Import List Arith ZArith Reals Lra Lia Bool.
From Verif Require Import Outcome Num NumFun M_Series S_Series L_Series M_Cheb S_Cheb L_Basics L_Basics2 L_Cheb L_Cheb2 L_Cheb3 L_Rem S_ErrC.
Import ListNotations.
Local Open Scope R_scope.

Lemma cheb_unit_abs n t : -1 <= t <= 1 -> Rabs (cheb n t) <= 1.
Proof.
  intros T. rewrite <- (cos_acos t T), cheb_cos. pose proof (COS_bound (INR n * acos t)). apply Rabs_le. lra.
Qed.
Lemma cheb_node_zero n r : cheb (S n) (node n r) = 0.
Proof.
  unfold node. rewrite cheb_cos. apply cos_eq_0_1. exists (Z.of_nat r).
  rewrite <- INR_IZR_INZ, S_INR. field. pose proof (pos_INR n). lra.
Qed.
Lemma tcz_lead n : tcz (S n) (S n) = 2 ^ n.
Proof. rewrite <- (Nat.add_0_r (S n)) at 1. change (S n + 0)%nat with (S n + 2 * 0)%nat. rewrite tcz_even. apply lam_top. Qed.

Lemma unit_convex a : convex (unit_dom a).
Proof. destruct a; intros x y z; cbn; lra. Qed.
Lemma unit_closed a u : unit_dom a u -> -1 <= u <= 1.
Proof. destruct a; cbn; lra. Qed.
Lemma node_dom a n r : (r < n + 1)%nat -> unit_dom a (node n r).
Proof. intros H. pose proof (node_lt_1 n r H). destruct a; cbn; lra. Qed.

Lemma axis_regular a x : axis_valid a -> in_axis a x -> regular a x.
Proof. destruct a; cbn; lra. Qed.
Lemma axis_unit a x : axis_valid a -> in_axis a x -> unit_dom a (unit_of a x) /\ point_of a (unit_of a x) = x.
Proof.
  destruct a as [lo hi|lo]; cbn; intros V H; unfold segment_unit, halfline_unit.
  - split; [|field; lra]. split.
    + apply Rmult_le_reg_r with (hi - lo); [lra|]. unfold Rdiv. rewrite Rmult_assoc, Rinv_l by lra. lra.
    + apply Rmult_le_reg_r with (hi - lo); [lra|]. unfold Rdiv. rewrite Rmult_assoc, Rinv_l by lra. lra.
  - assert (0 < lo / x) by (apply Rmult_lt_0_compat; [lra|apply Rinv_0_lt_compat; lra]).
    assert (lo / x <= 1) by (apply Rmult_le_reg_r with x; [lra|]; unfold Rdiv; rewrite Rmult_assoc, Rinv_l by lra; lra).
    replace (2 * lo / x) with (2 * (lo / x)) by (field; lra). split; [lra|]. field. lra.
Qed.
Lemma seg_point a n r : axis_valid a -> (r < n + 1)%nat -> seg a n r = point_of a (node n r).
Proof.
  intros V Hr. pose proof (node_lt_1 n r Hr). unfold seg, to_segment, point_of. destruct a as [lo hi|lo]; rn; cbn in V; field; lra.
Qed.
Lemma seg_on a n r : axis_valid a -> (r < n + 1)%nat -> in_axis a (seg a n r).
Proof.
  intros V Hr. rewrite seg_point by assumption. pose proof (node_lt_1 n r Hr). destruct a as [lo hi|lo]; cbn in *; [nra|].
  apply Rmult_le_reg_r with (1 - node n r); [lra|]. unfold Rdiv. rewrite Rmult_assoc, Rinv_l by lra. nra.
Qed.

(** *** One axis *)
Lemma kern_isp n r : isp (n + 1) (kern n r).
Proof. unfold kern. apply isp_bsum. intros i Hi. apply isp_scal. now apply isp_cheb. Qed.

Lemma axis_err a n f M x : axis_valid a -> smooth_on a (n + 1) f M -> in_axis a x ->
  Rabs (bsum (n + 1) (fun r => f (seg a n r) * kern n r (unit_of a x)) - f x) <= cheb_remainder n M.
Proof.
  intros V (D & E0 & HD & HM) Hx. destruct (axis_unit a x V Hx) as [Hu Ex]. set (u := unit_of a x) in *.
  assert (IP : isp (n + 1) (fun t => bsum (n + 1) (fun r => f (seg a n r) * kern n r t))).
  { apply isp_bsum. intros r _. apply isp_scal. apply kern_isp. }
  destruct IP as [p Hp]. cbv beta in Hp.
  destruct (remainder (unit_dom a) (n + 1) D p (tcz (n + 1)) (map (node n) (seq 0 (n + 1))) u) as (c & Hc & E).
  - apply unit_convex.
  - exact HD.
  - assert (G : forall s k, (s + k <= n + 1)%nat -> NoDup (map (node n) (seq s k))).
    { intros s k. revert s. induction k as [|k IH]; intros s H; [constructor|]. cbn [seq map]. constructor; [|apply IH; lia].
      intros I. apply in_map_iff in I as (j & Ej & Ij). apply in_seq in Ij. apply (node_inj n j s) in Ej; lia. }
    apply G. lia.
  - rewrite map_length, seq_length. reflexivity.
  - intros z Hz. apply in_map_iff in Hz as (r & <- & Hr). apply in_seq in Hr.
    assert (Dr := node_dom a n r ltac:(lia)). split; [exact Dr|]. split.
    + rewrite E0 by exact Dr. rewrite <- Hp, (interp_node n (fun r => f (seg a n r)) r ltac:(lia)). rewrite seg_point by (auto; lia). reflexivity.
    + rewrite <- cheb_poly_gen by lia. rewrite Nat.add_1_r. apply cheb_node_zero.
  - rewrite Nat.add_1_r, tcz_lead. apply pow_nonzero. lra.
  - exact Hu.
  - rewrite <- cheb_poly_gen in E by lia. rewrite E0, Ex, <- Hp in E by exact Hu.
    replace (tcz (n + 1) (n + 1)) with (2 ^ n) in E by (rewrite Nat.add_1_r; symmetry; apply tcz_lead).
    set (q := 2 ^ n * INR (fact (n + 1))) in *.
    assert (Q : 0 < q) by (apply Rmult_lt_0_compat; [apply pow_lt; lra|apply INR_fact_lt_0]).
    unfold cheb_remainder. fold q. rewrite Rabs_minus_sym. apply Rmult_le_reg_r with q; [exact Q|].
    unfold Rdiv. rewrite Rmult_assoc, Rinv_l, Rmult_1_r by lra.
    rewrite <- (Rabs_pos_eq q) at 1 by lra. rewrite <- Rabs_mult, E, Rabs_mult.
    pose proof (HM c Hc). pose proof (cheb_unit_abs (n + 1) u (unit_closed a u Hu)). pose proof (Rabs_pos (D (n + 1)%nat c)). pose proof (Rabs_pos (cheb (n + 1) u)). nra.
Qed.

Lemma bsum_abs n f g : (forall i, (i < n)%nat -> Rabs (f i) <= g i) -> Rabs (bsum n f) <= bsum n g.
Proof.
  induction n as [|n IH]; intros H; cbn [bsum]; [rewrite Rabs_R0; lra|].
  apply Rle_trans with (1 := Rabs_triang _ _). apply Rplus_le_compat; [apply IH; intros; apply H; lia|apply H; lia].
Qed.
Lemma bsum_const n c : bsum n (fun _ => c) = INR n * c.
Proof. induction n as [|n IH]; [simpl; ring|]. cbn [bsum]. rewrite IH, S_INR. ring. Qed.
Lemma weight_sum n : bsum (n + 1) (weight n) = growth n / (INR n + 1).
Proof.
  pose proof (pos_INR n). rewrite Nat.add_1_r, bsum_shift. rewrite (bsum_ext n _ (fun _ => 2 / (INR n + 1))) by reflexivity.
  rewrite bsum_const. unfold growth. cbn [weight]. field. lra.
Qed.
Lemma kern_abs n r u : (r < n + 1)%nat -> -1 <= u <= 1 -> Rabs (kern n r u) <= growth n / (INR n + 1).
Proof.
  intros Hr Hu. rewrite <- weight_sum. unfold kern. apply bsum_abs. intros i Hi. rewrite !Rabs_mult.
  pose proof (node_lt_1 n r Hr). pose proof (cheb_unit_abs i u Hu). pose proof (cheb_unit_abs i (node n r) ltac:(lra)).
  assert (W : 0 < weight n i).
  { pose proof (pos_INR n). destruct i; cbn [weight]; apply Rmult_lt_0_compat; try lra; apply Rinv_0_lt_compat; lra. }
  rewrite (Rabs_pos_eq (weight n i)) by lra.
  pose proof (Rabs_pos (cheb i u)). pose proof (Rabs_pos (cheb i (node n r))).
  assert (Rabs (cheb i (node n r)) * Rabs (cheb i u) <= 1 * 1) by (apply Rmult_le_compat; assumption). nra.
Qed.
Lemma axis_growth n (d : nat -> R) u e : -1 <= u <= 1 -> (forall r, (r < n + 1)%nat -> Rabs (d r) <= e) ->
  Rabs (bsum (n + 1) (fun r => d r * kern n r u)) <= growth n * e.
Proof.
  intros Hu Hd. pose proof (pos_INR n).
  assert (G : growth n * e = bsum (n + 1) (fun _ => e * (growth n / (INR n + 1)))).
  { rewrite bsum_const, plus_INR. cbn [INR]. field. lra. }
  rewrite G. apply bsum_abs. intros r Hr. rewrite Rabs_mult. apply Rmult_le_compat; try apply Rabs_pos; [auto|now apply kern_abs].
Qed.
Lemma growth_pos n : 0 < growth n.
Proof. unfold growth. pose proof (pos_INR n). lra. Qed.

(** *** The series *)
Lemma err1 f a n M x : axis_valid a -> smooth_on a (n + 1) f M -> in_axis a x ->
  Rabs (cs1_evaluate (cs1_compute_ai (cs1_new f a n)) x - f x) <= cheb_remainder n M.
Proof. intros V S H. rewrite op1 by (now apply axis_regular). now apply axis_err. Qed.

Lemma split_sum n (F G : nat -> R) u : bsum (n + 1) (fun r => F r * kern n r u) =
  bsum (n + 1) (fun r => (F r - G r) * kern n r u) + bsum (n + 1) (fun r => G r * kern n r u).
Proof. rewrite <- bsum_plus. apply bsum_ext. intros. ring. Qed.

Lemma sens1 f g a n e x : axis_valid a -> in_axis a x -> (forall t, in_axis a t -> Rabs (f t - g t) <= e) ->
  Rabs (cs1_evaluate (cs1_compute_ai (cs1_new f a n)) x - cs1_evaluate (cs1_compute_ai (cs1_new g a n)) x) <= growth n * e.
Proof.
  intros V Hx H. destruct (axis_unit a x V Hx) as [Hu _]. rewrite !op1 by (now apply axis_regular).
  rewrite (split_sum n (fun r => f (seg a n r)) (fun r => g (seg a n r))).
  match goal with |- Rabs (?A + ?B - ?B) <= _ => replace (A + B - B) with A by ring end.
  apply axis_growth; [now apply unit_closed in Hu|]. intros r Hr. apply H. now apply seg_on.
Qed.

Lemma err2 f ax ay m n Mx My x y : axis_valid ax -> axis_valid ay ->
  (forall t, in_axis ay t -> smooth_on ax (m + 1) (fun s => f s t) Mx) -> (forall s, in_axis ax s -> smooth_on ay (n + 1) (f s) My) ->
  in_axis ax x -> in_axis ay y ->
  Rabs (cs2_evaluate (cs2_compute_aij (cs2_new f ax ay m n)) x y - f x y) <= cheb_remainder m Mx + growth m * cheb_remainder n My.
Proof.
  intros Vx Vy Sx Sy Hx Hy. destruct (axis_unit ax x Vx Hx) as [Hu _].
  rewrite op2 by (now apply axis_regular).
  rewrite (split_sum m _ (fun r => f (seg ax m r) y)).
  match goal with |- Rabs (?A + ?B - ?C) <= _ => replace (A + B - C) with ((B - C) + A) by ring end.
  apply Rle_trans with (1 := Rabs_triang _ _). apply Rplus_le_compat.
  - exact (axis_err ax m (fun s => f s y) Mx x Vx (Sx y Hy) Hx).
  - apply axis_growth; [now apply unit_closed in Hu|]. intros r Hr. apply axis_err; auto. apply Sy. now apply seg_on.
Qed.
Lemma err3 f ax ay az m n p Mx My Mz x y z : axis_valid ax -> axis_valid ay -> axis_valid az ->
  (forall t w, in_axis ay t -> in_axis az w -> smooth_on ax (m + 1) (fun s => f s t w) Mx) ->
  (forall s w, in_axis ax s -> in_axis az w -> smooth_on ay (n + 1) (fun t => f s t w) My) ->
  (forall s t, in_axis ax s -> in_axis ay t -> smooth_on az (p + 1) (f s t) Mz) ->
  in_axis ax x -> in_axis ay y -> in_axis az z ->
  Rabs (cs3_evaluate (cs3_compute_aijk (cs3_new f ax ay az m n p)) x y z - f x y z) <=
    cheb_remainder m Mx + growth m * (cheb_remainder n My + growth n * cheb_remainder p Mz).
Proof.
  intros Vx Vy Vz Sx Sy Sz Hx Hy Hz. destruct (axis_unit ax x Vx Hx) as [Hu _]. destruct (axis_unit ay y Vy Hy) as [Hv _].
  rewrite op3 by (now apply axis_regular).
  rewrite (split_sum m _ (fun r => f (seg ax m r) y z)).
  match goal with |- Rabs (?A + ?B - ?C) <= _ => replace (A + B - C) with ((B - C) + A) by ring end.
  apply Rle_trans with (1 := Rabs_triang _ _). apply Rplus_le_compat.
  - exact (axis_err ax m (fun s => f s y z) Mx x Vx (Sx y z Hy Hz) Hx).
  - apply axis_growth; [now apply unit_closed in Hu|]. intros r Hr. assert (Or := seg_on ax m r Vx Hr).
    rewrite (split_sum n _ (fun t => f (seg ax m r) (seg ay n t) z)).
    match goal with |- Rabs (?A + ?B - ?C) <= _ => replace (A + B - C) with ((B - C) + A) by ring end.
    apply Rle_trans with (1 := Rabs_triang _ _). apply Rplus_le_compat.
    + exact (axis_err ay n (fun t => f (seg ax m r) t z) My y Vy (Sy _ z Or Hz) Hy).
    + apply axis_growth; [now apply unit_closed in Hv|]. intros t Ht. apply axis_err; auto. apply Sz; auto. now apply seg_on.
Qed.

(** Derivatives with respect to x on a segment. *)
Lemma affine_chain (F F1 : R -> R) a b u : derivable_pt_lim F (a + b * u) (F1 (a + b * u)) -> derivable_pt_lim (fun t => F (a + b * t)) u (F1 (a + b * u) * b).
Proof.
  intros H. apply (derivable_pt_lim_comp (fun t => a + b * t) F); [|exact H].
  pose proof (derivable_pt_lim_plus (fun _ => a) (fun t => b * t) u 0 (b * 1) (derivable_pt_lim_const a u) (derivable_pt_lim_scal (fun t => t) b u 1 (derivable_pt_lim_id u))) as E.
  rewrite Rplus_0_l, Rmult_1_r in E. exact E.
Qed.
Lemma smooth_closed lo hi k f D M : lo < hi -> (forall x, lo <= x <= hi -> D 0%nat x = f x) -> derivatives (fun x => lo <= x <= hi) k D M ->
  smooth_on (Closed lo hi) k f (M * ((hi - lo) / 2) ^ k).
Proof.
  intros L E [HD HM]. set (h := (hi - lo) / 2). set (c := (hi + lo) / 2).
  assert (In : forall u, -1 <= u <= 1 -> lo <= c + h * u <= hi).
  { intros u Hu. unfold c, h. split; [|]; assert (0 < hi - lo) by lra; nra. }
  exists (fun j u => D j (c + h * u) * h ^ j). cbn [unit_dom point_of]. fold h c. split; [|split].
  - intros u Hu. rewrite E by auto. simpl. ring.
  - intros j u Hj Hu. cbn [pow].
    replace (D (S j) (c + h * u) * (h * h ^ j)) with (h ^ j * (D (S j) (c + h * u) * h)) by ring.
    assert (X : derivable_pt_lim (fun t => h ^ j * D j (c + h * t)) u (h ^ j * (D (S j) (c + h * u) * h))).
    { apply (derivable_pt_lim_scal (fun t => D j (c + h * t))). apply affine_chain. apply HD; auto. }
    revert X. apply deriv_ext. intros t. ring.
  - intros u Hu. rewrite Rabs_mult, (Rabs_pos_eq (h ^ k)) by (apply pow_le; unfold h; lra).
    apply Rmult_le_compat_r; [apply pow_le; unfold h; lra|]. auto.
Qed.
Lemma err1_closed f D lo hi n M x : lo < hi -> (forall t, lo <= t <= hi -> D 0%nat t = f t) -> derivatives (fun t => lo <= t <= hi) (n + 1) D M -> lo <= x <= hi ->
  Rabs (cs1_evaluate (cs1_compute_ai (cs1_closed f lo hi n)) x - f x) <= M * ((hi - lo) / 2) ^ (n + 1) / (2 ^ n * INR (fact (n + 1))).
Proof. intros L E H Hx. apply (err1 f (Closed lo hi) n (M * ((hi - lo) / 2) ^ (n + 1)) x L); [now apply (smooth_closed lo hi (n + 1) f D)|exact Hx]. Qed.
