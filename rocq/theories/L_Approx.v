(** Lemmas about the tolerance comparisons. *)
From Coq Require Import List Arith ZArith Reals Bool Lia Lra Psatz.
From Flocq Require Import Core.Core IEEE754.BinarySingleNaN.
From Verif Require Import Outcome Num NumFun F64 M_Approx S_Series S_Approx L_F64 L_Series L_Series64 L_F64Err S_Angles S_Double L_Interp64.
Import ListNotations.
Local Open Scope R_scope.

Lemma fold_sq l : forall s, fold_left (fun s x => nadd s (nmul x x)) l s = s + bsum (length l) (fun i => nth i l 0 ^ 2).
Proof.
  induction l as [|x l IH]; intros s; [simpl; lra|]. cbn [fold_left]. rewrite IH.
  change (length (x :: l)) with (S (length l)). rewrite bsum_shift. cbn [nth nadd nmul RNum RNum_at]. lra.
Qed.
Lemma abs2_sum_R (l : list R) : abs2_sum l = bsum (length l) (fun i => nth i l 0 ^ 2).
Proof. unfold abs2_sum. rewrite fold_sq. cbn [nofZ RNum RNum_at]. lra. Qed.

Lemma sq_nonneg l : 0 <= bsum (length l) (fun i => nth i l 0 ^ 2).
Proof. apply bsum_nonneg. intros i _. apply pow2_ge_0. Qed.

Lemma abs2_sum_norm (l : list R) : abs2_sum l = norm2 l ^ 2.
Proof. rewrite abs2_sum_R. unfold norm2. rewrite <- Rsqr_pow2, Rsqr_sqrt; auto. apply sq_nonneg. Qed.

Lemma coeff_sub_length (a b : list R) : length a = length b -> length (coeff_sub a b) = length a.
Proof. intros H. unfold coeff_sub. rewrite map_length, combine_length. lia. Qed.
Lemma coeff_sub_nth (a b : list R) i : length a = length b -> nth i (coeff_sub a b) 0 = nth i a 0 - nth i b 0.
Proof.
  intros H. unfold coeff_sub. replace 0 with ((fun p : R * R => fst p - snd p) (0, 0)) at 1 by (simpl; lra).
  change (fun p => nsub (fst p) (snd p)) with (fun p : R * R => fst p - snd p).
  rewrite (map_nth (fun p : R * R => fst p - snd p)), combine_nth by auto. reflexivity.
Qed.

Lemma abs2_sum_dist (a b : list R) : length a = length b -> abs2_sum (coeff_sub a b) = distance2 a b ^ 2.
Proof.
  intros H. rewrite abs2_sum_R, coeff_sub_length by auto. unfold distance2. rewrite <- Rsqr_pow2, Rsqr_sqrt.
  - apply bsum_ext. intros i _. rewrite coeff_sub_nth by auto. reflexivity.
  - apply bsum_nonneg. intros i _. apply pow2_ge_0.
Qed.

Lemma norm2_nonneg a : 0 <= norm2 a.
Proof. apply sqrt_pos. Qed.
Lemma distance2_nonneg a b : 0 <= distance2 a b.
Proof. apply sqrt_pos. Qed.

Lemma mini_R (a b : R) : mini a b = Rmin a b.
Proof.
  unfold mini. change (nlt b a) with (Rltb b a). unfold Rltb, Rmin.
  destruct (Rlt_dec b a), (Rle_dec a b); lra.
Qed.

Lemma min_sq a b : 0 <= a -> 0 <= b -> Rmin (a ^ 2) (b ^ 2) = Rmin a b ^ 2.
Proof. intros A B. unfold Rmin. destruct (Rle_dec a b), (Rle_dec (a ^ 2) (b ^ 2)); try reflexivity; nra. Qed.

Lemma sq_le_abs d e m : 0 <= d -> 0 <= m -> (d ^ 2 <= e * e * m ^ 2 <-> d <= Rabs e * m).
Proof.
  intros D M. replace (e * e * m ^ 2) with ((Rabs e * m) ^ 2).
  - assert (0 <= Rabs e * m) by (apply Rmult_le_pos; [apply Rabs_pos|auto]). split; intros H'; nra.
  - rewrite Rpow_mult_distr. f_equal. rewrite pow2_abs. ring.
Qed.

Lemma is_equal_iff : forall bm (a b : list R) eps, length a = length b ->
  exists r, is_equal bm a b eps = Ok r /\
    (r = true <-> distance2 a b <= Rabs eps * Rmin (norm2 a) (norm2 b)).
Proof.
  intros bm a b eps H. unfold is_equal. rewrite H, Nat.eqb_refl. eexists. split; [reflexivity|].
  rewrite abs2_sum_dist, !abs2_sum_norm, mini_R, min_sq by auto using norm2_nonneg.
  change (nle ?x ?y) with (Rleb x y). rewrite Rleb_true. cbn [nmul RNum RNum_at].
  apply sq_le_abs; [apply distance2_nonneg|]. apply Rmin_glb; apply norm2_nonneg.
Qed.

Lemma is_equal_ok bm (a b : list R) eps : length a = length b ->
  is_equal bm a b eps = Ok true <-> distance2 a b <= Rabs eps * Rmin (norm2 a) (norm2 b).
Proof.
  intros H. destruct (is_equal_iff bm a b eps H) as (r & -> & <-). split; [intros E; inversion E; auto|intros ->; auto].
Qed.
Lemma is_equal_total bm (a b : list R) eps : length a = length b -> exists r, is_equal bm a b eps = Ok r.
Proof. intros H. destruct (is_equal_iff bm a b eps H) as (r & E & _). eauto. Qed.

Lemma is_equal_sizes : forall bm (a b : list R) eps, length a <> length b ->
  is_equal bm a b eps = match bm with Debug => Abort | Release => UB end.
Proof. intros bm a b eps H. unfold is_equal. apply Nat.eqb_neq in H. rewrite H. reflexivity. Qed.

Lemma distance2_sym a b : length a = length b -> distance2 a b = distance2 b a.
Proof. intros H. unfold distance2. rewrite H. f_equal. apply bsum_ext. intros i _. ring. Qed.
Lemma distance2_self a : distance2 a a = 0.
Proof.
  unfold distance2. replace (bsum _ _) with 0; [apply sqrt_0|]. rewrite <- (bsum_0 (length a)). apply bsum_ext.
  intros i _. ring.
Qed.

Lemma iff_eq_ok bm bm' (a b a' b' : list R) e e' : length a = length b -> length a' = length b' ->
  (distance2 a b <= Rabs e * Rmin (norm2 a) (norm2 b) <-> distance2 a' b' <= Rabs e' * Rmin (norm2 a') (norm2 b')) ->
  is_equal bm a b e = is_equal bm' a' b' e'.
Proof.
  intros H H' E. destruct (is_equal_iff bm a b e H) as (r & -> & I). destruct (is_equal_iff bm' a' b' e' H') as (r' & -> & I').
  f_equal. destruct r, r'; auto; intuition congruence.
Qed.

Lemma is_equal_equivalences : forall bm bm' (a b : list R) eps c, length a = length b -> c <> 0 ->
  is_equal bm a a eps = Ok true /\ is_equal bm a b eps = is_equal bm' b a eps /\
  is_equal bm (map (Rmult c) a) (map (Rmult c) b) eps = is_equal bm' a b eps /\
  is_equal bm a b (- eps) = is_equal bm' a b eps.
Proof.
  intros bm bm' a b eps c H Hc. split; [|split; [|split]].
  - apply is_equal_ok; auto. rewrite distance2_self. apply Rmult_le_pos; [apply Rabs_pos|].
    apply Rmin_glb; apply norm2_nonneg.
  - apply iff_eq_ok; auto. rewrite distance2_sym, Rmin_comm by auto. reflexivity.
  - assert (N : forall l, norm2 (map (Rmult c) l) = Rabs c * norm2 l).
    { intros l. unfold norm2. rewrite map_length. rewrite <- sqrt_Rsqr_abs, <- sqrt_mult_alt by apply Rle_0_sqr. f_equal.
      unfold Rsqr. rewrite <- bsum_scal. apply bsum_ext. intros i _. replace 0 with (c * 0) at 1 by ring. rewrite map_nth. ring. }
    assert (D : distance2 (map (Rmult c) a) (map (Rmult c) b) = Rabs c * distance2 a b).
    { unfold distance2. rewrite map_length. rewrite <- sqrt_Rsqr_abs, <- sqrt_mult_alt by apply Rle_0_sqr. f_equal.
      unfold Rsqr. rewrite <- bsum_scal. apply bsum_ext. intros i _.
      replace (nth i (map (Rmult c) a) 0) with (c * nth i a 0) by (symmetry; replace 0 with (c * 0) at 1 by ring; apply map_nth).
      replace (nth i (map (Rmult c) b) 0) with (c * nth i b 0) by (symmetry; replace 0 with (c * 0) at 1 by ring; apply map_nth).
      ring. }
    apply iff_eq_ok; [rewrite !map_length; auto|auto|]. rewrite !N, D.
    assert (P : 0 < Rabs c) by (apply Rabs_pos_lt; auto).
    assert (M : Rmin (Rabs c * norm2 a) (Rabs c * norm2 b) = Rabs c * Rmin (norm2 a) (norm2 b)).
    { unfold Rmin. destruct (Rle_dec (norm2 a) (norm2 b)), (Rle_dec (Rabs c * norm2 a) (Rabs c * norm2 b)); auto; nra. }
    rewrite M. split; intros K.
    + apply Rmult_le_reg_l with (Rabs c); auto. lra.
    + replace (Rabs eps * (Rabs c * Rmin (norm2 a) (norm2 b))) with (Rabs c * (Rabs eps * Rmin (norm2 a) (norm2 b))) by ring.
      apply Rmult_le_compat_l; lra.
  - apply iff_eq_ok; auto. rewrite Rabs_Ropp. reflexivity.
Qed.

Lemma bsum_zero_all n f : (forall i, (i < n)%nat -> 0 <= f i) -> bsum n f = 0 -> forall i, (i < n)%nat -> f i = 0.
Proof.
  induction n as [|n IH]; intros Hp H i Hi; [lia|]. simpl in H.
  assert (A : 0 <= bsum n f) by (apply bsum_nonneg; auto). assert (B := Hp n ltac:(lia)).
  destruct (Nat.eq_dec i n) as [->|]; [lra|]. apply IH; auto; [lra|lia].
Qed.

Lemma nth_zeros n i : nth i (zeros n) 0 = 0.
Proof. unfold zeros. revert i. induction n as [|n IH]; intros [|i]; simpl; auto. Qed.

Lemma norm2_zero a : norm2 a = 0 -> a = zeros (length a).
Proof.
  intros H. unfold norm2 in H. apply sqrt_eq_0 in H; [|apply sq_nonneg].
  apply (nth_ext _ _ 0 0); [unfold zeros; rewrite repeat_length; auto|].
  intros i Hi. rewrite nth_zeros.
  assert (Z := bsum_zero_all _ _ (fun i _ => pow2_ge_0 (nth i a 0)) H i Hi). cbv beta in Z. nra.
Qed.
Lemma norm2_zeros n : norm2 (zeros n) = 0.
Proof.
  unfold norm2. rewrite (bsum_ext _ _ (fun _ => 0)); [rewrite bsum_0; apply sqrt_0|].
  intros i _. rewrite nth_zeros. ring.
Qed.

Lemma is_equal_zero_lemma : forall bm (a : list R) eps,
  is_equal bm a (zeros (length a)) eps = Ok true <-> a = zeros (length a).
Proof.
  intros bm a eps. rewrite is_equal_ok by (unfold zeros; rewrite repeat_length; auto). split.
  - intros H. apply norm2_zero. assert (N := norm2_nonneg a).
    assert (D : distance2 a (zeros (length a)) = norm2 a).
    { unfold distance2, norm2. f_equal. apply bsum_ext. intros i _. rewrite nth_zeros. ring. }
    rewrite D, norm2_zeros, Rmin_right, Rmult_0_r in H by auto. lra.
  - intros H. rewrite <- H, distance2_self. apply Rmult_le_pos; [apply Rabs_pos|]. apply Rmin_glb; apply norm2_nonneg.
Qed.

Lemma norm2_1 x : norm2 [x] = Rabs x.
Proof. unfold norm2. cbn [length bsum nth]. rewrite <- sqrt_Rsqr_abs. f_equal. unfold Rsqr. ring. Qed.
Lemma distance2_1 x y : distance2 [x] [y] = Rabs (x - y).
Proof. unfold distance2. cbn [length bsum nth]. rewrite <- sqrt_Rsqr_abs. f_equal. unfold Rsqr. ring. Qed.

Lemma is_equal_absolute_refuted_pf : exists (a b : list R) eps, 0 < eps /\ length a = length b /\ distance2 a b <= eps /\
  forall bm, is_equal bm a b eps = Ok false.
Proof.
  exists [0], [/ 1000], (/ 10). split; [lra|]. split; [auto|]. split.
  - rewrite distance2_1. apply Rabs_le. lra.
  - intros bm. destruct (is_equal_iff bm [0] [/ 1000] (/ 10) eq_refl) as (r & -> & I). f_equal.
    destruct r; auto. exfalso. assert (K := proj1 I eq_refl).
    rewrite distance2_1, !norm2_1, Rabs_R0, Rmin_left, Rmult_0_r in K by apply Rabs_pos.
    rewrite Rabs_left in K by lra. lra.
Qed.

Lemma is_equal_not_transitive_pf : exists (a b c : list R) eps, 0 < eps /\ forall bm,
  is_equal bm a b eps = Ok true /\ is_equal bm b c eps = Ok true /\ is_equal bm a c eps = Ok false.
Proof.
  exists [1], [3 / 2], [2], (/ 2). split; [lra|]. intros bm.
  assert (A1 : Rabs 1 = 1) by (apply Rabs_pos_eq; lra). assert (A2 : Rabs (3 / 2) = 3 / 2) by (apply Rabs_pos_eq; lra).
  assert (A3 : Rabs 2 = 2) by (apply Rabs_pos_eq; lra). assert (A4 : Rabs (/ 2) = / 2) by (apply Rabs_pos_eq; lra).
  split; [|split].
  - apply is_equal_ok; auto. rewrite distance2_1, !norm2_1, A1, A2, A4, Rmin_left by lra. rewrite Rabs_left; lra.
  - apply is_equal_ok; auto. rewrite distance2_1, !norm2_1, A2, A3, A4, Rmin_left by lra. rewrite Rabs_left; lra.
  - destruct (is_equal_iff bm [1] [2] (/ 2) eq_refl) as (r & -> & I). f_equal. destruct r; auto. exfalso.
    assert (K := proj1 I eq_refl). rewrite distance2_1, !norm2_1, A1, A3, A4, Rmin_left in K by lra. rewrite Rabs_left in K; lra.
Qed.

(** Matrices of different shapes never reach the comparison. *)
Lemma mat_is_equal_lemma : forall bm (a b : cmatrix R) eps, cm_wf a -> cm_wf b ->
  (cm_rows a = cm_rows b /\ cm_cols a = cm_cols b ->
     exists r, mat_is_equal bm a b eps = Ok r /\
       (r = true <-> distance2 (cm_data a) (cm_data b) <= Rabs eps * Rmin (norm2 (cm_data a)) (norm2 (cm_data b)))) /\
  (cm_rows a <> cm_rows b \/ cm_cols a <> cm_cols b ->
     mat_is_equal bm a b eps = match bm with Debug => Abort | Release => UB end).
Proof.
  intros bm a b eps Wa Wb. unfold mat_is_equal. split.
  - intros [E1 E2]. rewrite E1, E2, !Nat.eqb_refl. cbn [andb]. apply is_equal_iff. unfold cm_wf in *. congruence.
  - intros [E|E]; apply Nat.eqb_neq in E; rewrite E; [|rewrite andb_false_r]; reflexivity.
Qed.

(** ** IsIdentity *)
Lemma forallb_seq n f : forallb f (seq 0 n) = true <-> forall i, (i < n)%nat -> f i = true.
Proof.
  rewrite forallb_forall. split; intros H i Hi.
  - apply H, in_seq. lia.
  - apply in_seq in Hi. apply H. lia.
Qed.

Definition entry (m : cmatrix R) (i j : nat) : R := nth (j * cm_rows m + i) (cm_data m) 0.

Lemma is_identity_iff (m : cmatrix R) eps : is_identity m eps = true <->
  forall i j, (i < cm_rows m)%nat -> (j < cm_cols m)%nat ->
    if (i =? j)%nat then Rabs (entry m i j - 1) <= Rmin (Rabs (entry m i j)) 1 * eps else Rabs (entry m i j) <= eps.
Proof.
  assert (E : forall i j, (if (i =? j)%nat then scalar_approx (entry m i j) 1 eps else scalar_much_smaller (entry m i j) 1 eps) = true <->
     (if (i =? j)%nat then Rabs (entry m i j - 1) <= Rmin (Rabs (entry m i j)) 1 * eps else Rabs (entry m i j) <= eps)).
  { intros i j. unfold scalar_approx, scalar_much_smaller. destruct (i =? j)%nat.
    - rewrite mini_R. change (nle ?x ?y) with (Rleb x y). rewrite Rleb_true. cbn [nmul nsub nfabs RNum RNum_at RNumFm].
      rewrite Rabs_R1. reflexivity.
    - change (nle ?x ?y) with (Rleb x y). rewrite Rleb_true. cbn [nmul nsub nfabs RNum RNum_at RNumFm]. rewrite Rabs_R1, Rmult_1_l. reflexivity. }
  unfold is_identity. rewrite forallb_seq. split.
  - intros H i j Hi Hj. specialize (H j Hj). rewrite forallb_seq in H. apply E. exact (H i Hi).
  - intros H j Hj. rewrite forallb_seq. intros i Hi. apply (E i j). exact (H i j Hi Hj).
Qed.

Lemma is_identity_lemma : forall (m : cmatrix R) eps, 0 <= eps ->
  (is_identity m eps = true -> forall i j, (i < cm_rows m)%nat -> (j < cm_cols m)%nat ->
     Rabs (nth (j * cm_rows m + i) (cm_data m) 0 - kronecker i j) <= eps) /\
  ((forall i j, (i < cm_rows m)%nat -> (j < cm_cols m)%nat ->
     Rabs (nth (j * cm_rows m + i) (cm_data m) 0 - kronecker i j) <= eps / (1 + eps)) -> is_identity m eps = true).
Proof.
  intros m eps He. rewrite is_identity_iff. unfold kronecker. split.
  - intros H i j Hi Hj. specialize (H i j Hi Hj). unfold entry in H. destruct (i =? j)%nat.
    + apply Rle_trans with (1 := H). rewrite <- (Rmult_1_l eps) at 2. apply Rmult_le_compat_r; auto. apply Rmin_r.
    + rewrite Rminus_0_r. exact H.
  - intros H i j Hi Hj. specialize (H i j Hi Hj). unfold entry. set (x := nth _ _ _) in *.
    assert (Q : eps / (1 + eps) <= eps).
    { apply Rmult_le_reg_r with (1 + eps); [lra|]. unfold Rdiv. rewrite Rmult_assoc, Rinv_l by lra. nra. }
    assert (Q2 : eps / (1 + eps) = (1 - eps / (1 + eps)) * eps) by (field; lra).
    destruct (i =? j)%nat; [|rewrite Rminus_0_r in H; lra].
    apply Rle_trans with (1 := H). rewrite Q2 at 1. apply Rmult_le_compat_r; auto.
    assert (P : 0 <= eps / (1 + eps)) by (apply Rmult_le_pos; [auto|left; apply Rinv_0_lt_compat; lra]).
    apply Rmin_glb; [|lra]. apply Rabs_le_inv in H. assert (A := Rle_abs x). lra.
Qed.

Lemma is_identity_rectangular_pf : exists m : cmatrix R, cm_wf m /\ cm_is_square m = false /\
  forall eps, 0 <= eps -> is_identity m eps = true.
Proof.
  exists (mkCM 2 3 [1; 0; 0; 1; 0; 0]). split; [reflexivity|]. split; [reflexivity|].
  intros eps He. apply is_identity_lemma; auto. cbn [cm_rows cm_cols cm_data]. intros i j Hi Hj.
  assert (P : 0 <= eps / (1 + eps)) by (apply Rmult_le_pos; [auto|left; apply Rinv_0_lt_compat; lra]).
  destruct i as [|[|i]]; [| |lia]; (destruct j as [|[|[|j]]]; [| | |lia]); cbn [Nat.mul Nat.add nth kronecker Nat.eqb];
    match goal with |- Rabs ?z <= _ => replace z with 0 by (unfold kronecker; simpl; lra) end; rewrite Rabs_R0; exact P.
Qed.

(** ** Reflexivity in binary64 *)
Definition nn (x : f64) : Prop := (is_finite x = true /\ 0 <= val x) \/ x = B754_infinity false.

Lemma overflow_inf (b : f64) : B2SF b = binary_overflow 53 1024 mode_NE false -> b = B754_infinity false.
Proof. destruct b; intros H; cbv in H; try discriminate. injection H as ->. reflexivity. Qed.

Lemma Bsign_neg (x : f64) : is_finite x = true -> 0 < val x -> Bsign x = false.
Proof.
  destruct x as [s| | |s m e B]; simpl; intros F H; try discriminate; try lra.
  destruct s; auto. exfalso. unfold F2R in H. simpl in H. assert (P := bpow_gt_0 radix2 e).
  assert (IZR (Zneg m) <= -1) by (apply IZR_le; lia). nra.
Qed.

Lemma nn_sq (x : f64) : is_finite x = true -> nn (nmul x x).
Proof.
  intros F. cbn [nmul F64Num]. generalize (Bmult_correct 53 1024 _ _ mode_NE x x). simpl round_mode.
  case Rlt_bool_spec; intros H.
  - intros (V & Fi & _). left. rewrite Fi, F, V. split; auto.
    apply round_ge_generic; auto with typeclass_instances; [apply generic_format_0|]. nra.
  - intros V. right. apply overflow_inf. rewrite V. destruct (Bsign x); reflexivity.
Qed.

Lemma nn_plus (a b : f64) : nn a -> nn b -> nn (nadd a b).
Proof.
  cbn [nadd F64Num]. intros [[Fa Va]| ->] [[Fb Vb]| ->].
  - generalize (Bplus_correct 53 1024 _ _ mode_NE a b Fa Fb). simpl round_mode. case Rlt_bool_spec; intros H.
    + intros (V & Fi & _). left. rewrite V. split; auto.
      apply round_ge_generic; auto with typeclass_instances; [apply generic_format_0|]. lra.
    + intros [V S]. right. apply overflow_inf. rewrite V. f_equal.
      destruct (Rle_lt_or_eq_dec _ _ Va) as [Pa|Pa]; [apply Bsign_neg; auto|].
      destruct (Rle_lt_or_eq_dec _ _ Vb) as [Pb|Pb]; [rewrite S; apply Bsign_neg; auto|].
      exfalso. rewrite <- Pa, <- Pb, Rplus_0_r, round_0, Rabs_R0 in H by auto with typeclass_instances.
      assert (P := bpow_gt_0 radix2 1024). lra.
  - right. destruct a; try discriminate; reflexivity.
  - right. destruct b; try discriminate; reflexivity.
  - right. reflexivity.
Qed.

Lemma nn_sum l : forall s, all_finite l -> nn s -> nn (fold_left (fun s x => nadd s (nmul x x)) l s).
Proof.
  induction l as [|x l IH]; intros s Hl Hs; auto. inversion Hl; subst. cbn [fold_left]. apply IH; auto.
  apply nn_plus; auto. apply nn_sq; auto.
Qed.

Lemma zero_sum l : forall s, (forall x, In x l -> is_finite x = true /\ val x = 0) -> is_finite s = true -> val s = 0 ->
  let r := fold_left (fun s x => nadd s (nmul x x)) l s in is_finite r = true /\ val r = 0.
Proof.
  assert (Z0 : 0 <= fmax64 + bpow radix2 969).
  { assert (A := big64). assert (B := bpow_gt_0 radix2 1000). assert (C := bpow_gt_0 radix2 969). lra. }
  induction l as [|x l IH]; intros s Hl Fs Vs; auto. cbn [fold_left]. destruct (Hl x (or_introl eq_refl)) as [Fx Vx].
  destruct (mult_ok x x Fx Fx) as [Fm Vm]; [rewrite Vx, Rmult_0_l, Rabs_R0; exact Z0|].
  rewrite Vx, Rmult_0_l, rnd64_id in Vm by apply generic_format_0.
  destruct (plus_ok s (x *! x) Fs Fm) as [Fp Vp]; [rewrite Vs, Vm, Rplus_0_l, Rabs_R0; exact Z0|].
  rewrite Vs, Vm, Rplus_0_l, rnd64_id in Vp by apply generic_format_0.
  apply IH; auto. intros y Hy. apply Hl. right. exact Hy.
Qed.

Lemma is_equal_double_lemma : forall bm (a : list f64) eps, all_finite a -> is_finite eps = true ->
  / 2 ^ 500 <= dvalue eps <= 2 ^ 500 -> is_equal bm a a eps = Ok true.
Proof.
  intros bm a eps Ha Fe He. unfold is_equal. rewrite Nat.eqb_refl. f_equal.
  change (dvalue eps) with (val eps) in He.
  assert (Z0 : 0 <= fmax64 + bpow radix2 969).
  { assert (A := big64). assert (B := bpow_gt_0 radix2 1000). assert (C := bpow_gt_0 radix2 969). lra. }
  assert (D : forall x, In x (coeff_sub a a) -> is_finite x = true /\ val x = 0).
  { intros x Hx. unfold coeff_sub in Hx. apply in_map_iff in Hx. destruct Hx as ([u v] & <- & Hp).
    assert (u = v /\ In u a).
    { clear - Hp. revert Hp. induction a as [|c a IH]; simpl; [tauto|]. intros [E|H]; [injection E as -> ->; auto|].
      destruct (IH H) as [-> ?]; auto. }
    destruct H as [-> Hin]. assert (Fv : is_finite v = true) by (apply (proj1 (Forall_forall _ _) Ha); auto).
    cbn [fst snd nsub F64Num]. destruct (minus_ok v v Fv Fv) as [Fm Vm]; [rewrite Rminus_diag_eq, Rabs_R0 by auto; exact Z0|].
    split; auto. rewrite Vm, Rminus_diag_eq, rnd64_id by (auto; apply generic_format_0). reflexivity. }
  assert (F0 : is_finite (f64_ofZ 0) = true) by reflexivity.
  assert (V0 : val (f64_ofZ 0) = 0) by reflexivity.
  destruct (zero_sum _ (f64_ofZ 0) D F0 V0) as [F1 V1].
  assert (N : nn (abs2_sum a)) by (apply nn_sum; auto; left; split; [reflexivity|right; reflexivity]).
  assert (M : mini (abs2_sum a) (abs2_sum a) = abs2_sum a) by (unfold mini; destruct (nlt _ _); auto).
  rewrite M.
  (* eps * eps is positive and finite *)
  assert (B5 : 2 ^ 500 = bpow radix2 500) by (rewrite bpow_powerRZ; reflexivity).
  assert (B5' : / 2 ^ 500 = bpow radix2 (-500)) by (rewrite B5; symmetry; apply (bpow_opp radix2 500)).
  rewrite B5 in He at 2. rewrite B5' in He. assert (P5 := bpow_gt_0 radix2 (-500)).
  assert (E2 : bpow radix2 (-1000) <= val eps * val eps <= bpow radix2 1000).
  { change (-1000)%Z with (-500 + -500)%Z. change 1000%Z with (500 + 500)%Z. rewrite !bpow_plus. split; apply Rmult_le_compat; lra. }
  destruct (mult_ok eps eps Fe Fe) as [F2 V2].
  { rewrite Rabs_pos_eq by nra. apply Rle_trans with (1 := proj2 E2). assert (A := big64). assert (C := bpow_gt_0 radix2 969). lra. }
  assert (P2 : 0 < val (eps *! eps)).
  { rewrite V2. apply Rlt_le_trans with (bpow radix2 (-1000)); [apply bpow_gt_0|].
    apply round_ge_generic; auto with typeclass_instances; [apply fmt64_bpow; lia|lra]. }
  set (q := eps *! eps) in *.
  assert (R : nn (q *! abs2_sum a)).
  { destruct N as [[Fn Vn]|En].
    - cbn [nmul F64Num]. generalize (Bmult_correct 53 1024 _ _ mode_NE q (abs2_sum a)). simpl round_mode.
      case Rlt_bool_spec; intros H.
      + intros (V & Fi & _). left. rewrite Fi, Fn, V. rewrite F2. split; auto.
        apply round_ge_generic; auto with typeclass_instances; [apply generic_format_0|]. apply Rmult_le_pos; lra.
      + intros V. right. apply overflow_inf. rewrite V. f_equal. rewrite (Bsign_neg q F2 P2).
        destruct (Rle_lt_or_eq_dec _ _ Vn) as [Pa|Pa]; [rewrite (Bsign_neg _ Fn Pa); reflexivity|].
        exfalso. rewrite <- Pa, Rmult_0_r, round_0, Rabs_R0 in H by auto with typeclass_instances.
        assert (P := bpow_gt_0 radix2 1024). lra.
    - rewrite En. right. cbn [nmul F64Num]. assert (S := Bsign_neg q F2 P2). unfold q in *. cbn [nmul F64Num] in *.
      destruct (Bmult mode_NE eps eps) as [s| | |s m e B]; try discriminate F2; simpl in *; [lra|rewrite S; reflexivity]. }
  change (nle ?x _) with (Bleb x (q *! abs2_sum a)). unfold abs2_sum at 1. set (r := fold_left _ (coeff_sub a a) _) in *.
  destruct R as [[Fr Vr]|Er].
  - rewrite Bleb_correct by auto. apply Rle_bool_true. change (val r) with (B2R r) in V1. rewrite V1. exact Vr.
  - rewrite Er. destruct r as [s| | |s m e B]; try discriminate F1; try (destruct s; reflexivity); reflexivity.
Qed.

(** A NaN or an infinity anywhere makes a vector different from itself. *)
Lemma nan_sum l : In (B754_nan : f64) l -> forall s, fold_left (fun s x => nadd s (nmul x x)) l s = (B754_nan : f64).
Proof.
  assert (N : forall l : list f64, fold_left (fun s x => nadd s (nmul x x)) l (B754_nan : f64) = B754_nan).
  { induction l0 as [|x l0 IH]; auto. }
  induction l as [|x l IH]; intros Hin s; [destruct Hin|]. cbn [fold_left]. destruct Hin as [->|Hin]; [|apply IH; auto].
  replace (nadd s (nmul B754_nan B754_nan)) with (B754_nan : f64); [apply N|]. destruct s; reflexivity.
Qed.

Lemma is_equal_nonfinite_lemma : forall bm (a : list f64) eps, ~ all_finite a -> is_equal bm a a eps = Ok false.
Proof.
  intros bm a eps Ha. unfold is_equal. rewrite Nat.eqb_refl. f_equal.
  assert (Hn : In (B754_nan : f64) (coeff_sub a a)).
  { unfold all_finite in Ha. clear bm eps. induction a as [|x a IH]; [exfalso; apply Ha; constructor|].
    destruct (is_finite x) eqn:E.
    - right. apply IH. intros H. apply Ha. constructor; auto.
    - left. destruct x as [s|s| |s m e B]; try discriminate E; try reflexivity. destruct s; reflexivity. }
  unfold abs2_sum at 1. rewrite nan_sum by exact Hn. reflexivity.
Qed.

(** Tolerance zero: the squared norm of 3*2^1022 overflows and 0 * inf is NaN. *)
Lemma is_equal_zero_tolerance_pf : exists a : list f64, all_finite a /\
  forall bm, is_equal bm a a (f64_ofZ 0) = Ok false.
Proof.
  exists [huge]. split; [constructor; [vm_compute; reflexivity|constructor]|]. intros bm. vm_compute. reflexivity.
Qed.

Lemma norm2_pair x y n : 0 <= n -> x ^ 2 + y ^ 2 = n ^ 2 -> norm2 [x; y] = n.
Proof.
  intros Hn H. unfold norm2. cbn [length bsum nth]. rewrite Rplus_0_l, H, <- Rsqr_pow2. apply sqrt_Rsqr; auto.
Qed.
