(** Proofs about Geometry.h, and facts about atan2. *)
From Coq Require Import List Arith ZArith Bool Reals Lra Lia.
From Verif Require Import Outcome Num NumFun L_Basics2 M_Triangle M_Geometry S_Geometry.
Local Open Scope R_scope.

Ltac rg := cbv [nlt nle neq nadd nsub nmul ndiv nneg nofZ nlit npi RNum RNum_at nsqrt ncos nsin nasin natan2 npow RNumTr].

(** ** atan2 *)
Lemma sin_cos_sq a : sin a * sin a + cos a * cos a = 1.
Proof. pose proof (sin2_cos2 a) as H. unfold Rsqr in H. exact H. Qed.

Lemma polar_inj a b : - PI < a <= PI -> - PI < b <= PI -> sin a = sin b -> cos a = cos b -> a = b.
Proof.
  intros Ha Hb S C.
  assert (W : forall u v, - PI < u <= PI -> - PI < v <= PI -> sin u = sin v -> cos u = cos v -> v <= u -> u = v).
  { clear. intros u v Hu Hv S C L.
    assert (H1 : cos (u - v) = 1) by (rewrite cos_minus, S, C; pose proof (sin_cos_sq v); lra).
    assert (H0 : sin (u - v) = 0) by (rewrite sin_minus, S, C; ring).
    destruct (Req_dec u v) as [|N]; [auto|exfalso].
    destruct (Rlt_le_dec (u - v) PI) as [L1|L1].
    - assert (0 < sin (u - v)) by (apply sin_gt_0; lra). lra.
    - destruct (Req_dec (u - v) PI) as [E|E].
      + rewrite E, cos_PI in H1. lra.
      + assert (sin (u - v) < 0) by (apply sin_lt_0; lra). lra. }
  destruct (Rle_dec b a) as [L|L]; [apply W; auto|symmetry; apply W; auto; lra].
Qed.

Lemma Ratan2_range y x : - PI < Ratan2 y x <= PI.
Proof.
  pose proof PI_RGT_0. unfold Ratan2. pose proof (atan_bound (y / x)) as B.
  repeat rcmp; try lra.
  - assert (y / x <= 0).
    { apply Rmult_le_reg_r with (- x); [lra|]. unfold Rdiv. replace (y * / x * - x) with (- y) by (field; lra). lra. }
    assert (atan (y / x) <= 0) by (rewrite <- atan_0; destruct (Req_dec (y / x) 0) as [->|]; [lra|left; apply atan_increasing; lra]).
    lra.
  - assert (0 < y / x).
    { replace (y / x) with ((- y) / (- x)) by (field; lra). apply Rdiv_lt_0_compat; lra. }
    assert (0 < atan (y / x)) by (rewrite <- atan_0; apply atan_increasing; lra).
    lra.
Qed.

Lemma hyp_pos x t : 0 < x -> sqrt (x * x + (t * x) * (t * x)) = x * sqrt (1 + Rsqr t).
Proof.
  intros H. unfold Rsqr. replace (x * x + (t * x) * (t * x)) with ((x * x) * (1 + t * t)) by ring.
  rewrite sqrt_mult; [|nra|nra]. rewrite sqrt_square; lra.
Qed.

Lemma Ratan2_spec y x :
  sqrt (x * x + y * y) * cos (Ratan2 y x) = x /\ sqrt (x * x + y * y) * sin (Ratan2 y x) = y.
Proof.
  unfold Ratan2.
  assert (P : forall t, 0 < sqrt (1 + Rsqr t)) by (intro t; apply sqrt_lt_R0; unfold Rsqr; nra).
  destruct (Rlt_le_dec 0 x) as [X|X].
  - rewrite (proj2 (Rltb_true _ _) X).
    set (t := y / x). assert (Y : y = t * x) by (unfold t; field; lra). clearbody t. subst y.
    rewrite hyp_pos by auto. rewrite cos_atan, sin_atan. specialize (P t). split; field; lra.
  - replace (Rltb 0 x) with false by (symmetry; apply Rltb_false; lra).
    destruct (Rlt_le_dec x 0) as [X'|X'].
    + rewrite (proj2 (Rltb_true _ _) X').
      set (t := y / x). assert (Y : y = t * x) by (unfold t; field; lra). clearbody t.
      assert (Hs : sqrt (x * x + y * y) = (- x) * sqrt (1 + Rsqr t)).
      { rewrite Y. rewrite <- hyp_pos by lra. f_equal. ring. }
      rewrite Hs.
      destruct (Rleb 0 y).
      * rewrite neg_cos, neg_sin, cos_atan, sin_atan. specialize (P t). rewrite Y. split; field; lra.
      * replace (atan t - PI) with (- (PI - atan t)) by ring.
        rewrite cos_neg, sin_neg, <- sin_PI_x.
        replace (PI - (PI - atan t)) with (atan t) by ring.
        rewrite cos_minus, cos_PI, sin_PI, cos_atan, sin_atan. specialize (P t). rewrite Y. split; field; lra.
    + assert (x = 0) by lra. subst x. replace (Rltb 0 0) with false by (symmetry; apply Rltb_false; lra).
      replace (0 * 0 + y * y) with (Rsqr y) by (unfold Rsqr; ring). rewrite sqrt_Rsqr_abs.
      repeat rcmp.
      * rewrite cos_PI2, sin_PI2, Rabs_right by lra. lra.
      * rewrite cos_neg, sin_neg, cos_PI2, sin_PI2, Rabs_left by lra. lra.
      * assert (y = 0) by lra. subst. rewrite Rabs_R0. lra.
Qed.

Lemma Ratan2_polar r a : 0 < r -> - PI < a <= PI -> Ratan2 (r * sin a) (r * cos a) = a.
Proof.
  intros Hr Ha. destruct (Ratan2_spec (r * sin a) (r * cos a)) as [C S].
  assert (E : sqrt (r * cos a * (r * cos a) + r * sin a * (r * sin a)) = r).
  { replace (r * cos a * (r * cos a) + r * sin a * (r * sin a)) with (r * r * (sin a * sin a + cos a * cos a)) by ring.
    rewrite sin_cos_sq, Rmult_1_r. apply sqrt_square. lra. }
  rewrite E in C, S. apply polar_inj; auto; [apply Ratan2_range| |]; eapply Rmult_eq_reg_l; eauto; lra.
Qed.

Lemma Rcpow_2 x : Rcpow x 2 = x * x.
Proof. change 2 with (INR 2). rewrite Rcpow_nat. ring. Qed.

(** ** Equality of records *)
Lemma mat3_eq (a b : mat3 R) :
  r00 a = r00 b -> r01 a = r01 b -> r02 a = r02 b -> r10 a = r10 b -> r11 a = r11 b -> r12 a = r12 b ->
  r20 a = r20 b -> r21 a = r21 b -> r22 a = r22 b -> a = b.
Proof. destruct a, b; cbn. congruence. Qed.
Lemma vec3_eq (a b : vec3 R) : vx a = vx b -> vy a = vy b -> vz a = vz b -> a = b.
Proof. destruct a, b; cbn. congruence. Qed.
Lemma quat_eq (a b : quat R) : qw a = qw b -> qx a = qx b -> qy a = qy b -> qz a = qz b -> a = b.
Proof. destruct a, b; cbn. congruence. Qed.

Ltac gcbn := cbn [r00 r01 r02 r10 r11 r12 r20 r21 r22 vx vy vz qw qx qy qz] in *.
Ltac gunf := unfold quaternionToEulerAnglesZYX, eulerAnglesZYXToQuaternion, rotationMatrixToEulerAnglesZYX,
  eulerAnglesZYXToRotationMatrix, quaternionToRotationMatrix, mm, mv, tr, id3, Rot_x, Rot_y, Rot_z, qmul, qconj, qopp, qvec, unit_quat in *.

(** ** Rotations: the cofactor matrix is the matrix itself *)
Definition cofs (m : mat3 R) : Prop :=
  r00 m = r11 m * r22 m - r12 m * r21 m /\ r01 m = r12 m * r20 m - r10 m * r22 m /\ r02 m = r10 m * r21 m - r11 m * r20 m /\
  r10 m = r02 m * r21 m - r01 m * r22 m /\ r11 m = r00 m * r22 m - r02 m * r20 m /\ r12 m = r01 m * r20 m - r00 m * r21 m /\
  r20 m = r01 m * r12 m - r02 m * r11 m /\ r21 m = r02 m * r10 m - r00 m * r12 m /\ r22 m = r00 m * r11 m - r01 m * r10 m.

Lemma cofs_of_left m : mm (tr m) m = id3 -> det3 m = 1 -> cofs m.
Proof.
  intros O D. destruct m as [a b c d e f g h i]. unfold mm, tr, id3, det3, cofs in *. gcbn.
  injection O as O1 O2 O3 O4 O5 O6 O7 O8 O9.
  set (det := a * (e * i - f * h) - b * (d * i - f * g) + c * (d * h - e * g)) in *.
  repeat split.
  - assert (E : a * det = (a * a + d * d + g * g) * (e * i - f * h) + (a * b + d * e + g * h) * (f * g - d * i) + (a * c + d * f + g * i) * (d * h - e * g)) by (unfold det; ring). rewrite D, O1, O2, O3 in E. lra.
  - assert (E : b * det = (b * a + e * d + h * g) * (e * i - f * h) + (b * b + e * e + h * h) * (f * g - d * i) + (b * c + e * f + h * i) * (d * h - e * g)) by (unfold det; ring). rewrite D, O4, O5, O6 in E. lra.
  - assert (E : c * det = (c * a + f * d + i * g) * (e * i - f * h) + (c * b + f * e + i * h) * (f * g - d * i) + (c * c + f * f + i * i) * (d * h - e * g)) by (unfold det; ring). rewrite D, O7, O8, O9 in E. lra.
  - assert (E : d * det = (a * a + d * d + g * g) * (c * h - b * i) + (a * b + d * e + g * h) * (a * i - c * g) + (a * c + d * f + g * i) * (b * g - a * h)) by (unfold det; ring). rewrite D, O1, O2, O3 in E. lra.
  - assert (E : e * det = (b * a + e * d + h * g) * (c * h - b * i) + (b * b + e * e + h * h) * (a * i - c * g) + (b * c + e * f + h * i) * (b * g - a * h)) by (unfold det; ring). rewrite D, O4, O5, O6 in E. lra.
  - assert (E : f * det = (c * a + f * d + i * g) * (c * h - b * i) + (c * b + f * e + i * h) * (a * i - c * g) + (c * c + f * f + i * i) * (b * g - a * h)) by (unfold det; ring). rewrite D, O7, O8, O9 in E. lra.
  - assert (E : g * det = (a * a + d * d + g * g) * (b * f - c * e) + (a * b + d * e + g * h) * (c * d - a * f) + (a * c + d * f + g * i) * (a * e - b * d)) by (unfold det; ring). rewrite D, O1, O2, O3 in E. lra.
  - assert (E : h * det = (b * a + e * d + h * g) * (b * f - c * e) + (b * b + e * e + h * h) * (c * d - a * f) + (b * c + e * f + h * i) * (a * e - b * d)) by (unfold det; ring). rewrite D, O4, O5, O6 in E. lra.
  - assert (E : i * det = (c * a + f * d + i * g) * (b * f - c * e) + (c * b + f * e + i * h) * (c * d - a * f) + (c * c + f * f + i * i) * (a * e - b * d)) by (unfold det; ring). rewrite D, O7, O8, O9 in E. lra.
Qed.

Lemma rotation_of_left m : mm (tr m) m = id3 -> det3 m = 1 -> rotation m.
Proof.
  intros O D. split; [exact O|]. split; [|exact D]. pose proof (cofs_of_left m O D) as C.
  destruct m as [a b c d e f g h i]. unfold mm, tr, id3, det3, cofs in *. gcbn.
  destruct C as (C1 & C2 & C3 & C4 & C5 & C6 & C7 & C8 & C9).
  apply mat3_eq; gcbn.
  - transitivity (a * (e * i - f * h) + b * (f * g - d * i) + c * (d * h - e * g)). { apply f_equal2; [apply f_equal2|]; apply f_equal; assumption. } rewrite <- D; ring.
  - transitivity (a * (c * h - b * i) + b * (a * i - c * g) + c * (b * g - a * h)). { apply f_equal2; [apply f_equal2|]; apply f_equal; assumption. } ring.
  - transitivity (a * (b * f - c * e) + b * (c * d - a * f) + c * (a * e - b * d)). { apply f_equal2; [apply f_equal2|]; apply f_equal; assumption. } ring.
  - transitivity (d * (e * i - f * h) + e * (f * g - d * i) + f * (d * h - e * g)). { apply f_equal2; [apply f_equal2|]; apply f_equal; assumption. } ring.
  - transitivity (d * (c * h - b * i) + e * (a * i - c * g) + f * (b * g - a * h)). { apply f_equal2; [apply f_equal2|]; apply f_equal; assumption. } rewrite <- D; ring.
  - transitivity (d * (b * f - c * e) + e * (c * d - a * f) + f * (a * e - b * d)). { apply f_equal2; [apply f_equal2|]; apply f_equal; assumption. } ring.
  - transitivity (g * (e * i - f * h) + h * (f * g - d * i) + i * (d * h - e * g)). { apply f_equal2; [apply f_equal2|]; apply f_equal; assumption. } ring.
  - transitivity (g * (c * h - b * i) + h * (a * i - c * g) + i * (b * g - a * h)). { apply f_equal2; [apply f_equal2|]; apply f_equal; assumption. } ring.
  - transitivity (g * (b * f - c * e) + h * (c * d - a * f) + i * (a * e - b * d)). { apply f_equal2; [apply f_equal2|]; apply f_equal; assumption. } rewrite <- D; ring.
Qed.

(** ** C71 *)
Lemma euler_product_lemma e :
  eulerAnglesZYXToRotationMatrix e = mm (Rot_z (vz e)) (mm (Rot_y (vy e)) (Rot_x (vx e))).
Proof. gunf. apply mat3_eq; gcbn; rg; ring. Qed.

Lemma euler_rotation_lemma e : rotation (eulerAnglesZYXToRotationMatrix e).
Proof.
  pose proof (sin_cos_sq (vx e)) as Hr. pose proof (sin_cos_sq (vy e)) as Hp. pose proof (sin_cos_sq (vz e)) as Hy.
  apply rotation_of_left.
  - gunf. rg. revert Hr Hp Hy.
    generalize (sin (vx e)) (cos (vx e)) (sin (vy e)) (cos (vy e)) (sin (vz e)) (cos (vz e)). intros sr cr sp cp sy cy Hr Hp Hy.
    apply mat3_eq; gcbn.
    + transitivity (cp * cp * (sy * sy + cy * cy) + sp * sp); [ring|]. rewrite Hy. lra.
    + transitivity (cp * sp * sr * (sy * sy + cy * cy) - sp * cp * sr); [ring|]. rewrite Hy. ring.
    + transitivity (cp * sp * cr * (sy * sy + cy * cy) - sp * cp * cr); [ring|]. rewrite Hy. ring.
    + transitivity (cp * sp * sr * (sy * sy + cy * cy) - sp * cp * sr); [ring|]. rewrite Hy. ring.
    + transitivity ((sp * sp * sr * sr + cr * cr) * (sy * sy + cy * cy) + cp * cp * sr * sr); [ring|]. rewrite Hy.
      transitivity ((sp * sp + cp * cp) * (sr * sr) + cr * cr); [ring|]. rewrite Hp. lra.
    + transitivity ((sp * sp * sr * cr - cr * sr) * (sy * sy + cy * cy) + cp * cp * sr * cr); [ring|]. rewrite Hy.
      transitivity ((sp * sp + cp * cp) * (sr * cr) - cr * sr); [ring|]. rewrite Hp. ring.
    + transitivity (cp * sp * cr * (sy * sy + cy * cy) - sp * cp * cr); [ring|]. rewrite Hy. ring.
    + transitivity ((sp * sp * sr * cr - cr * sr) * (sy * sy + cy * cy) + cp * cp * sr * cr); [ring|]. rewrite Hy.
      transitivity ((sp * sp + cp * cp) * (sr * cr) - cr * sr); [ring|]. rewrite Hp. ring.
    + transitivity ((sp * sp * cr * cr + sr * sr) * (sy * sy + cy * cy) + cp * cp * cr * cr); [ring|]. rewrite Hy.
      transitivity ((sp * sp + cp * cp) * (cr * cr) + sr * sr); [ring|]. rewrite Hp. lra.
  - gunf. unfold det3. gcbn. rg. revert Hr Hp Hy.
    generalize (sin (vx e)) (cos (vx e)) (sin (vy e)) (cos (vy e)) (sin (vz e)) (cos (vz e)). intros sr cr sp cp sy cy Hr Hp Hy.
    transitivity ((sy * sy + cy * cy) * (sp * sp + cp * cp) * (sr * sr + cr * cr)); [ring|]. rewrite Hr, Hp, Hy. ring.
Qed.

(** ** C72 *)
Lemma euler_unit_lemma e : unit_quat (eulerAnglesZYXToQuaternion e).
Proof.
  gunf. gcbn. rg.
  pose proof (sin_cos_sq (vx e / 2)) as Hr. pose proof (sin_cos_sq (vy e / 2)) as Hp. pose proof (sin_cos_sq (vz e / 2)) as Hy.
  revert Hr Hp Hy.
  generalize (sin (vx e / 2)) (cos (vx e / 2)) (sin (vy e / 2)) (cos (vy e / 2)) (sin (vz e / 2)) (cos (vz e / 2)).
  intros sr cr sp cp sy cy Hr Hp Hy.
  transitivity ((sy * sy + cy * cy) * (sp * sp + cp * cp) * (sr * sr + cr * cr)); [ring|]. rewrite Hr, Hp, Hy. ring.
Qed.

Lemma quat_rotation_lemma q : unit_quat q -> rotation (quaternionToRotationMatrix q).
Proof.
  intros U. unfold unit_quat in U. destruct q as [w x y z]. gcbn. set (N := w * w + x * x + y * y + z * z) in *.
  apply rotation_of_left.
  - gunf. rg. apply mat3_eq; gcbn;
    ((transitivity (N * N); [unfold N; ring|rewrite U; ring]) || ring).
  - gunf. unfold det3. gcbn. rg. transitivity (N * N * N); [unfold N; ring|rewrite U; ring].
Qed.

Lemma quat_action_lemma q v :
  qvec (mv (quaternionToRotationMatrix q) v) = qmul (qmul q (qvec v)) (qconj q).
Proof. destruct q as [w x y z], v as [a b c]. gunf. apply quat_eq; gcbn; rg; ring. Qed.

Lemma quat_mul_lemma a b :
  quaternionToRotationMatrix (qmul a b) = mm (quaternionToRotationMatrix a) (quaternionToRotationMatrix b).
Proof. destruct a as [a0 a1 a2 a3], b as [b0 b1 b2 b3]. gunf. apply mat3_eq; gcbn; rg; ring. Qed.

Lemma quat_opp_lemma q : quaternionToRotationMatrix (qopp q) = quaternionToRotationMatrix q.
Proof. destruct q as [w x y z]. gunf. apply mat3_eq; gcbn; rg; ring. Qed.

Lemma half_double a : sin a = 2 * sin (a / 2) * cos (a / 2) /\ cos a = cos (a / 2) * cos (a / 2) - sin (a / 2) * sin (a / 2).
Proof.
  split.
  - rewrite <- sin_2a. f_equal. field.
  - rewrite <- cos_2a. f_equal. field.
Qed.

Lemma euler_agree_lemma e :
  quaternionToRotationMatrix (eulerAnglesZYXToQuaternion e) = eulerAnglesZYXToRotationMatrix e.
Proof.
  gunf. gcbn. rg.
  destruct (half_double (vx e)) as [Sr Cr], (half_double (vy e)) as [Sp Cp], (half_double (vz e)) as [Sy Cy].
  rewrite Sr, Cr, Sp, Cp, Sy, Cy. clear Sr Cr Sp Cp Sy Cy.
  pose proof (sin_cos_sq (vx e / 2)) as Hr. pose proof (sin_cos_sq (vy e / 2)) as Hp. pose proof (sin_cos_sq (vz e / 2)) as Hy.
  revert Hr Hp Hy.
  generalize (sin (vx e / 2)) (cos (vx e / 2)) (sin (vy e / 2)) (cos (vy e / 2)) (sin (vz e / 2)) (cos (vz e / 2)).
  intros sr cr sp cp sy cy Hr Hp Hy.
  assert (A : sr * sr = 1 - cr * cr) by lra. assert (B : sp * sp = 1 - cp * cp) by lra. assert (C : sy * sy = 1 - cy * cy) by lra.
  clear Hr Hp Hy. apply mat3_eq; gcbn; ring [A B C].
Qed.

(** A rotation matrix has exactly two unit quaternions. *)
Lemma quat_unique_lemma a b : unit_quat a -> unit_quat b ->
  quaternionToRotationMatrix a = quaternionToRotationMatrix b -> a = b \/ a = qopp b.
Proof.
  intros Ua Ub E. destruct a as [w x y z], b as [w' x' y' z']. gunf. gcbn. rg.
  injection E as E0 E1 E2 E3 E4 E5 E6 E7 E8.
  revert E0 E1 E2 E3 E4 E5 E6 E7 E8. rg. intros E0 E1 E2 E3 E4 E5 E6 E7 E8.
  (* all products of two coefficients agree *)
  assert (ww : w * w = w' * w') by lra. assert (xx : x * x = x' * x') by lra.
  assert (yy : y * y = y' * y') by lra. assert (zz : z * z = z' * z') by lra.
  assert (wx : w * x = w' * x') by lra. assert (wy : w * y = w' * y') by lra. assert (wz : w * z = w' * z') by lra.
  assert (xy : x * y = x' * y') by lra. assert (xz : x * z = x' * z') by lra. assert (yz : y * z = y' * z') by lra.
  assert (K : forall p p' o o', p * p = p' * p' -> p * o = p' * o' -> p <> 0 -> (p = p' -> o = o') /\ (p = - p' -> o = - o')).
  { clear. intros p p' o o' H1 H2 N. split; intros ->; [|assert (p' <> 0) by (intros ->; lra)];
      apply Rmult_eq_reg_l with p'; auto; lra. }
  assert (SQ : forall p p', p * p = p' * p' -> p = p' \/ p = - p').
  { clear. intros p p' H. assert ((p - p') * (p + p') = 0) by lra. apply Rmult_integral in H0. lra. }
  destruct (Req_dec w 0) as [W|W]; [destruct (Req_dec x 0) as [X|X]; [destruct (Req_dec y 0) as [Y|Y]|]|].
  - assert (w' = 0) by nra. assert (x' = 0) by nra. assert (y' = 0) by nra. subst.
    destruct (SQ _ _ zz) as [->| ->]; [left|right]; f_equal; lra.
  - destruct (K y y' w w'), (K y y' x x'), (K y y' z z'); auto; try lra.
    destruct (SQ _ _ yy) as [q|q]; [left|right]; f_equal; auto.
  - destruct (K x x' w w'), (K x x' y y'), (K x x' z z'); auto; try lra.
    destruct (SQ _ _ xx) as [q|q]; [left|right]; f_equal; auto.
  - destruct (K w w' x x'), (K w w' y y'), (K w w' z z'); auto; try lra.
    destruct (SQ _ _ ww) as [q|q]; [left|right]; f_equal; auto.
Qed.

(** ** C73 *)
Lemma matrix_angles_lemma e : principal e -> rotationMatrixToEulerAnglesZYX (eulerAnglesZYXToRotationMatrix e) = e.
Proof.
  intros (Hr & Hp & Hy). assert (P : 0 < cos (vy e)) by (apply cos_gt_0; lra).
  apply vec3_eq; gunf; gcbn; rg.
  - apply Ratan2_polar; auto.
  - rewrite !Rcpow_2.
    replace (_ + _) with (cos (vy e) * cos (vy e) * (sin (vx e) * sin (vx e) + cos (vx e) * cos (vx e))) by ring.
    rewrite sin_cos_sq, Rmult_1_r, sqrt_square by lra. rewrite <- sin_neg, <- (cos_neg (vy e)).
    replace (sin (- vy e)) with (1 * sin (- vy e)) by ring. replace (cos (- vy e)) with (1 * cos (- vy e)) by ring.
    rewrite Ratan2_polar; [ring|lra|lra].
  - rewrite (Rmult_comm (sin (vz e))), (Rmult_comm (cos (vz e))). apply Ratan2_polar; auto.
Qed.

Lemma quat_angles_of_matrix q : unit_quat q ->
  vx (quaternionToEulerAnglesZYX q) = vx (rotationMatrixToEulerAnglesZYX (quaternionToRotationMatrix q)) /\
  vz (quaternionToEulerAnglesZYX q) = vz (rotationMatrixToEulerAnglesZYX (quaternionToRotationMatrix q)).
Proof. intros _. split; reflexivity. Qed.

Lemma quat_angles_lemma e : principal e -> quaternionToEulerAnglesZYX (eulerAnglesZYXToQuaternion e) = e.
Proof.
  intros He. pose proof (matrix_angles_lemma e He) as M. pose proof (euler_agree_lemma e) as A.
  destruct (quat_angles_of_matrix _ (euler_unit_lemma e)) as [X Z]. rewrite A, M in X, Z.
  apply vec3_eq; auto.
  assert (B : r20 (quaternionToRotationMatrix (eulerAnglesZYXToQuaternion e)) = - sin (vy e)) by (rewrite A; reflexivity).
  unfold quaternionToEulerAnglesZYX. gcbn. cbn [r20 quaternionToRotationMatrix] in B. cbv [nneg nasin RNum RNumTr RNum_at] in *.
  destruct He as (_ & Hp & _).
  rewrite B, <- sin_neg, asin_sin by lra. lra.
Qed.

(** The angles of a rotation matrix reproduce the matrix unless the pitch is a right angle. *)
Lemma row_col_norms m : rotation m ->
  r20 m * r20 m + r21 m * r21 m + r22 m * r22 m = 1 /\ r00 m * r00 m + r10 m * r10 m + r20 m * r20 m = 1.
Proof.
  intros (O & O' & _). unfold mm, tr, id3 in *. gcbn. injection O as O1 _ _ _ _ _ _ _ _. injection O' as _ _ _ _ _ _ _ _ O9. lra.
Qed.

Lemma angles_matrix_lemma m : rotation m -> r20 m <> 1 -> r20 m <> -1 ->
  eulerAnglesZYXToRotationMatrix (rotationMatrixToEulerAnglesZYX m) = m /\ principal (rotationMatrixToEulerAnglesZYX m).
Proof.
  intros M N1 N2. destruct (row_col_norms m M) as [Row Col].
  pose proof M as (O & O' & D). pose proof (cofs_of_left m O D) as C.
  destruct m as [a b c d e f g h i]. unfold cofs in C. unfold mm, tr, id3, principal in *. gunf. gcbn. rg.
  injection O as O1 O2 O3 O4 O5 O6 O7 O8 O9. injection O' as P1 P2 P3 P4 P5 P6 P7 P8 P9.
  destruct C as (C1 & C2 & C3 & C4 & C5 & C6 & C7 & C8 & C9).
  assert (G : 0 < 1 - g * g).
  { assert (g * g <= 1) by nra. destruct (Req_dec (g * g) 1) as [E|E]; [|lra].
    assert ((g - 1) * (g + 1) = 0) by lra. apply Rmult_integral in H0. lra. }
  rewrite !Rcpow_2.
  destruct (Ratan2_spec h i) as [Cr Sr]. destruct (Ratan2_spec d a) as [Cy Sy].
  destruct (Ratan2_spec g (sqrt (h * h + i * i))) as [Cp Sp].
  pose proof (Ratan2_range h i) as Rr. pose proof (Ratan2_range d a) as Ry.
  replace (h * h + i * i) with (1 - g * g) in * by lra.
  replace (i * i + h * h) with (1 - g * g) in * by lra. replace (a * a + d * d) with (1 - g * g) in * by lra.
  set (k := sqrt (1 - g * g)) in *. assert (Kp : 0 < k) by (apply sqrt_lt_R0; lra).
  assert (K2 : k * k = 1 - g * g) by (apply sqrt_sqrt; lra).
  rewrite K2 in Cp, Sp. replace (1 - g * g + g * g) with 1 in Cp, Sp by ring. rewrite sqrt_1 in Cp, Sp.
  assert (Rp : - (PI / 2) < - Ratan2 g k < PI / 2).
  { unfold Ratan2. rewrite (proj2 (Rltb_true _ _) Kp). pose proof (atan_bound (g / k)). lra. }
  split; [|auto].
  rewrite sin_neg, cos_neg.
  assert (sr : sin (Ratan2 h i) = h / k) by (apply Rmult_eq_reg_l with k; [rewrite Sr; field|]; lra).
  assert (cr : cos (Ratan2 h i) = i / k) by (apply Rmult_eq_reg_l with k; [rewrite Cr; field|]; lra).
  assert (sy : sin (Ratan2 d a) = d / k) by (apply Rmult_eq_reg_l with k; [rewrite Sy; field|]; lra).
  assert (cy : cos (Ratan2 d a) = a / k) by (apply Rmult_eq_reg_l with k; [rewrite Cy; field|]; lra).
  assert (sp : sin (Ratan2 g k) = g) by lra. assert (cp : cos (Ratan2 g k) = k) by lra.
  rewrite sr, cr, sy, cy, sp, cp. clear Sr Cr Sy Cy Sp Cp sr cr sy cy sp cp Rr Ry Rp.
  assert (KK : forall u v, v * (1 - g * g) = u -> u / (k * k) = v).
  { intros u v <-. rewrite K2. field. lra. }
  f_equal; try (field; lra); try ring.
  - transitivity ((- a * g * h - d * i) / (k * k)); [field; lra|]. apply KK.
    transitivity (a * (a * b) + d * (d * b)); [replace (1 - g * g) with (a * a + d * d) by lra; ring|].
    replace (a * b) with (- d * e - g * h) by lra. rewrite C9. ring.
  - transitivity ((- a * g * i + d * h) / (k * k)); [field; lra|]. apply KK.
    transitivity (a * (a * c) + d * (d * c)); [replace (1 - g * g) with (a * a + d * d) by lra; ring|].
    replace (a * c) with (- d * f - g * i) by lra. rewrite C8. ring.
  - transitivity ((- d * g * h + a * i) / (k * k)); [field; lra|]. apply KK.
    transitivity (a * (a * e) + d * (d * e)); [replace (1 - g * g) with (a * a + d * d) by lra; ring|].
    replace (d * e) with (- a * b - g * h) by lra. rewrite C9. ring.
  - transitivity ((- d * g * i - a * h) / (k * k)); [field; lra|]. apply KK.
    transitivity (a * (a * f) + d * (d * f)); [replace (1 - g * g) with (a * a + d * d) by lra; ring|].
    replace (d * f) with (- a * c - g * i) by lra. rewrite C8. ring.
Qed.

(** Gimbal lock: roll and yaw are both reported as zero. *)
Lemma gimbal_lemma m : rotation m -> r20 m = 1 \/ r20 m = -1 ->
  rotationMatrixToEulerAnglesZYX m = mkV3 0 (- r20 m * (PI / 2)) 0.
Proof.
  intros M H. destruct (row_col_norms m M) as [Row Col].
  assert (Z : r20 m * r20 m = 1) by (destruct H as [->| ->]; lra).
  assert (r21 m = 0) by nra. assert (r22 m = 0) by nra. assert (r00 m = 0) by nra. assert (r10 m = 0) by nra.
  unfold rotationMatrixToEulerAnglesZYX. rg. rewrite !Rcpow_2. rewrite H0, H1, H2, H3.
  replace (0 * 0 + 0 * 0) with 0 by ring. rewrite sqrt_0.
  unfold Ratan2. destruct H as [->| ->]; f_equal; repeat rcmp; lra.
Qed.

Lemma gimbal_quat_lemma q : unit_quat q ->
  r20 (quaternionToRotationMatrix q) = 1 \/ r20 (quaternionToRotationMatrix q) = -1 ->
  quaternionToEulerAnglesZYX q = mkV3 0 (- r20 (quaternionToRotationMatrix q) * (PI / 2)) 0.
Proof.
  intros U H. pose proof (gimbal_lemma _ (quat_rotation_lemma q U) H) as G.
  destruct (quat_angles_of_matrix q U) as [X Z]. rewrite G in X, Z. apply vec3_eq; auto.
  clear G X Z. unfold quaternionToEulerAnglesZYX. gcbn. cbn [r20 quaternionToRotationMatrix] in *.
  revert H. generalize (nofZ 2 * qx q * qz q - nofZ 2 * qw q * qy q)%num. intros s H. rg.
  destruct H as [->| ->].
  - rewrite asin_1. lra.
  - replace (-1) with (- (1)) by lra. rewrite asin_opp, asin_1. lra.
Qed.

(** ** RotationMatrixToQuaternion *)
Lemma shoemake_lemma m : rotation m ->
  unit_quat (RotationMatrixToQuaternion m) /\ quaternionToRotationMatrix (RotationMatrixToQuaternion m) = m.
Proof.
  intros M. pose proof M as (O & O' & D). pose proof (cofs_of_left m O D) as C.
  destruct m as [a b c d e f g h i]. unfold cofs in C. unfold mm, tr, id3 in *. gcbn.
  injection O as O1 O2 O3 O4 O5 O6 O7 O8 O9. injection O' as P1 P2 P3 P4 P5 P6 P7 P8 P9.
  destruct C as (C1 & C2 & C3 & C4 & C5 & C6 & C7 & C8 & C9).
  (* q q^T, times four *)
  assert (G : forall w x y z, 4 * (w * w) = 1 + a + e + i -> 4 * (x * x) = 1 + a - e - i -> 4 * (y * y) = 1 - a + e - i ->
    4 * (z * z) = 1 - a - e + i -> 4 * (w * x) = h - f -> 4 * (w * y) = c - g -> 4 * (w * z) = d - b ->
    4 * (x * y) = b + d -> 4 * (x * z) = c + g -> 4 * (y * z) = f + h ->
    unit_quat (mkQ w x y z) /\ quaternionToRotationMatrix (mkQ w x y z) = mkM33 a b c d e f g h i).
  { intros. split; [unfold unit_quat; gcbn; lra|]. gunf. gcbn. rg. f_equal; lra. }
  assert (S : forall s u v, 0 < s -> 4 * ((u * (1 / 2 / sqrt s)) * (v * (1 / 2 / sqrt s))) = u * v / s).
  { clear. intros s u v H. assert (0 < sqrt s) by (apply sqrt_lt_R0; auto). pose proof (sqrt_sqrt s) as E.
    rewrite <- (sqrt_sqrt s) at 3 by lra. field. lra. }
  assert (S2 : forall s u, 0 < s -> 4 * ((1 / 2 * sqrt s) * (u * (1 / 2 / sqrt s))) = u).
  { clear. intros s u H. assert (0 < sqrt s) by (apply sqrt_lt_R0; auto). field. lra. }
  assert (S3 : forall s, 0 < s -> 4 * ((1 / 2 * sqrt s) * (1 / 2 * sqrt s)) = s).
  { clear. intros s H. rewrite <- (sqrt_sqrt s) at 3 by lra. field. }
  assert (DV : forall s u v, 0 < s -> u = v * s -> u / s = v) by (clear; intros s u v H ->; field; lra).
  unfold RotationMatrixToQuaternion. gcbn. rg.
  destruct (Rltb 0 (a + e + i)) eqn:T0.
  - apply Rltb_true in T0. assert (0 < a + e + i + 1) by lra.
    apply G; rewrite ?(Rmult_comm (_ * (1 / 2 / _)) (1 / 2 * _)), ?S3, ?S2, ?S by auto; try lra; apply DV; auto; lra.
  - apply Rltb_false in T0. destruct (Rltb a e) eqn:T1; [destruct (Rltb e i) eqn:T2|destruct (Rltb a i) eqn:T2];
      rewrite ?Rltb_true, ?Rltb_false in *.
    + assert (0 < i - a - e + 1) by lra.
      apply G; rewrite ?(Rmult_comm (_ * (1 / 2 / _)) (1 / 2 * _)), ?S3, ?S2, ?S by auto; try lra; apply DV; auto; lra.
    + assert (0 < e - i - a + 1) by lra.
      apply G; rewrite ?(Rmult_comm (_ * (1 / 2 / _)) (1 / 2 * _)), ?S3, ?S2, ?S by auto; try lra; apply DV; auto; lra.
    + assert (0 < i - a - e + 1) by lra.
      apply G; rewrite ?(Rmult_comm (_ * (1 / 2 / _)) (1 / 2 * _)), ?S3, ?S2, ?S by auto; try lra; apply DV; auto; lra.
    + assert (0 < a - e - i + 1) by lra.
      apply G; rewrite ?(Rmult_comm (_ * (1 / 2 / _)) (1 / 2 * _)), ?S3, ?S2, ?S by auto; try lra; apply DV; auto; lra.
Qed.

Lemma quat_roundtrip_lemma q : unit_quat q ->
  RotationMatrixToQuaternion (quaternionToRotationMatrix q) = q \/
  RotationMatrixToQuaternion (quaternionToRotationMatrix q) = qopp q.
Proof.
  intros U. destruct (shoemake_lemma _ (quat_rotation_lemma q U)) as [V E]. apply quat_unique_lemma; auto.
Qed.

Lemma gimbal_refuted_lemma : exists m, rotation m /\
  eulerAnglesZYXToRotationMatrix (rotationMatrixToEulerAnglesZYX m) <> m.
Proof.
  exists (mkM33 0 (-1) 0  0 0 1  (-1) 0 0).
  assert (M : rotation (mkM33 0 (-1) 0 0 0 1 (-1) 0 0)).
  { unfold rotation, mm, tr, id3, det3. gcbn. repeat split; try f_equal; ring. }
  split; [exact M|]. rewrite (gimbal_lemma _ M) by (right; reflexivity). gcbn.
  unfold eulerAnglesZYXToRotationMatrix. gcbn. rg. intros E. injection E. intros _ _ _ _ E1 _ _ _ _. revert E1.
  rewrite sin_0, cos_0. lra.
Qed.
