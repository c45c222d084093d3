(** C71, C72, C73, C91: rotations, quaternions and ZYX Euler angles. *)
From Coq Require Import Reals Lra.
From Verif Require Import Num NumFun M_Triangle M_Geometry S_Geometry L_Geometry.
Local Open Scope R_scope.

(** C71. *)
Theorem C71_euler_rotation : forall e, rotation (eulerAnglesZYXToRotationMatrix e).
Proof. exact euler_rotation_lemma. Qed.
Print Assumptions C71_euler_rotation.
Theorem C71_euler_product : forall e,
  eulerAnglesZYXToRotationMatrix e = mm (Rot_z (vz e)) (mm (Rot_y (vy e)) (Rot_x (vx e))).
Proof. exact euler_product_lemma. Qed.
Print Assumptions C71_euler_product.
Example C71_example : eulerAnglesZYXToRotationMatrix (mkV3 0 0 (PI / 2)) = mkM33 0 (-1) 0  1 0 0  0 0 1.
Proof. unfold eulerAnglesZYXToRotationMatrix. gcbn. rg. rewrite sin_0, cos_0, sin_PI2, cos_PI2. f_equal; lra. Qed.

(** C72. *)
Theorem C72_euler_unit : forall e, unit_quat (eulerAnglesZYXToQuaternion e).
Proof. exact euler_unit_lemma. Qed.
Print Assumptions C72_euler_unit.
Theorem C72_quaternion_rotation : forall q, unit_quat q -> rotation (quaternionToRotationMatrix q).
Proof. exact quat_rotation_lemma. Qed.
Print Assumptions C72_quaternion_rotation.
Theorem C72_quaternion_action : forall q v,
  qvec (mv (quaternionToRotationMatrix q) v) = qmul (qmul q (qvec v)) (qconj q).
Proof. exact quat_action_lemma. Qed.
Print Assumptions C72_quaternion_action.
Theorem C72_quaternion_product : forall a b,
  quaternionToRotationMatrix (qmul a b) = mm (quaternionToRotationMatrix a) (quaternionToRotationMatrix b).
Proof. exact quat_mul_lemma. Qed.
Print Assumptions C72_quaternion_product.
Theorem C72_quaternion_opposite : forall q, quaternionToRotationMatrix (qopp q) = quaternionToRotationMatrix q.
Proof. exact quat_opp_lemma. Qed.
Print Assumptions C72_quaternion_opposite.
Theorem C72_quaternion_only_opposite : forall a b, unit_quat a -> unit_quat b ->
  quaternionToRotationMatrix a = quaternionToRotationMatrix b -> a = b \/ a = qopp b.
Proof. exact quat_unique_lemma. Qed.
Print Assumptions C72_quaternion_only_opposite.
Theorem C72_euler_agree : forall e,
  quaternionToRotationMatrix (eulerAnglesZYXToQuaternion e) = eulerAnglesZYXToRotationMatrix e.
Proof. exact euler_agree_lemma. Qed.
Print Assumptions C72_euler_agree.
(** A third of a turn about (1,1,1). *)
Example C72_example : unit_quat (mkQ (1/2) (1/2) (1/2) (1/2)) /\
  quaternionToRotationMatrix (mkQ (1/2) (1/2) (1/2) (1/2)) = mkM33 0 0 1  1 0 0  0 1 0 /\
  quaternionToRotationMatrix (mkQ (-1/2) (-1/2) (-1/2) (-1/2)) = mkM33 0 0 1  1 0 0  0 1 0.
Proof. unfold unit_quat, quaternionToRotationMatrix. gcbn. rg. repeat split; try f_equal; lra. Qed.

(** C73. The angles come back... *)
Theorem C73_matrix_angles : forall e, principal e -> rotationMatrixToEulerAnglesZYX (eulerAnglesZYXToRotationMatrix e) = e.
Proof. exact matrix_angles_lemma. Qed.
Print Assumptions C73_matrix_angles.
Theorem C73_quaternion_angles : forall e, principal e -> quaternionToEulerAnglesZYX (eulerAnglesZYXToQuaternion e) = e.
Proof. exact quat_angles_lemma. Qed.
Print Assumptions C73_quaternion_angles.
(** ... and so does every matrix whose pitch is not a right angle. *)
Theorem C73_angles_matrix : forall m, rotation m -> r20 m <> 1 -> r20 m <> -1 ->
  eulerAnglesZYXToRotationMatrix (rotationMatrixToEulerAnglesZYX m) = m /\ principal (rotationMatrixToEulerAnglesZYX m).
Proof. exact angles_matrix_lemma. Qed.
Print Assumptions C73_angles_matrix.
(** At a right-angle pitch roll and yaw are both reported as 0, whatever the rotation. *)
Theorem C73_gimbal_lock_matrix : forall m, rotation m -> r20 m = 1 \/ r20 m = -1 ->
  rotationMatrixToEulerAnglesZYX m = mkV3 0 (- r20 m * (PI / 2)) 0.
Proof. exact gimbal_lemma. Qed.
Print Assumptions C73_gimbal_lock_matrix.
Theorem C73_gimbal_lock_quaternion : forall q, unit_quat q ->
  r20 (quaternionToRotationMatrix q) = 1 \/ r20 (quaternionToRotationMatrix q) = -1 ->
  quaternionToEulerAnglesZYX q = mkV3 0 (- r20 (quaternionToRotationMatrix q) * (PI / 2)) 0.
Proof. exact gimbal_quat_lemma. Qed.
Print Assumptions C73_gimbal_lock_quaternion.
(** So the matrix is not always recovered from its angles. *)
Theorem C73_every_matrix_refuted : exists m, rotation m /\
  eulerAnglesZYXToRotationMatrix (rotationMatrixToEulerAnglesZYX m) <> m.
Proof. exact gimbal_refuted_lemma. Qed.
Print Assumptions C73_every_matrix_refuted.
Example C73_example : principal (mkV3 (PI / 3) (- (PI / 4)) PI).
Proof. pose proof PI_RGT_0. unfold principal. gcbn. lra. Qed.
Example C73_example_matrix : rotation (mkM33 0 0 1  1 0 0  0 1 0) /\
  r20 (mkM33 0 0 1 1 0 0 0 1 0) <> 1 /\ r20 (mkM33 0 0 1 1 0 0 0 1 0) <> -1.
Proof. unfold rotation, mm, tr, id3, det3. gcbn. repeat split; try f_equal; lra. Qed.
Example C73_example_gimbal : rotation (mkM33 0 (-1) 0  0 0 1  (-1) 0 0) /\ r20 (mkM33 0 (-1) 0 0 0 1 (-1) 0 0) = -1.
Proof. unfold rotation, mm, tr, id3, det3. gcbn. repeat split; try f_equal; lra. Qed.

(** C91. *)
Theorem C91_matrix_to_quaternion : forall m, rotation m ->
  unit_quat (RotationMatrixToQuaternion m) /\ quaternionToRotationMatrix (RotationMatrixToQuaternion m) = m.
Proof. exact shoemake_lemma. Qed.
Print Assumptions C91_matrix_to_quaternion.
Theorem C91_quaternion_round_trip : forall q, unit_quat q ->
  RotationMatrixToQuaternion (quaternionToRotationMatrix q) = q \/
  RotationMatrixToQuaternion (quaternionToRotationMatrix q) = qopp q.
Proof. exact quat_roundtrip_lemma. Qed.
Print Assumptions C91_quaternion_round_trip.
(** A half turn about x: the trace is negative. *)
Example C91_example : rotation (mkM33 1 0 0  0 (-1) 0  0 0 (-1)) /\
  RotationMatrixToQuaternion (mkM33 1 0 0  0 (-1) 0  0 0 (-1)) = mkQ 0 1 0 0.
Proof.
  split.
  - unfold rotation, mm, tr, id3, det3. gcbn. repeat split; try f_equal; lra.
  - unfold RotationMatrixToQuaternion. gcbn. rg. replace (Rltb 0 (1 + -1 + -1)) with false by (symmetry; apply Rltb_false; lra).
    replace (Rltb 1 (-1)) with false by (symmetry; apply Rltb_false; lra). cbn iota.
    replace (1 - -1 - -1 + 1) with (2 * 2) by ring. rewrite sqrt_square by lra. f_equal; lra.
Qed.
