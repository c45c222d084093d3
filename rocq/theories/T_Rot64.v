(** Rotations and projections between frames in double, with the error of the
    sine and cosine of the library as the only unknown ([libm_near]). *)
From Coq Require Import List Arith ZArith Reals Lia Lra.
From Flocq Require Import Core.Core IEEE754.BinarySingleNaN.
From Verif Require Import Num NumFun F64 M_Basics M_Triangle M_Geometry M_Vec S_Vec S_Geometry S_Angles S_Double S_Rot64 L_F64 L_Special64 L_Rot64.
Import ListNotations.
Local Open Scope R_scope.

(** The matrix of the Euler angles is Rz(yaw) Ry(pitch) Rx(roll) of the very
    doubles passed in, each entry within a few roundings. *)
Theorem C117_euler_matrix_double : forall kappa (TT : NumTr f64), libm_near kappa TT -> 0 <= kappa <= 1000 ->
  forall e : vec3 f64, finite3 e ->
  mat_within ((6 * kappa + 7) * uround) (eulerAnglesZYXToRotationMatrix e)
    (mm (Rot_z (dvalue (vz e))) (mm (Rot_y (dvalue (vy e))) (Rot_x (dvalue (vx e))))).
Proof. exact euler_matrix_double_lemma. Qed.
Print Assumptions C117_euler_matrix_double.

(** It is orthogonal, with determinant 1, within that error. *)
Theorem C117_euler_orthogonal_double : forall kappa (TT : NumTr f64), libm_near kappa TT -> 0 <= kappa <= 1000 ->
  forall e : vec3 f64, finite3 e ->
  let M := dmat (eulerAnglesZYXToRotationMatrix e) in let d := (6 * kappa + 7) * uround in
  mat_close (7 * d) (mm (tr M) M) id3 /\ mat_close (7 * d) (mm M (tr M)) id3 /\ Rabs (det3 M - 1) <= 19 * d.
Proof. exact euler_orthogonal_lemma. Qed.
Print Assumptions C117_euler_orthogonal_double.

(** The quaternion of the Euler angles is near a unit quaternion that turns
    every vector like the three elementary rotations. *)
Theorem C117_euler_quaternion_double : forall kappa (TT : NumTr f64), libm_near kappa TT -> 0 <= kappa <= 1000 ->
  forall e : vec3 f64, finite3 e ->
  exists r : quat R, unit_quat r /\ quat_within ((6 * kappa + 7) * uround) (eulerAnglesZYXToQuaternion e) r /\
    (forall v, qvec (mv (mm (Rot_z (dvalue (vz e))) (mm (Rot_y (dvalue (vy e))) (Rot_x (dvalue (vx e))))) v) = qmul (qmul r (qvec v)) (qconj r)) /\
    Rabs (qnorm2 (dquat (eulerAnglesZYXToQuaternion e)) - 1) <= 9 * ((6 * kappa + 7) * uround).
Proof. exact euler_quaternion_lemma. Qed.
Print Assumptions C117_euler_quaternion_double.

(** The matrix of a quaternion, unit or not, is that of v -> q v q* within 17
    roundings of the square of the largest coefficient: no library involved. *)
Theorem C117_quaternion_matrix_double : forall (q : quat f64) M, bpow radix2 (-400) <= M <= bpow radix2 400 ->
  Forall (fun x => is_finite x = true /\ Rabs (dvalue x) <= M) (qparts q) ->
  exists r : mat3 R, (forall v, qvec (mv r v) = qmul (qmul (dquat q) (qvec v)) (qconj (dquat q))) /\
    mat_within (17 * uround * (M * M)) (quaternionToRotationMatrix q) r.
Proof. exact quaternion_matrix_lemma. Qed.
Print Assumptions C117_quaternion_matrix_double.

(** The two ways from Euler angles to a matrix agree. *)
Theorem C117_quaternion_matrix_euler_double : forall kappa (TT : NumTr f64), libm_near kappa TT -> 0 <= kappa <= 1000 ->
  forall e : vec3 f64, finite3 e ->
  mat_within ((48 * kappa + 73) * uround) (quaternionToRotationMatrix (eulerAnglesZYXToQuaternion e))
    (mm (Rot_z (dvalue (vz e))) (mm (Rot_y (dvalue (vy e))) (Rot_x (dvalue (vx e))))).
Proof. exact quaternion_matrix_euler_lemma. Qed.
Print Assumptions C117_quaternion_matrix_euler_double.

(** Hypotheses met: correctly rounded sine and cosine; roll 1, pitch 2, yaw -3. *)
Example C117_euler_example :
  mat_within ((6 * 2 + 7) * uround) (eulerAnglesZYXToRotationMatrix (TT := exact_trig) (mkV3 (f64_ofZ 1) (f64_ofZ 2) (f64_ofZ (-3))))
    (mm (Rot_z (-3)) (mm (Rot_y 2) (Rot_x 1))).
Proof.
  destruct (ofZ_ok 1 ltac:(lia)) as (F1 & V1). destruct (ofZ_ok 2 ltac:(lia)) as (F2 & V2). destruct (ofZ_ok (-3) ltac:(lia)) as (F3 & V3).
  assert (H := C117_euler_matrix_double 2 exact_trig exact_trig_near ltac:(lra) (mkV3 (f64_ofZ 1) (f64_ofZ 2) (f64_ofZ (-3))) (conj F1 (conj F2 F3))).
  cbn [vx vy vz] in H. unfold dvalue in H. rewrite V1, V2, V3 in H. exact H.
Qed.
(** The quaternion 1 + 2i: the matrix of v -> (1+2i) v (1-2i) within 68 roundings. *)
Example C117_quaternion_example : exists r : mat3 R,
  (forall v, qvec (mv r v) = qmul (qmul (mkQ 1 2 0 0) (qvec v)) (qconj (mkQ 1 2 0 0))) /\
  mat_within (17 * uround * (2 * 2)) (quaternionToRotationMatrix (mkQ (f64_ofZ 1) (f64_ofZ 2) (f64_ofZ 0) (f64_ofZ 0))) r.
Proof.
  destruct (ofZ_ok 0 ltac:(lia)) as (F0 & V0). destruct (ofZ_ok 1 ltac:(lia)) as (F1 & V1). destruct (ofZ_ok 2 ltac:(lia)) as (F2 & V2).
  destruct (C117_quaternion_matrix_double (mkQ (f64_ofZ 1) (f64_ofZ 2) (f64_ofZ 0) (f64_ofZ 0)) 2) as (r & A & B).
  - change 2 with (bpow radix2 1). split; apply bpow_le; discriminate.
  - unfold qparts, dvalue. cbn [qw qx qy qz]. repeat (constructor; [split; [assumption|rewrite ?V0, ?V1, ?V2, Rabs_pos_eq; lra]|]). constructor.
  - exists r. split; [|exact B]. unfold dquat, dvalue in A. cbn [qw qx qy qz] in A. rewrite V0, V1, V2 in A. exact A.
Qed.

(** "The pitch of a unit quaternion is a number": no clamp before the arc sine,
    so a quaternion of length 1 within 4 roundings gives NaN. *)
Theorem C117_pitch_refuted : exists q : quat f64, (forall TT, asin_domain TT -> is_nan (vy (quaternionToEulerAnglesZYX (TT := TT) q)) = true) /\
  Forall (fun x => is_finite x = true) (qparts q) /\ Rabs (qnorm2 (dquat q) - 1) <= 4 * uround.
Proof. exact pitch_refuted_lemma. Qed.
Print Assumptions C117_pitch_refuted.
(** The C rule can be met: an arc sine that is NaN beyond 1 and 0 elsewhere. *)
Example C117_asin_domain : exists TT : NumTr f64, asin_domain TT /\ nasin (f64_ofZ 1) = f64_ofZ 0.
Proof.
  exists {| nsqrt x := x; nsin x := x; ncos x := x; nasin x := (if nlt (f64_ofZ 1) (Babs x) then B754_nan else f64_ofZ 0); natan2 y x := y; npow x y := x; nexp x := x; nlog x := x |}.
  split; [|reflexivity]. intros x F H. cbn [nasin]. destruct (ofZ_ok 1 ltac:(lia)) as (F1 & V1).
  rewrite nlt_lt; [reflexivity|exact F1|rewrite is_finite_Babs; exact F|rewrite B2R_Babs, V1; exact H].
Qed.

(** Projections: the vector turned by the angle, in either unit, within a few
    roundings of its largest coordinate and of the angle. *)
Theorem C117_project_double : forall kappa (TT : NumTr f64), libm_near kappa TT -> 0 <= kappa <= 1000 ->
  forall (v : vec2 f64) angle unit M, bpow radix2 (-900) <= M <= bpow radix2 900 -> bounded2 M v -> is_finite angle = true ->
  let t := radians unit (dvalue angle) in let e := (2 * kappa + 5 + 9 * Rabs t) * uround * M in
  within2 e (ProjectLocalOnNED v angle unit) (turn2 t (dvec2 v)) /\ within2 e (ProjectNEDOnLocal v angle unit) (turn2 (- t) (dvec2 v)).
Proof. exact project_lemma. Qed.
Print Assumptions C117_project_double.

(** The four single projections likewise. *)
Theorem C117_axes_double : forall kappa (TT : NumTr f64), libm_near kappa TT -> 0 <= kappa <= 1000 ->
  forall (v : vec2 f64) angle unit M, bpow radix2 (-900) <= M <= bpow radix2 900 -> bounded2 M v -> is_finite angle = true ->
  let t := radians unit (dvalue angle) in let e := (2 * kappa + 5 + 9 * Rabs t) * uround * M in
  within e (ProjectOnNorthAxis v angle unit) (ux (turn2 t (dvec2 v))) /\ within e (ProjectOnEastAxis v angle unit) (uy (turn2 t (dvec2 v))) /\
  within e (ProjectOnLocalXAxis v angle unit) (ux (turn2 (- t) (dvec2 v))) /\ within e (ProjectOnLocalYAxis v angle unit) (uy (turn2 (- t) (dvec2 v))).
Proof. exact axes_lemma. Qed.
Print Assumptions C117_axes_double.

(** There and back, the error no longer depends on the angle nor on its unit. *)
Theorem C117_project_back_double : forall kappa (TT : NumTr f64), libm_near kappa TT -> 0 <= kappa <= 1000 ->
  forall (v : vec2 f64) angle unit M, bpow radix2 (-900) <= M <= bpow radix2 899 -> bounded2 M v -> is_finite angle = true ->
  let e := (8 * kappa + 17) * uround * M in
  within2 e (ProjectNEDOnLocal (ProjectLocalOnNED v angle unit) angle unit) (dvec2 v) /\
  within2 e (ProjectLocalOnNED (ProjectNEDOnLocal v angle unit) angle unit) (dvec2 v).
Proof. exact project_back_lemma. Qed.
Print Assumptions C117_project_back_double.

(** Hypotheses met: (3, 4) turned by 30 degrees, and back. *)
Example C117_project_example :
  let v := mkV2 (f64_ofZ 3) (f64_ofZ 4) in
  within2 ((2 * 2 + 5 + 9 * Rabs (30 / 180 * PI)) * uround * 4) (ProjectLocalOnNED (TT := exact_trig) v (f64_ofZ 30) DEG) (turn2 (30 / 180 * PI) (mkV2 3 4)) /\
  within2 ((8 * 2 + 17) * uround * 4) (ProjectNEDOnLocal (TT := exact_trig) (ProjectLocalOnNED (TT := exact_trig) v (f64_ofZ 30) DEG) (f64_ofZ 30) DEG) (mkV2 3 4).
Proof.
  cbv zeta. destruct (ofZ_ok 3 ltac:(lia)) as (F3 & V3). destruct (ofZ_ok 4 ltac:(lia)) as (F4 & V4). destruct (ofZ_ok 30 ltac:(lia)) as (F & V).
  assert (HM : bpow radix2 (-900) <= 4 <= bpow radix2 900) by (change 4 with (bpow radix2 2); split; apply bpow_le; discriminate).
  assert (HM' : bpow radix2 (-900) <= 4 <= bpow radix2 899) by (change 4 with (bpow radix2 2); split; apply bpow_le; discriminate).
  assert (HB : bounded2 4 (mkV2 (f64_ofZ 3) (f64_ofZ 4))) by (split; (split; [assumption|]); unfold dvalue; cbn [ux uy]; rewrite ?V3, ?V4, Rabs_pos_eq; lra).
  destruct (C117_project_double 2 exact_trig exact_trig_near ltac:(lra) _ _ DEG 4 HM HB F) as (A & _).
  destruct (C117_project_back_double 2 exact_trig exact_trig_near ltac:(lra) _ _ DEG 4 HM' HB F) as (B & _).
  unfold dvec2, dvalue in A, B. cbn [ux uy] in A, B. rewrite V3, V4 in A, B. unfold radians in A. rewrite V in A. split; assumption.
Qed.
