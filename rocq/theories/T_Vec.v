(** C74-C77, C92-C94: plane and space vectors, complex series. *)
From Coq Require Import List Arith ZArith Reals Lra Lia.
From Verif Require Import Num NumFun M_Basics M_Triangle M_Geometry M_Vec S_Basics S_Vec S_Geometry L_Geometry L_Vec.
Import ListNotations.
Local Open Scope R_scope.

(** C74. The local axes seen from NED are at angle a and a + pi/2. *)
Theorem C74_local_on_ned : forall v a u, ProjectLocalOnNED v a u =
  add2 (scal2 (ux v) (dir (radians u a))) (scal2 (uy v) (dir (radians u a + PI / 2))).
Proof. exact lon_axes. Qed.
Print Assumptions C74_local_on_ned.
Theorem C74_inverse : forall v a u,
  ProjectLocalOnNED (ProjectNEDOnLocal v a u) a u = v /\ ProjectNEDOnLocal (ProjectLocalOnNED v a u) a u = v.
Proof. exact lon_nol. Qed.
Print Assumptions C74_inverse.
Theorem C74_isometry : forall v w a u, dot2 (ProjectLocalOnNED v a u) (ProjectLocalOnNED w a u) = dot2 v w /\
  dot2 (ProjectNEDOnLocal v a u) (ProjectNEDOnLocal w a u) = dot2 v w.
Proof. exact lon_isometry. Qed.
Print Assumptions C74_isometry.
Theorem C74_compose_local : forall v a b u, ProjectLocalOnNED (ProjectLocalOnNED v a u) b u = ProjectLocalOnNED v (a + b) u.
Proof. exact lon_compose. Qed.
Print Assumptions C74_compose_local.
Theorem C74_compose_ned : forall v a b u, ProjectNEDOnLocal (ProjectNEDOnLocal v a u) b u = ProjectNEDOnLocal v (a + b) u.
Proof. exact nol_compose. Qed.
Print Assumptions C74_compose_ned.
Theorem C74_components : forall v a u,
  ProjectOnNorthAxis v a u = ux (ProjectLocalOnNED v a u) /\ ProjectOnEastAxis v a u = uy (ProjectLocalOnNED v a u) /\
  ProjectOnLocalXAxis v a u = ux (ProjectNEDOnLocal v a u) /\ ProjectOnLocalYAxis v a u = uy (ProjectNEDOnLocal v a u).
Proof. exact lon_components. Qed.
Print Assumptions C74_components.
Theorem C74_units : forall v a, ProjectLocalOnNED v a DEG = ProjectLocalOnNED v (a * (PI / 180)) RAD /\
  ProjectNEDOnLocal v a DEG = ProjectNEDOnLocal v (a * (PI / 180)) RAD.
Proof. exact lon_units. Qed.
Print Assumptions C74_units.
(** Output references: the answer goes to [out] (possibly the vector itself), nothing else changes. *)
Theorem C74_output_reference : forall (h : store (T := R)) this out a u,
  ProjectLocalOnNED_out h this out a u out = ProjectLocalOnNED (h this) a u /\
  ProjectNEDOnLocal_out h this out a u out = ProjectNEDOnLocal (h this) a u /\
  forall r, r <> out -> ProjectLocalOnNED_out h this out a u r = h r /\ ProjectNEDOnLocal_out h this out a u r = h r.
Proof. exact project_out_lemma. Qed.
Print Assumptions C74_output_reference.
Example C74_example : ProjectLocalOnNED (mkV2 3 4) 90 DEG = mkV2 (-4) 3.
Proof.
  rewrite C74_local_on_ned. unfold add2, scal2, dir, radians. vcbn. replace (90 / 180 * PI) with (PI / 2) by field.
  replace (PI / 2 + PI / 2) with PI by field. rewrite cos_PI2, sin_PI2, cos_PI, sin_PI. f_equal; lra.
Qed.

(** C92. *)
Theorem C92_ned_velocity : forall lon lat a au iu ou,
  let k := metres_per_second iu / metres_per_second ou in
  GetNEDVelocityVector lon lat a au iu ou =
    scal2 k (add2 (scal2 lon (dir (radians au a))) (scal2 lat (dir (radians au a + PI / 2)))) /\
  dot2 (GetNEDVelocityVector lon lat a au iu ou) (GetNEDVelocityVector lon lat a au iu ou) = k * k * (lon * lon + lat * lat).
Proof. exact ned_velocity_lemma. Qed.
Print Assumptions C92_ned_velocity.
Theorem C92_set_ned : forall x y a u, SetNEDFromLocal x y a u = ProjectLocalOnNED (mkV2 x y) a u.
Proof. exact set_ned_lemma. Qed.
Print Assumptions C92_set_ned.
Example C92_example : GetNEDVelocityVector 36 0 (PI / 2) RAD KMH MS = mkV2 0 10.
Proof.
  rewrite (proj1 (C92_ned_velocity 36 0 (PI / 2) RAD KMH MS)). unfold metres_per_second, add2, scal2, dir, radians. vcbn.
  rewrite cos_PI2, sin_PI2. f_equal; lra.
Qed.

(** C75. v + w x p, the rate being f turns per second in any unit. *)
Theorem C75_transport : forall (h : store (T := R)) this point w u f, this <> point -> denotes_hertz PI u w f ->
  TransportAtPoint h this point w u this = add2 (h this) (scal2 (2 * PI * f) (quarter (h point))) /\
  forall r, r <> this -> TransportAtPoint h this point w u r = h r.
Proof. exact transport_lemma. Qed.
Print Assumptions C75_transport.
Theorem C75_transport_out : forall (h : store (T := R)) this out point w u f, out <> point -> denotes_hertz PI u w f ->
  TransportAtPoint_out h this out point w u out = add2 (h this) (scal2 (2 * PI * f) (quarter (h point))) /\
  forall r, r <> out -> TransportAtPoint_out h this out point w u r = h r.
Proof. exact transport_out_lemma. Qed.
Print Assumptions C75_transport_out.
Theorem C75_transport_function : forall v p w u f, denotes_hertz PI u w f ->
  TransportAtPoint_fun v p w u = add2 v (scal2 (2 * PI * f) (quarter p)).
Proof. exact transport_fun_lemma. Qed.
Print Assumptions C75_transport_function.
Theorem C75_transport_compose : forall v p q w u f, denotes_hertz PI u w f ->
  TransportAtPoint_fun (TransportAtPoint_fun v p w u) (sub2 q p) w u = TransportAtPoint_fun v q w u /\
  TransportAtPoint_fun (TransportAtPoint_fun v p w u) (scal2 (-1) p) w u = v.
Proof. exact transport_compose_lemma. Qed.
Print Assumptions C75_transport_compose.
(** When [point] is the transported vector itself the second coefficient is off by (2 pi f)^2 y. *)
Theorem C75_transport_aliased : forall (h : store (T := R)) this w u f, denotes_hertz PI u w f ->
  let k := 2 * PI * f in let v := h this in
  TransportAtPoint h this this w u this = sub2 (add2 v (scal2 k (quarter v))) (mkV2 0 (k * k * uy v)).
Proof. exact transport_alias_lemma. Qed.
Print Assumptions C75_transport_aliased.
Theorem C75_transport_out_aliased : forall (h : store (T := R)) this out w u f, denotes_hertz PI u w f ->
  let k := 2 * PI * f in let v := h this in
  TransportAtPoint_out h this out out w u out = sub2 (add2 v (scal2 k (quarter v))) (mkV2 0 (k * k * uy v)).
Proof. exact transport_out_alias_lemma. Qed.
Print Assumptions C75_transport_out_aliased.
Theorem C75_transport_any_point_refuted : exists (h : store (T := R)) this w f, denotes_hertz PI RADS w f /\
  TransportAtPoint h this this w RADS this <> add2 (h this) (scal2 (2 * PI * f) (quarter (h this))).
Proof. exact transport_alias_refuted_lemma. Qed.
Print Assumptions C75_transport_any_point_refuted.
(** One turn per minute. *)
Example C75_example : denotes_hertz PI RPM 1 (1 / 60) /\
  TransportAtPoint_fun (mkV2 1 2) (mkV2 30 0) 1 RPM = mkV2 1 (2 + PI).
Proof.
  assert (D : denotes_hertz PI RPM 1 (1 / 60)) by (unfold denotes_hertz; lra). split; [exact D|].
  rewrite (C75_transport_function _ _ _ _ _ D). unfold add2, scal2, quarter. vcbn. f_equal; lra.
Qed.

(** C76. *)
Theorem C76_inf_norm_value : forall v : vec2 R, v2_infNorm v = Rmax (ux v) (uy v).
Proof. exact v2_infnorm_lemma. Qed.
Print Assumptions C76_inf_norm_value.
Theorem C76_inf_norm_iff : forall v : vec2 R, is_inf_norm [ux v; uy v] (v2_infNorm v) <->
  Rmax (Rabs (ux v)) (Rabs (uy v)) = Rmax (ux v) (uy v).
Proof. exact v2_infnorm_iff. Qed.
Print Assumptions C76_inf_norm_iff.
Theorem C76_inf_norm_negative : forall v : vec2 R, ux v < 0 -> uy v < 0 -> v2_infNorm v < 0.
Proof. exact v2_infnorm_negative. Qed.
Print Assumptions C76_inf_norm_negative.
Theorem C76_inf_norm_refuted : exists v : vec2 R, ~ is_inf_norm [ux v; uy v] (v2_infNorm v).
Proof. exact v2_infnorm_refuted. Qed.
Print Assumptions C76_inf_norm_refuted.
(** The infinity norm of Vector3d, Vector6d and VectorN is right. *)
Theorem C76_inf_norm_others : forall l : list R, is_inf_norm l (infNorm l).
Proof. exact infnorm_lemma. Qed.
Print Assumptions C76_inf_norm_others.
Theorem C76_inf_norm_unique : forall l a b, is_inf_norm l a -> is_inf_norm l b -> l <> [] -> a = b.
Proof. exact inf_norm_unique. Qed.
Print Assumptions C76_inf_norm_unique.
Example C76_example : v2_infNorm (mkV2 (-3) 1) = 1 /\ v3_infNorm (mkV3 (-3) 1 2) = 3.
Proof.
  split.
  - rewrite C76_inf_norm_value. vcbn. unfold Rmax. destruct (Rle_dec (-3) 1); lra.
  - apply (inf_norm_unique [-3; 1; 2]); [apply infnorm_lemma| |discriminate]. split.
    + intros x [<-|[<-|[<-|[]]]]; unfold Rabs; destruct (Rcase_abs _); lra.
    + right. exists (-3). split; [left; auto|]. rewrite Rabs_left; lra.
Qed.

(** C77. *)
Theorem C77_amplitude_phase : forall (l : list (R * R)) k, (k < length l)%nat ->
  let z := nth k l (0, 0) in let a := nth k (Amplitude l) 0 in
  nth k (c_Real l) 0 = fst z /\ nth k (c_Imag l) 0 = snd z /\
  0 <= a /\ a * a = fst z * fst z + snd z * snd z /\
  forall u, let t := radians u (nth k (Phase l u) 0) in
    - PI < t <= PI /\ fst z = a * cos t /\ snd z = a * sin t.
Proof. exact complex_lemma. Qed.
Print Assumptions C77_amplitude_phase.
Theorem C77_lengths : forall (l : list (R * R)) u,
  length (c_Real l) = length l /\ length (c_Imag l) = length l /\ length (Amplitude l) = length l /\ length (Phase l u) = length l.
Proof. exact complex_length. Qed.
Print Assumptions C77_lengths.
Example C77_example : Phase [(-1, 0); (0, -2)] DEG = [180; -90].
Proof.
  pose proof PI_RGT_0. unfold Phase, mu_180_pi. cbn [map fst snd]. rg. unfold Ratan2.
  repeat rcmp; try lra. replace (0 / -1) with 0 by field. rewrite atan_0. f_equal; [field; lra|]. f_equal. field. lra.
Qed.

(** C93. *)
Theorem C93_projected_angles : forall v u,
  polar_angle (vy v) (vz v) (radians u (GetProjectedAngleAroundX v u)) /\
  polar_angle (vz v) (vx v) (radians u (GetProjectedAngleAroundY v u)) /\
  polar_angle (vx v) (vy v) (radians u (GetProjectedAngleAroundZ v u)).
Proof. exact projected_lemma. Qed.
Print Assumptions C93_projected_angles.
Example C93_example : GetProjectedAngleAroundY (mkV3 2 7 0) RAD = PI / 2.
Proof. unfold GetProjectedAngleAroundY, in_unit. vcbn. rg. unfold Ratan2. repeat rcmp; lra. Qed.

(** C94. *)
Theorem C94_normalize : forall v : vec3 R, dot3 v v <> 0 ->
  dot3 (Normalize v) (Normalize v) = 1 /\ (exists k, 0 < k /\ v = scal3 k (Normalize v)) /\ IsUnit (Normalize v) = true /\
  Normalize (Normalize v) = Normalize v.
Proof. exact normalize_lemma. Qed.
Print Assumptions C94_normalize.
Theorem C94_normalize_zero : forall v : vec3 R, dot3 v v = 0 -> Normalize v = v /\ IsUnit v = false.
Proof. exact normalize_zero. Qed.
Print Assumptions C94_normalize_zero.
Theorem C94_is_unit : forall v : vec3 R, IsUnit v = true <-> Rabs (sqrt (dot3 v v) - 1) <= 1001 / 100000000.
Proof. exact isunit_lemma. Qed.
Print Assumptions C94_is_unit.
Theorem C94_outer_inner : forall v w x : vec3 R,
  mv (outer v w) x = scal3 (dot3 w x) v /\ tr (outer v w) = outer w v /\ inner v w = dot3 v w.
Proof. exact outer_lemma. Qed.
Print Assumptions C94_outer_inner.
Example C94_example : dot3 (mkV3 0 3 4) (mkV3 0 3 4) <> 0 /\ Normalize (mkV3 0 3 4) = mkV3 0 (3 / 5) (4 / 5).
Proof.
  split; [unfold dot3; vcbn; lra|]. unfold Normalize. vcbn. rg. rcmp; [|lra].
  replace (0 * 0 + 3 * 3 + 4 * 4) with (5 * 5) by ring. rewrite sqrt_square by lra. f_equal; lra.
Qed.
