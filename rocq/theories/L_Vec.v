(** Proofs about Vector2d.h, Vector3d.h and Complex.h. *)
From Coq Require Import List Arith ZArith Bool Reals Lra Lia.
From Verif Require Import Outcome Num NumFun M_Basics M_Triangle M_Geometry M_Vec S_Basics S_Vec S_Geometry L_Basics L_Basics2 L_Geometry.
Import ListNotations.
Local Open Scope R_scope.

Lemma vec2_eq (a b : vec2 R) : ux a = ux b -> uy a = uy b -> a = b.
Proof. destruct a, b; cbn. congruence. Qed.
Ltac vcbn := cbn [ux uy vx vy vz] in *.

Lemma trigo_R a u : get_trigo (T := R) a u = (cos (radians u a), sin (radians u a)).
Proof.
  unfold get_trigo, radians. destruct u; [|reflexivity]. unfold mu_pi_180. rg.
  replace (a * (PI / 180)) with (a / 180 * PI) by field. reflexivity.
Qed.

Lemma lon_R v a u : ProjectLocalOnNED (T := R) v a u =
  mkV2 (cos (radians u a) * ux v - sin (radians u a) * uy v) (sin (radians u a) * ux v + cos (radians u a) * uy v).
Proof. unfold ProjectLocalOnNED. rewrite trigo_R. reflexivity. Qed.
Lemma nol_R v a u : ProjectNEDOnLocal (T := R) v a u =
  mkV2 (cos (radians u a) * ux v + sin (radians u a) * uy v) (- sin (radians u a) * ux v + cos (radians u a) * uy v).
Proof. unfold ProjectNEDOnLocal. rewrite trigo_R. reflexivity. Qed.

Lemma lon_axes v a u : ProjectLocalOnNED v a u =
  add2 (scal2 (ux v) (dir (radians u a))) (scal2 (uy v) (dir (radians u a + PI / 2))).
Proof.
  rewrite lon_R. unfold add2, scal2, dir. vcbn.
  replace (cos (radians u a + PI / 2)) with (- sin (radians u a)) by (rewrite cos_plus, cos_PI2, sin_PI2; ring).
  replace (sin (radians u a + PI / 2)) with (cos (radians u a)) by (rewrite sin_plus, cos_PI2, sin_PI2; ring).
  f_equal; ring.
Qed.

Lemma lon_nol v a u : ProjectLocalOnNED (ProjectNEDOnLocal v a u) a u = v /\ ProjectNEDOnLocal (ProjectLocalOnNED v a u) a u = v.
Proof.
  rewrite !lon_R, !nol_R. vcbn. pose proof (sin_cos_sq (radians u a)) as H.
  set (s := sin _) in *. set (c := cos _) in *.
  split; apply vec2_eq; vcbn.
  - transitivity ((s * s + c * c) * ux v); [ring|rewrite H; ring].
  - transitivity ((s * s + c * c) * uy v); [ring|rewrite H; ring].
  - transitivity ((s * s + c * c) * ux v); [ring|rewrite H; ring].
  - transitivity ((s * s + c * c) * uy v); [ring|rewrite H; ring].
Qed.

Lemma lon_isometry v w a u : dot2 (ProjectLocalOnNED v a u) (ProjectLocalOnNED w a u) = dot2 v w /\
  dot2 (ProjectNEDOnLocal v a u) (ProjectNEDOnLocal w a u) = dot2 v w.
Proof.
  rewrite !lon_R, !nol_R. unfold dot2. vcbn. pose proof (sin_cos_sq (radians u a)) as H.
  set (s := sin _) in *. set (c := cos _) in *.
  split; (transitivity ((s * s + c * c) * (ux v * ux w + uy v * uy w)); [ring|rewrite H; ring]).
Qed.

Lemma radians_plus u a b : radians u (a + b) = radians u a + radians u b.
Proof. destruct u; unfold radians; lra. Qed.

Lemma lon_compose v a b u : ProjectLocalOnNED (ProjectLocalOnNED v a u) b u = ProjectLocalOnNED v (a + b) u.
Proof.
  rewrite !lon_R, radians_plus, sin_plus, cos_plus. vcbn. f_equal; ring.
Qed.
Lemma nol_compose v a b u : ProjectNEDOnLocal (ProjectNEDOnLocal v a u) b u = ProjectNEDOnLocal v (a + b) u.
Proof.
  rewrite !nol_R, radians_plus, sin_plus, cos_plus. vcbn. f_equal; ring.
Qed.

Lemma lon_components v a u :
  ProjectOnNorthAxis v a u = ux (ProjectLocalOnNED v a u) /\ ProjectOnEastAxis v a u = uy (ProjectLocalOnNED v a u) /\
  ProjectOnLocalXAxis v a u = ux (ProjectNEDOnLocal v a u) /\ ProjectOnLocalYAxis v a u = uy (ProjectNEDOnLocal v a u).
Proof.
  unfold ProjectOnNorthAxis, ProjectOnEastAxis, ProjectOnLocalXAxis, ProjectOnLocalYAxis. rewrite trigo_R, lon_R, nol_R. vcbn.
  repeat split.
Qed.

Lemma lon_units v a : ProjectLocalOnNED v a DEG = ProjectLocalOnNED v (a * (PI / 180)) RAD /\
  ProjectNEDOnLocal v a DEG = ProjectNEDOnLocal v (a * (PI / 180)) RAD.
Proof.
  rewrite !lon_R, !nol_R. unfold radians. replace (a / 180 * PI) with (a * (PI / 180)) by field. auto.
Qed.

Lemma supd_same (h : store (T := R)) r v : supd h r v r = v.
Proof. unfold supd. rewrite Nat.eqb_refl. reflexivity. Qed.
Lemma supd_other (h : store (T := R)) r r' v : r' <> r -> supd h r v r' = h r'.
Proof. intros H. unfold supd. rewrite (proj2 (Nat.eqb_neq r' r)); auto. Qed.

Lemma project_out_lemma (h : store (T := R)) this out a u :
  ProjectLocalOnNED_out h this out a u out = ProjectLocalOnNED (h this) a u /\
  ProjectNEDOnLocal_out h this out a u out = ProjectNEDOnLocal (h this) a u /\
  forall r, r <> out -> ProjectLocalOnNED_out h this out a u r = h r /\ ProjectNEDOnLocal_out h this out a u r = h r.
Proof.
  unfold ProjectLocalOnNED_out, ProjectNEDOnLocal_out. cbv zeta. rewrite !supd_same. split; [|split]; auto.
  intros r Hr. rewrite !supd_other; auto.
Qed.

(** ** NED velocity *)
Lemma speed_ms_pos u : 0 < metres_per_second u.
Proof. destruct u; unfold metres_per_second; lra. Qed.

Lemma ned_velocity_lemma lon lat a au iu ou :
  let k := metres_per_second iu / metres_per_second ou in
  GetNEDVelocityVector lon lat a au iu ou =
    scal2 k (add2 (scal2 lon (dir (radians au a))) (scal2 lat (dir (radians au a + PI / 2)))) /\
  dot2 (GetNEDVelocityVector lon lat a au iu ou) (GetNEDVelocityVector lon lat a au iu ou) = k * k * (lon * lon + lat * lat).
Proof.
  intros k.
  assert (E : forall v, (if speed_unit_eqb iu ou then v else convert_velocity_unit v iu ou) = k * v).
  { intros v. destruct (speed_unit_eqb iu ou) eqn:Q.
    - assert (iu = ou) by (destruct iu, ou; cbn in Q; congruence). subst. unfold k. pose proof (speed_ms_pos ou). field. lra.
    - pose proof (velocity_meaning_lemma PI v iu ou) as H. pose proof (speed_ms_pos ou). unfold k.
      apply Rmult_eq_reg_r with (metres_per_second ou); [|lra]. unfold RNum. rewrite H. field. lra. }
  unfold GetNEDVelocityVector. cbv zeta. rewrite !E.
  split.
  - rewrite lon_axes. unfold scal2, add2, dir. vcbn. f_equal; ring.
  - rewrite (proj1 (lon_isometry _ _ _ _)). unfold dot2. vcbn. ring.
Qed.
Lemma set_ned_lemma x y a u : SetNEDFromLocal x y a u = ProjectLocalOnNED (mkV2 x y) a u.
Proof. reflexivity. Qed.

(** ** TransportAtPoint *)
Lemma rate_R w u f : denotes_hertz PI u w f -> (if frequency_unit_eqb u RADS then w else convert_frequency w u RADS) = 2 * PI * f.
Proof.
  intros H. destruct (frequency_unit_eqb u RADS) eqn:Q.
  - destruct u; cbn in Q; try discriminate. exact H.
  - apply (frequency_meaning_lemma PI w f u RADS) in H; [exact H|apply PI_neq0|discriminate].
Qed.

Lemma transport_lemma (h : store (T := R)) this point w u f : this <> point -> denotes_hertz PI u w f ->
  TransportAtPoint h this point w u this = add2 (h this) (scal2 (2 * PI * f) (quarter (h point))) /\
  forall r, r <> this -> TransportAtPoint h this point w u r = h r.
Proof.
  intros N H. pose proof (rate_R w u f H) as W. unfold TransportAtPoint. cbv zeta. rewrite W. split.
  - rewrite !supd_same. vcbn. rewrite supd_other by auto. unfold add2, scal2, quarter. vcbn. rg. f_equal; ring.
  - intros r Hr. rewrite !supd_other by auto. reflexivity.
Qed.

Lemma transport_alias_lemma (h : store (T := R)) this w u f : denotes_hertz PI u w f ->
  let k := 2 * PI * f in let v := h this in
  TransportAtPoint h this this w u this = sub2 (add2 v (scal2 k (quarter v))) (mkV2 0 (k * k * uy v)).
Proof.
  intros H k v. pose proof (rate_R w u f H) as W. unfold TransportAtPoint. cbv zeta. rewrite W. fold k.
  rewrite !supd_same. vcbn. fold v. unfold add2, sub2, scal2, quarter. vcbn. rg. f_equal; ring.
Qed.

Lemma transport_out_lemma (h : store (T := R)) this out point w u f : out <> point -> denotes_hertz PI u w f ->
  TransportAtPoint_out h this out point w u out = add2 (h this) (scal2 (2 * PI * f) (quarter (h point))) /\
  forall r, r <> out -> TransportAtPoint_out h this out point w u r = h r.
Proof.
  intros N H. unfold TransportAtPoint_out.
  destruct (transport_lemma (supd h out (h this)) out point w u f N H) as [A B]. split.
  - rewrite A, supd_same, supd_other by auto. reflexivity.
  - intros r Hr. rewrite B, supd_other; auto.
Qed.
Lemma transport_out_alias_lemma (h : store (T := R)) this out w u f : denotes_hertz PI u w f ->
  let k := 2 * PI * f in let v := h this in
  TransportAtPoint_out h this out out w u out = sub2 (add2 v (scal2 k (quarter v))) (mkV2 0 (k * k * uy v)).
Proof.
  intros H k v. unfold TransportAtPoint_out.
  pose proof (transport_alias_lemma (supd h out (h this)) out w u f H) as A. cbv zeta in A. rewrite A, supd_same. reflexivity.
Qed.

Lemma transport_fun_lemma v p w u f : denotes_hertz PI u w f ->
  TransportAtPoint_fun v p w u = add2 v (scal2 (2 * PI * f) (quarter p)).
Proof.
  intros H. unfold TransportAtPoint_fun. destruct (transport_lemma (fun r => if Nat.eqb r 0 then v else p) 0 1 w u f) as [A _]; auto.
Qed.
Lemma transport_compose_lemma v p q w u f : denotes_hertz PI u w f ->
  TransportAtPoint_fun (TransportAtPoint_fun v p w u) (sub2 q p) w u = TransportAtPoint_fun v q w u /\
  TransportAtPoint_fun (TransportAtPoint_fun v p w u) (scal2 (-1) p) w u = v.
Proof.
  intros H. rewrite !(transport_fun_lemma _ _ w u f H). unfold add2, sub2, scal2, quarter. vcbn.
  split; apply vec2_eq; vcbn; ring.
Qed.

Lemma transport_alias_refuted_lemma : exists (h : store (T := R)) this w f, denotes_hertz PI RADS w f /\
  TransportAtPoint h this this w RADS this <> add2 (h this) (scal2 (2 * PI * f) (quarter (h this))).
Proof.
  exists (fun _ => mkV2 1 1), 0%nat, 1, (/ (2 * PI)). pose proof PI_RGT_0 as P.
  assert (D : denotes_hertz PI RADS 1 (/ (2 * PI))) by (unfold denotes_hertz; field; lra).
  split; [exact D|]. pose proof (transport_alias_lemma (fun _ => mkV2 1 1) 0 1 RADS _ D) as A. cbv zeta in A. rewrite A.
  replace (2 * PI * / (2 * PI)) with 1 by (field; lra).
  unfold sub2, add2, scal2, quarter. vcbn. intros E. injection E. lra.
Qed.

(** ** infNorm *)
Lemma v2_infnorm_lemma (v : vec2 R) : v2_infNorm v = Rmax (ux v) (uy v).
Proof. unfold v2_infNorm. cbv [nlt RNum RNum_at]. unfold Rmax. rcmp; destruct (Rle_dec (ux v) (uy v)); lra. Qed.

Lemma v2_infnorm_iff (v : vec2 R) : is_inf_norm [ux v; uy v] (v2_infNorm v) <->
  Rmax (Rabs (ux v)) (Rabs (uy v)) = Rmax (ux v) (uy v).
Proof.
  rewrite v2_infnorm_lemma. unfold is_inf_norm. split.
  - intros [B A]. apply Rle_antisym.
    + apply Rmax_lub; apply B; cbn; auto.
    + apply Rle_max_compat_l with (z := 0) || idtac.
      unfold Rmax at 1. destruct (Rle_dec (ux v) (uy v)).
      * apply Rle_trans with (Rabs (uy v)); [apply Rle_abs|apply Rmax_r].
      * apply Rle_trans with (Rabs (ux v)); [apply Rle_abs|apply Rmax_l].
  - intros E. rewrite <- E. split.
    + intros x [<-|[<-|[]]]; [apply Rmax_l|apply Rmax_r].
    + right. unfold Rmax. destruct (Rle_dec (Rabs (ux v)) (Rabs (uy v))); eexists; split; eauto; cbn; auto.
Qed.
Lemma v2_infnorm_negative (v : vec2 R) : ux v < 0 -> uy v < 0 -> v2_infNorm v < 0.
Proof. intros. rewrite v2_infnorm_lemma. apply Rmax_lub_lt; auto. Qed.
Lemma v2_infnorm_refuted : exists v : vec2 R, ~ is_inf_norm [ux v; uy v] (v2_infNorm v).
Proof.
  exists (mkV2 (-1) (-2)). rewrite v2_infnorm_iff. vcbn. rewrite !Rabs_left by lra. unfold Rmax.
  destruct (Rle_dec (- -1) (- -2)), (Rle_dec (-1) (-2)); lra.
Qed.

Lemma inf_fold (l : list R) (m : R) : 0 <= m ->
  let r := fold_left (fun m x => if Rltb m (Rabs x) then Rabs x else m) l m in
  m <= r /\ (forall x, In x l -> Rabs x <= r) /\ (r = m \/ exists x, In x l /\ Rabs x = r).
Proof.
  revert m. induction l as [|a l IH]; intros m Hm; cbn [fold_left].
  - cbn. split; [lra|]. split; [tauto|auto].
  - pose proof (Rabs_pos a) as P.
    destruct (Rltb m (Rabs a)) eqn:E; [apply Rltb_true in E|apply Rltb_false in E].
    + destruct (IH (Rabs a) P) as (A & B & C). cbv zeta in *. split; [lra|]. split.
      * intros x [<-|H]; auto.
      * right. destruct C as [C|(x & H & C)]; [exists a; split; [left; auto|congruence]|exists x; split; [right; auto|auto]].
    + destruct (IH m Hm) as (A & B & C). cbv zeta in *. split; [lra|]. split.
      * intros x [<-|H]; auto; lra.
      * destruct C as [C|(x & H & C)]; auto. right. exists x; split; [right; auto|auto].
Qed.
Lemma infnorm_lemma (l : list R) : is_inf_norm l (infNorm l).
Proof.
  unfold infNorm. cbv [nlt nfabs nofZ RNum RNum_at RNumFm].
  destruct (inf_fold l 0) as (_ & B & C); [lra|]. split; auto.
Qed.
Lemma inf_norm_unique l a b : is_inf_norm l a -> is_inf_norm l b -> l <> [] -> a = b.
Proof.
  intros [A A'] [B B'] N. destruct l as [|x0 l0]; [congruence|].
  assert (0 <= a) by (pose proof (A x0 (or_introl eq_refl)); pose proof (Rabs_pos x0); lra).
  assert (0 <= b) by (pose proof (B x0 (or_introl eq_refl)); pose proof (Rabs_pos x0); lra).
  apply Rle_antisym.
  - destruct A' as [->|(x & I & <-)]; auto.
  - destruct B' as [->|(x & I & <-)]; auto.
Qed.

(** ** Complex.h *)
Lemma complex_lemma (l : list (R * R)) k : (k < length l)%nat ->
  let z := nth k l (0, 0) in let a := nth k (Amplitude l) 0 in
  nth k (c_Real l) 0 = fst z /\ nth k (c_Imag l) 0 = snd z /\
  0 <= a /\ a * a = fst z * fst z + snd z * snd z /\
  forall u, let t := radians u (nth k (Phase l u) 0) in
    - PI < t <= PI /\ fst z = a * cos t /\ snd z = a * sin t.
Proof.
  intros Hk z a.
  assert (G : forall (g : R * R -> R), nth k (map g l) 0 = g z).
  { intros g. rewrite nth_indep with (d' := g (0, 0)) by (rewrite map_length; auto). apply map_nth. }
  assert (A : a = sqrt (fst z * fst z + snd z * snd z)) by (unfold a, Amplitude; rewrite G; reflexivity).
  split; [unfold c_Real; rewrite G; reflexivity|]. split; [unfold c_Imag; rewrite G; reflexivity|].
  split; [rewrite A; apply sqrt_pos|]. split; [rewrite A; apply sqrt_sqrt; nra|].
  intros u. cbv zeta.
  assert (P : radians u (nth k (Phase l u) 0) = Ratan2 (snd z) (fst z)).
  { pose proof PI_RGT_0. unfold Phase. rewrite G. unfold mu_180_pi. rg. destruct u; unfold radians; field. lra. }
  rewrite P, A. destruct (Ratan2_spec (snd z) (fst z)) as [C S]. split; [apply Ratan2_range|]. split; congruence.
Qed.
Lemma complex_length (l : list (R * R)) u :
  length (c_Real l) = length l /\ length (c_Imag l) = length l /\ length (Amplitude l) = length l /\ length (Phase l u) = length l.
Proof. unfold c_Real, c_Imag, Amplitude, Phase. rewrite !map_length. auto. Qed.

(** ** Vector3d.h *)
Lemma projected_lemma v u :
  polar_angle (vy v) (vz v) (radians u (GetProjectedAngleAroundX v u)) /\
  polar_angle (vz v) (vx v) (radians u (GetProjectedAngleAroundY v u)) /\
  polar_angle (vx v) (vy v) (radians u (GetProjectedAngleAroundZ v u)).
Proof.
  assert (G : forall t, radians u (in_unit u t) = t).
  { intros t. pose proof PI_RGT_0. destruct u; unfold radians, in_unit, mu_180_pi; rg; [field; lra|reflexivity]. }
  unfold GetProjectedAngleAroundX, GetProjectedAngleAroundY, GetProjectedAngleAroundZ. rewrite !G.
  assert (K : forall x y, polar_angle x y (Ratan2 y x)).
  { intros x y. split; [apply Ratan2_range|]. destruct (Ratan2_spec y x). split; congruence. }
  split; [apply K|]. split; apply K.
Qed.

Lemma norm3_R (v : vec3 R) : v3_norm v = sqrt (dot3 v v).
Proof. reflexivity. Qed.
Lemma isunit_lemma (v : vec3 R) : IsUnit v = true <-> Rabs (sqrt (dot3 v v) - 1) <= 1001 / 100000000.
Proof.
  unfold IsUnit. rewrite norm3_R. rg. rewrite (isclose_spec PI). rewrite (Rabs_right 1) by lra.
  split; intros H; lra.
Qed.

Lemma normalize_lemma (v : vec3 R) : dot3 v v <> 0 ->
  dot3 (Normalize v) (Normalize v) = 1 /\ (exists k, 0 < k /\ v = scal3 k (Normalize v)) /\ IsUnit (Normalize v) = true /\
  Normalize (Normalize v) = Normalize v.
Proof.
  intros N. unfold dot3 in N. assert (Z : 0 < vx v * vx v + vy v * vy v + vz v * vz v) by nra.
  assert (E0 : forall w : vec3 R, 0 < dot3 w w ->
     Normalize w = mkV3 (vx w / sqrt (dot3 w w)) (vy w / sqrt (dot3 w w)) (vz w / sqrt (dot3 w w))).
  { intros w W. unfold Normalize. rg. fold (dot3 w w). rewrite (proj2 (Rltb_true _ _) W). reflexivity. }
  pose proof (E0 v Z) as E. unfold dot3 in E.
  set (z := vx v * vx v + vy v * vy v + vz v * vz v) in *.
  assert (P : 0 < sqrt z) by (apply sqrt_lt_R0; auto).
  assert (S : sqrt z * sqrt z = z) by (apply sqrt_sqrt; lra).
  assert (U : dot3 (Normalize v) (Normalize v) = 1).
  { rewrite E. unfold dot3. vcbn. transitivity (z / (sqrt z * sqrt z)); [|rewrite S; field; lra].
    clear E S. revert P. generalize (sqrt z). intros s P. unfold z. field. lra. }
  split; [exact U|]. split; [|split].
  - exists (sqrt z). split; auto. rewrite E. unfold scal3. vcbn. clear E S U. revert P. generalize (sqrt z). intros s P. apply vec3_eq; vcbn; field; lra.
  - apply isunit_lemma. rewrite U, sqrt_1. replace (1 - 1) with 0 by ring. rewrite Rabs_R0. lra.
  - rewrite (E0 (Normalize v)) by lra. rewrite U, sqrt_1. apply vec3_eq; vcbn; field.
Qed.
Lemma normalize_zero (v : vec3 R) : dot3 v v = 0 -> Normalize v = v /\ IsUnit v = false.
Proof.
  intros Z. split.
  - unfold Normalize. rg. fold (dot3 v v). rewrite Z. rcmp; [lra|reflexivity].
  - destruct (IsUnit v) eqn:E; auto. apply isunit_lemma in E. rewrite Z, sqrt_0 in E. rewrite Rabs_left in E; lra.
Qed.

Lemma outer_lemma (v w x : vec3 R) : mv (outer v w) x = scal3 (dot3 w x) v /\ tr (outer v w) = outer w v /\ inner v w = dot3 v w.
Proof.
  unfold mv, outer, tr, scal3, dot3, inner. gcbn. rg. repeat split; f_equal; ring.
Qed.
