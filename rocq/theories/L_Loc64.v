(** Local velocities, projected angles, Bessel derivatives and the sampled
    impulse in binary64. *)
From Coq Require Import List Arith ZArith Reals Bool Lia Lra Psatz.
From Coquelicot Require Import Hierarchy Derive.
From Coquelicot Require RInt.
From Flocq Require Import Core.Core IEEE754.BinarySingleNaN.
From Verif Require Import Outcome Num NumFun F64 M_Basics M_Triangle M_Geometry M_Vec M_Special M_Dirac S_Basics S_Vec S_Angles S_Double S_Rot64 S_Gen64 S_Loc64
  L_F64 L_Linspace64 L_F64Err L_Series64 L_Interp64 L_Special64 L_Apx.
From Verif Require L_Units64 L_Rot64 L_Gen64 L_Arange64 L_E1d L_Geometry S_Special L_Bessel.
Import ListNotations.
Local Open Scope R_scope.

(** ** Local velocities *)
Lemma zero_cases (x : f64) : is_finite x = true -> dvalue x = 0 -> exists s, x = B754_zero s.
Proof.
  intros F V. destruct x as [s|s| |s m e h]; try discriminate F; [exists s; reflexivity|]. exfalso. unfold dvalue in V. cbn [B2R] in V.
  apply eq_0_F2R in V. destruct s; discriminate V.
Qed.
Lemma convert_zero s u w : is_finite (convert_velocity_unit (B754_zero s : f64) u w) = true /\ dvalue (convert_velocity_unit (B754_zero s : f64) u w) = 0.
Proof.
  assert (E : exists s', convert_velocity_unit (B754_zero s : f64) u w = B754_zero s').
  { destruct u, w; (exists s; destruct s; vm_compute; reflexivity). }
  destruct E as (s' & ->). split; reflexivity.
Qed.
Definition conv (iu ou : speed_unit) (x : f64) : f64 := if speed_unit_eqb iu ou then x else convert_velocity_unit x iu ou.
Lemma conv_ok iu ou x M : speed_ok M x -> M <= 2 ^ 890 -> let k := metres_per_second iu / metres_per_second ou in
  is_finite (conv iu ou x) = true /\ Rabs (dvalue (conv iu ou x) - k * dvalue x) <= 5 * u53 * (k * Rabs (dvalue x)) /\ / 4 <= k <= 4.
Proof.
  intros (F & B & Z) HM k. assert (K : / 4 <= k <= 4) by (unfold k; destruct iu, ou; cbn [metres_per_second]; lra).
  assert (U := u_tiny). assert (P := Rabs_pos (dvalue x)).
  assert (P5 : 0 <= 5 * u53 * (k * Rabs (dvalue x))) by (apply Rmult_le_pos; [lra|apply Rmult_le_pos; lra]).
  unfold conv. destruct (speed_unit_eqb iu ou) eqn:E.
  - assert (k = 1) by (unfold k; destruct iu, ou; try discriminate E; cbn [metres_per_second]; field). split; [exact F|]. split; [|exact K].
    replace (dvalue x - k * dvalue x) with 0 by (rewrite H; ring). rewrite Rabs_R0. exact P5.
  - destruct Z as [Z|Z].
    + destruct (zero_cases x F Z) as (s & ->). destruct (convert_zero s iu ou) as (G & V). split; [exact G|]. split; [|exact K].
      rewrite V, Z. replace (0 - k * 0) with 0 by ring. rewrite !Rabs_R0. lra.
    + assert (H9 : (2:R) ^ 890 <= 2 ^ 900) by (apply Rle_pow; [lra|lia]).
      destruct (L_Units64.velocity_double_lemma x iu ou F ltac:(split; [exact Z|lra])) as (G & V). split; [exact G|]. split; [|exact K].
      replace (dvalue x * metres_per_second iu / metres_per_second ou) with (k * dvalue x) in V by (unfold k, Rdiv; ring).
      rewrite Rabs_mult, (Rabs_pos_eq k) in V by lra. exact V.
Qed.
Lemma turn2_diff t x y x' y' d : Rabs (x - x') <= d -> Rabs (y - y') <= d ->
  Rabs (ux (turn2 t (mkV2 x y)) - ux (turn2 t (mkV2 x' y'))) <= 2 * d /\ Rabs (uy (turn2 t (mkV2 x y)) - uy (turn2 t (mkV2 x' y'))) <= 2 * d.
Proof.
  intros A B. cbn [turn2 ux uy]. assert (C := COS_bound t). assert (S := SIN_bound t).
  assert (C1 : Rabs (cos t) <= 1) by (apply Rabs_le; lra). assert (S1 : Rabs (sin t) <= 1) by (apply Rabs_le; lra).
  assert (W : forall c z, Rabs c <= 1 -> Rabs z <= d -> Rabs (c * z) <= d).
  { intros c z Hc Hz. rewrite Rabs_mult. apply Rle_trans with (1 * Rabs z); [apply Rmult_le_compat_r; [apply Rabs_pos|exact Hc]|lra]. }
  split.
  - replace (cos t * x - sin t * y - (cos t * x' - sin t * y')) with (cos t * (x - x') + - (sin t * (y - y'))) by ring.
    apply Rle_trans with (1 := Rabs_triang _ _). rewrite Rabs_Ropp. assert (V1 := W _ _ C1 A). assert (V2 := W _ _ S1 B). lra.
  - replace (sin t * x + cos t * y - (sin t * x' + cos t * y')) with (sin t * (x - x') + cos t * (y - y')) by ring.
    apply Rle_trans with (1 := Rabs_triang _ _). assert (V1 := W _ _ S1 A). assert (V2 := W _ _ C1 B). lra.
Qed.
Lemma ned_velocity_double_pf : forall kappa (TT : NumTr f64), libm_near kappa TT -> 0 <= kappa <= 1000 ->
  forall lon lat angle au iu ou M, / 2 ^ 890 <= M <= 2 ^ 890 -> speed_ok M lon -> speed_ok M lat -> is_finite angle = true ->
  let t := radians au (dvalue angle) in let k := metres_per_second iu / metres_per_second ou in
  within2 ((2 * kappa + 16 + 10 * Rabs t) * uround * (k * M)) (GetNEDVelocityVector lon lat angle au iu ou)
    (scal2 k (turn2 t (mkV2 (dvalue lon) (dvalue lat)))).
Proof.
  intros kappa TT HT HK lon lat angle au iu ou M HM H1 H2 Fa. cbv zeta. set (t := radians au (dvalue angle)). set (k := metres_per_second iu / metres_per_second ou).
  assert (U := u_tiny). change uround with u53. assert (P890 : 0 < (2:R) ^ 890) by (apply pow_lt; lra). assert (I890 := Rinv_0_lt_compat _ P890).
  destruct (conv_ok iu ou lon M H1 ltac:(lra)) as (F1 & D1 & K). destruct (conv_ok iu ou lat M H2 ltac:(lra)) as (F2 & D2 & _). fold k in D1, D2, K.
  change (GetNEDVelocityVector lon lat angle au iu ou) with (ProjectLocalOnNED (mkV2 (conv iu ou lon) (conv iu ou lat)) angle au).
  set (a := conv iu ou lon) in *. set (b := conv iu ou lat) in *. destruct H1 as (_ & B1 & _). destruct H2 as (_ & B2 & _).
  assert (KM : 0 < k * M) by (apply Rmult_lt_0_compat; lra). assert (UK : 0 < u53 * (k * M)) by (apply Rmult_lt_0_compat; lra).
  assert (E1 : Rabs (dvalue a - k * dvalue lon) <= 5 * u53 * (k * M)) by (apply Rle_trans with (1 := D1); apply Rmult_le_compat_l; [lra|apply Rmult_le_compat_l; lra]).
  assert (E2 : Rabs (dvalue b - k * dvalue lat) <= 5 * u53 * (k * M)) by (apply Rle_trans with (1 := D2); apply Rmult_le_compat_l; [lra|apply Rmult_le_compat_l; lra]).
  set (M' := (1 + 5 * u53) * (k * M)).
  assert (BB : forall z w, Rabs (dvalue w) <= M -> Rabs (dvalue z - k * dvalue w) <= 5 * u53 * (k * M) -> Rabs (dvalue z) <= M').
  { intros z w Hw Hz. replace (dvalue z) with ((dvalue z - k * dvalue w) + k * dvalue w) by ring. apply Rle_trans with (1 := Rabs_triang _ _).
    rewrite (Rabs_mult k), (Rabs_pos_eq k) by lra. assert (k * Rabs (dvalue w) <= k * M) by (apply Rmult_le_compat_l; lra). unfold M'. lra. }
  assert (HM' : bpow radix2 (-900) <= M' <= bpow radix2 900).
  { change (-900)%Z with (-10 + -890)%Z. change 900%Z with (10 + 890)%Z. rewrite !bpow_plus. replace (bpow radix2 890) with ((2:R) ^ 890) by (rewrite bpow_powerRZ; reflexivity).
    replace (bpow radix2 (-890)) with (/ (2:R) ^ 890) by (rewrite bpow_powerRZ; reflexivity).
    replace (bpow radix2 (-10)) with (/ 1024) by (simpl; lra). replace (bpow radix2 10) with 1024 by (simpl; lra). set (p := (2:R) ^ 890) in *.
    assert (L1 : / 4 * M <= k * M <= 4 * M) by (split; apply Rmult_le_compat_r; lra). unfold M'.
    assert (L2 : 1 * (k * M) <= (1 + 5 * u53) * (k * M) <= 2 * (k * M)) by (split; apply Rmult_le_compat_r; lra). lra. }
  destruct (L_Rot64.project_lemma kappa TT HT HK (mkV2 a b) angle au M' HM') as (L & _).
  { split; cbn [ux uy]; (split; [assumption|]); [exact (BB a lon B1 E1)|exact (BB b lat B2 E2)]. }
  { exact Fa. }
  change (radians au (dvalue angle)) with t in L. change uround with u53 in L. unfold dvec2 in L. cbn [ux uy] in L.
  destruct (turn2_diff t _ _ _ _ _ E1 E2) as (T1 & T2). assert (T0 := Rabs_pos t).
  assert (UK1 : 0 <= Rabs t * (u53 * (k * M))) by (apply Rmult_le_pos; lra).
  assert (KU : 0 <= kappa * (u53 * (k * M))) by (apply Rmult_le_pos; lra).
  assert (EB : (2 * kappa + 5 + 9 * Rabs t) * u53 * M' + 2 * (5 * u53 * (k * M)) <= (2 * kappa + 16 + 10 * Rabs t) * u53 * (k * M)).
  { unfold M'. set (q := u53 * (k * M)) in *. replace ((2 * kappa + 5 + 9 * Rabs t) * u53 * ((1 + 5 * u53) * (k * M))) with ((1 + 5 * u53) * ((2 * kappa + 5 + 9 * Rabs t) * q)) by (unfold q; ring).
    replace ((2 * kappa + 16 + 10 * Rabs t) * u53 * (k * M)) with ((2 * kappa + 16 + 10 * Rabs t) * q) by (unfold q; ring). replace (2 * (5 * u53 * (k * M))) with (10 * q) by (unfold q; ring).
    assert (W : 5 * u53 * ((2 * kappa + 5 + 9 * Rabs t) * q) <= / 10000000000 * ((2 * kappa + 5 + 9 * Rabs t) * q)) by (apply Rmult_le_compat_r; [apply Rmult_le_pos; lra|lra]).
    assert (KQ : kappa * q <= 1000 * q) by (apply Rmult_le_compat_r; lra). lra. }
  destruct L as ((G1 & L1) & (G2 & L2)). unfold within2. cbn [scal2 ux uy]. split; (split; [assumption|]).
  - replace (k * ux (turn2 t (mkV2 (dvalue lon) (dvalue lat)))) with (ux (turn2 t (mkV2 (k * dvalue lon) (k * dvalue lat)))) by (cbn [turn2 ux uy]; ring).
    match goal with |- Rabs (?f - ?r) <= _ => replace (f - r) with ((f - ux (turn2 t (mkV2 (dvalue a) (dvalue b)))) + (ux (turn2 t (mkV2 (dvalue a) (dvalue b))) - r)) by ring end.
    apply Rle_trans with (1 := Rabs_triang _ _). lra.
  - replace (k * uy (turn2 t (mkV2 (dvalue lon) (dvalue lat)))) with (uy (turn2 t (mkV2 (k * dvalue lon) (k * dvalue lat)))) by (cbn [turn2 ux uy]; ring).
    match goal with |- Rabs (?f - ?r) <= _ => replace (f - r) with ((f - uy (turn2 t (mkV2 (dvalue a) (dvalue b)))) + (uy (turn2 t (mkV2 (dvalue a) (dvalue b))) - r)) by ring end.
    apply Rle_trans with (1 := Rabs_triang _ _). lra.
Qed.

(** ** Projected angles *)
Lemma degrees_near (f : f64) t kappa : 0 <= kappa <= 1000 -> - PI <= t <= PI -> within (kappa * u53) f t ->
  is_finite (f *! mu_180_pi (T := f64)) = true /\ Rabs (val (f *! mu_180_pi (T := f64)) / 180 * PI - t) <= (2 * kappa + 18) * u53.
Proof.
  intros HK Ht (F & E). assert (U := u_tiny). assert (P4 := PI_4). assert (P3 := PI2_3_2). assert (EP := eta64_pos). assert (EU := L_Arange64.eta_small).
  destruct L_Units64.apx_180_pi as (Fp & (c & Vp & Hc) & _). apply L_Units64.fac_err in Hc; [|lia].
  assert (Hc' : Rabs (c - 1) <= 3 * u53) by (revert Hc; cbn [INR]; lra).
  assert (VP : val (mu_180_pi (T := f64)) = 180 / PI * c) by (rewrite Vp; reflexivity). clear Vp Hc.
  set (q := 180 / PI) in *. assert (Q : 44 <= q <= 60).
  { unfold q. split; [apply Rmult_le_reg_r with PI; [lra|]; unfold Rdiv; rewrite Rmult_assoc, Rinv_l by lra; lra|].
    apply Rmult_le_reg_r with PI; [lra|]. unfold Rdiv. rewrite Rmult_assoc, Rinv_l by lra. lra. }
  assert (C1 : Rabs c <= 1001 / 1000) by (replace c with ((c - 1) + 1) by ring; apply Rle_trans with (1 := Rabs_triang _ _); rewrite (Rabs_pos_eq 1) by lra; lra).
  assert (KU : 0 <= kappa * u53 <= / 1000000000000) by (split; [apply Rmult_le_pos; lra|]; assert (kappa * u53 <= 1000 * u53) by (apply Rmult_le_compat_r; lra); lra).
  unfold dvalue in E. assert (T4 : Rabs t <= PI) by (apply Rabs_le; lra).
  assert (FV : Rabs (val f) <= 41 / 10) by (replace (val f) with ((val f - t) + t) by ring; apply Rle_trans with (1 := Rabs_triang _ _); lra).
  set (w := val f * c).
  assert (W : Rabs w <= 42 / 10) by (unfold w; rewrite Rabs_mult; apply Rle_trans with (41 / 10 * (1001 / 1000)); [apply Rmult_le_compat; try apply Rabs_pos; assumption|lra]).
  set (y := q * w).
  assert (Y : Rabs y <= 253) by (unfold y; rewrite Rabs_mult, (Rabs_pos_eq q) by lra; apply Rle_trans with (60 * (42 / 10)); [apply Rmult_le_compat; [lra|apply Rabs_pos|lra|exact W]|lra]).
  destruct (mult_ok f (mu_180_pi (T := f64)) F Fp) as (G & V).
  { rewrite VP. replace (val f * (q * c)) with y by (unfold y, w; ring). apply L_Gen64.small_big. apply Rle_trans with (1 := Y). change 1000%Z with (8 + 992)%Z. rewrite bpow_plus. replace (bpow radix2 8) with 256 by (simpl; lra).
    assert (1 <= bpow radix2 992) by (change 1 with (bpow radix2 0); apply bpow_le; lia). lra. }
  split; [exact G|]. rewrite V, VP. replace (val f * (q * c)) with y by (unfold y, w; ring). assert (R := L_F64Err.rnd_err y).
  replace (rnd64 y / 180 * PI - t) with ((rnd64 y - y) * / q + (w - t)) by (unfold y, q; field; lra).
  assert (IQ : / 60 <= / q <= / 44) by (split; apply Rinv_le_contravar; lra).
  assert (D1 : Rabs ((rnd64 y - y) * / q) <= 424 / 100 * u53).
  { rewrite Rabs_mult, (Rabs_pos_eq (/ q)) by lra. apply Rle_trans with ((u53 * Rabs y + eta64) * / q); [apply Rmult_le_compat_r; [lra|exact R]|].
    rewrite Rmult_plus_distr_r. replace (u53 * Rabs y * / q) with (u53 * Rabs w) by (unfold y; rewrite Rabs_mult, (Rabs_pos_eq q) by lra; field; lra).
    assert (u53 * Rabs w <= u53 * (42 / 10)) by (apply Rmult_le_compat_l; lra). assert (eta64 * / q <= / 1000 * u53 * / 44) by (apply Rmult_le_compat; lra). lra. }
  assert (D2 : Rabs (w - t) <= 1001 / 1000 * (kappa * u53) + 12 * u53).
  { replace (w - t) with (c * (val f - t) + t * (c - 1)) by (unfold w; ring). apply Rle_trans with (1 := Rabs_triang _ _). rewrite !Rabs_mult. apply Rplus_le_compat.
    - apply Rmult_le_compat; try apply Rabs_pos; assumption.
    - apply Rle_trans with (4 * (3 * u53)); [apply Rmult_le_compat; try apply Rabs_pos; lra|lra]. }
  apply Rle_trans with (1 := Rabs_triang _ _). lra.
Qed.
Lemma in_unit_near kappa (TT : NumTr f64) (y x : f64) u : libm_atan2 kappa TT -> 0 <= kappa <= 1000 -> is_finite y = true -> is_finite x = true ->
  exists t, angle_of (dvalue x) (dvalue y) t /\ is_finite (in_unit u (natan2 y x)) = true /\ Rabs (radians u (dvalue (in_unit u (natan2 y x))) - t) <= (2 * kappa + 18) * uround.
Proof.
  intros HL HK Fy Fx. destruct (HL y x Fy Fx) as (t & A & W). exists t. split; [exact A|]. change uround with u53 in *. destruct u; cbn [in_unit radians].
  - exact (degrees_near _ _ _ HK (proj1 A) W).
  - destruct W as (F & E). split; [exact F|]. assert (U := u_tiny). assert (0 <= kappa * u53) by (apply Rmult_le_pos; lra). lra.
Qed.
Lemma projected_angles_double_pf : forall kappa (TT : NumTr f64), libm_atan2 kappa TT -> 0 <= kappa <= 1000 -> forall (v : vec3 f64) u, finite3 v ->
  let close f t := is_finite f = true /\ Rabs (radians u (dvalue f) - t) <= (2 * kappa + 18) * uround in
  (exists t, angle_of (dvalue (vy v)) (dvalue (vz v)) t /\ close (GetProjectedAngleAroundX v u) t) /\
  (exists t, angle_of (dvalue (vz v)) (dvalue (vx v)) t /\ close (GetProjectedAngleAroundY v u) t) /\
  (exists t, angle_of (dvalue (vx v)) (dvalue (vy v)) t /\ close (GetProjectedAngleAroundZ v u) t).
Proof. intros kappa TT HL HK v u (F1 & F2 & F3). cbv zeta. split; [|split]; apply in_unit_near; assumption. Qed.

(** ** Bessel derivatives *)
Lemma pow100 : (2:R) ^ 100 = bpow radix2 100. Proof. rewrite bpow_powerRZ. reflexivity. Qed.
Lemma order_cases (n : Z) (order x : f64) : bessel_range n order x ->
  (n = 0%Z -> neq order (nofZ 0) = true) /\ (n <> 0%Z -> neq order (nofZ 0) = false) /\
  is_finite (order -! f64_ofZ 1) = true /\ dvalue (order -! f64_ofZ 1) = IZR (n - 1).
Proof.
  intros (F & V & N & _). destruct (ofZ_ok 0 ltac:(lia)) as (F0 & V0). destruct (ofZ_ok 1 ltac:(lia)) as (F1 & V1).
  assert (E : neq order (nofZ 0) = Req_bool (IZR n) 0) by (cbn [neq nofZ F64Num]; rewrite (Beqb_correct 53 1024 order (f64_ofZ 0) F F0), V0; unfold dvalue in V; rewrite V; reflexivity).
  split; [intros ->; rewrite E; apply Req_bool_true; reflexivity|]. split; [intros H; rewrite E; apply Req_bool_false; intros C; apply H, eq_IZR, C|].
  assert (FM : rnd64 (val order - val (f64_ofZ 1)) = IZR (n - 1)).
  { unfold dvalue in V. rewrite V, V1, <- minus_IZR. apply rnd64_id, fmt64_IZR. lia. }
  destruct (minus_ok order (f64_ofZ 1) F F1) as (G & W).
  { apply small_no_overflow. unfold dvalue in V. rewrite V, V1, <- minus_IZR, <- abs_IZR. apply Rle_trans with (IZR (2 ^ 51)); [apply IZR_le; lia|].
    change (IZR (2 ^ 51)) with (bpow radix2 51). apply bpow_le. discriminate. }
  split; [exact G|]. unfold dvalue. rewrite W. exact FM.
Qed.
Lemma core (fa fb order x : f64) n A B ea eb : bessel_range n order x -> n <> 0%Z -> within ea fa A -> within eb fb B -> 0 <= ea -> 0 <= eb ->
  let q := IZR n / dvalue x in ea + Rabs A <= bpow radix2 900 -> Rabs q * (eb + Rabs B) <= bpow radix2 900 ->
  within (bessel_err ea eb q A B) (fa -! (order /! x) *! fb) (A - q * B).
Proof.
  intros (Fo & Vo & No & Fx & Hx) Hn (Fa & Ea) (Fb & Eb) Pa Pb q HA HB. unfold dvalue in *. set (X := val x) in *. assert (U := u_tiny). assert (EP := eta64_pos).
  assert (P100 : 0 < (2:R) ^ 100) by (apply pow_lt; lra). assert (X0 : X <> 0) by (intros C; rewrite C, Rabs_R0 in Hx; assert (I := Rinv_0_lt_compat _ P100); lra).
  assert (N1 : 1 <= Rabs (IZR n) <= bpow radix2 50) by (rewrite <- abs_IZR; split; [apply IZR_le; lia|change (bpow radix2 50) with (IZR (2 ^ 50)); apply IZR_le; exact No]).
  assert (Q : bpow radix2 (-100) <= Rabs q <= bpow radix2 150).
  { unfold q, Rdiv. rewrite Rabs_mult, Rabs_inv. replace (bpow radix2 (-100)) with (1 * / 2 ^ 100) by (rewrite bpow_powerRZ, Rmult_1_l; reflexivity).
    change 150%Z with (50 + 100)%Z. rewrite bpow_plus, <- pow100. assert (I1 : / 2 ^ 100 <= / Rabs X) by (apply Rinv_le_contravar; lra).
    assert (I2 : / Rabs X <= 2 ^ 100) by (rewrite <- (Rinv_inv (2 ^ 100)); apply Rinv_le_contravar; [apply Rinv_0_lt_compat; lra|lra]).
    assert (0 < / 2 ^ 100) by (apply Rinv_0_lt_compat; lra). split; apply Rmult_le_compat; lra. }
  assert (OV : forall z, Rabs z <= 8 * bpow radix2 900 -> Rabs z <= fmax64 + bpow radix2 969).
  { intros z Hz. apply small_no_overflow. apply Rle_trans with (1 := Hz). change 8 with (bpow radix2 3). rewrite <- bpow_plus. apply bpow_le. discriminate. }
  destruct (div_ok order x Fo Fx X0) as (Fq & Vq).
  { rewrite Vo. fold X. fold q. apply OV. apply Rle_trans with (1 := proj2 Q). assert (bpow radix2 150 <= bpow radix2 900) by (apply bpow_le; discriminate). assert (P := bpow_gt_0 radix2 900). lra. }
  rewrite Vo in Vq. fold X in Vq. fold q in Vq.
  assert (Rq : Rabs (rnd64 q - q) <= u53 * Rabs q) by (apply rel_err; apply Rle_trans with (2 := proj1 Q); apply bpow_le; discriminate).
  set (q' := rnd64 q) in *. set (b := val fb) in *. set (a := val fa) in *. assert (Pq := Rabs_pos q). assert (PB := Rabs_pos B). assert (PA := Rabs_pos A).
  set (W := Rabs q * Rabs B) in *. set (w := Rabs q * eb) in *.
  assert (W0 : 0 <= W) by (apply Rmult_le_pos; assumption). assert (w0 : 0 <= w) by (apply Rmult_le_pos; assumption).
  assert (HB' : w + W <= bpow radix2 900) by (unfold w, W; rewrite <- Rmult_plus_distr_l; exact HB).
  assert (D1 : Rabs (q' * b - q * B) <= w + 102 / 100 * u53 * (W + w)).
  { replace (q' * b - q * B) with ((q' - q) * B + (q' - q) * (b - B) + q * (b - B)) by ring.
    apply Rle_trans with (1 := Rabs_triang _ _). apply Rle_trans with (u53 * (W + w) + w).
    - apply Rplus_le_compat.
      + apply Rle_trans with (1 := Rabs_triang _ _). rewrite !Rabs_mult. apply Rle_trans with (u53 * Rabs q * Rabs B + u53 * Rabs q * eb).
        * apply Rplus_le_compat; [apply Rmult_le_compat_r; assumption|apply Rmult_le_compat; try apply Rabs_pos; assumption].
        * unfold W, w. right. ring.
      + rewrite Rabs_mult. apply Rmult_le_compat_l; assumption.
    - assert (0 <= u53 * (W + w)) by (apply Rmult_le_pos; lra). lra. }
  assert (UW : 0 <= u53 * (W + w) <= / 1000 * (W + w)) by (split; [apply Rmult_le_pos; lra|apply Rmult_le_compat_r; lra]).
  assert (M1 : Rabs (q' * b) <= 1002 / 1000 * (W + w)).
  { replace (q' * b) with ((q' * b - q * B) + q * B) by ring. apply Rle_trans with (1 := Rabs_triang _ _). rewrite (Rabs_mult q B). fold W. lra. }
  destruct (mult_ok (order /! x) fb Fq Fb) as (Fm & Vm).
  { rewrite Vq. fold b. apply OV. apply Rle_trans with (1 := M1). lra. }
  rewrite Vq in Vm. fold b in Vm. assert (R1 := L_F64Err.rnd_err (q' * b)). set (p := rnd64 (q' * b)) in *.
  assert (E9 : eta64 <= bpow radix2 900) by (apply Rle_trans with 1; [assert (X1 := L_Arange64.eta_small); lra|change 1 with (bpow radix2 0); apply bpow_le; discriminate]).
  assert (UM : u53 * Rabs (q' * b) <= 1002 / 1000 * (u53 * (W + w))) by (apply Rle_trans with (u53 * (1002 / 1000 * (W + w))); [apply Rmult_le_compat_l; lra|lra]).
  assert (D2 : Rabs (p - q * B) <= w + 203 / 100 * (u53 * (W + w)) + eta64).
  { replace (p - q * B) with ((p - q' * b) + (q' * b - q * B)) by ring. apply Rle_trans with (1 := Rabs_triang _ _). lra. }
  assert (D3 : Rabs (a - p - (A - q * B)) <= ea + w + 203 / 100 * (u53 * (W + w)) + eta64).
  { replace (a - p - (A - q * B)) with ((a - A) + - (p - q * B)) by ring. apply Rle_trans with (1 := Rabs_triang _ _). rewrite Rabs_Ropp. lra. }
  assert (M2 : Rabs (a - p) <= Rabs A + W + (ea + w) + 3 / 1000 * (W + w) + eta64).
  { replace (a - p) with ((a - p - (A - q * B)) + (A + - (q * B))) by ring. apply Rle_trans with (1 := Rabs_triang _ _).
    assert (T := Rabs_triang A (- (q * B))). rewrite Rabs_Ropp, (Rabs_mult q B) in T. fold W in T. lra. }
  destruct (minus_ok fa ((order /! x) *! fb) Fa Fm) as (Fr & Vr).
  { rewrite Vm. fold a. apply OV. apply Rle_trans with (1 := M2). lra. }
  split; [exact Fr|]. unfold dvalue. rewrite Vr, Vm. fold a. assert (R2 := L_F64Err.rnd_err (a - p)).
  replace (rnd64 (a - p) - (A - q * B)) with ((rnd64 (a - p) - (a - p)) + (a - p - (A - q * B))) by ring. apply Rle_trans with (1 := Rabs_triang _ _).
  unfold bessel_err. cbv zeta. change uround with u53. rewrite uflow_eta. fold W. fold w.
  assert (UA : 0 <= u53 * (Rabs A + ea)) by (apply Rmult_le_pos; lra). assert (UE : u53 * eta64 <= / 1000 * eta64) by (apply Rmult_le_compat_r; lra).
  assert (R3 : u53 * Rabs (a - p) <= u53 * (Rabs A + W + (ea + w) + 3 / 1000 * (W + w) + eta64)) by (apply Rmult_le_compat_l; lra).
  lra.
Qed.

Lemma lift (fa fb : f64) A B ea eb q r : within ea fa A -> 0 <= ea -> 0 <= eb -> Rabs r = Rabs A -> within (bessel_err ea eb q A B) fa A.
Proof.
  intros (F & E) H1 H2 _. split; [exact F|]. apply Rle_trans with (1 := E). unfold bessel_err. cbv zeta. change uround with u53. assert (U := u_tiny). rewrite uflow_eta. assert (EP := eta64_pos).
  assert (P1 := Rabs_pos A). assert (P2 : 0 <= Rabs q * Rabs B) by (apply Rmult_le_pos; apply Rabs_pos). assert (P3 : 0 <= Rabs q * eb) by (apply Rmult_le_pos; [apply Rabs_pos|lra]).
  assert (0 <= 6 * u53 * (Rabs A + Rabs q * Rabs B + (ea + Rabs q * eb))) by (apply Rmult_le_pos; lra). lra.
Qed.
Lemma within_opp e (f : f64) A : within e f A -> within e (Bopp f) (- A).
Proof.
  intros (F & E). split; [rewrite is_finite_Bopp; exact F|]. unfold dvalue in *. rewrite B2R_Bopp.
  replace (- B2R f - - A) with (- (B2R f - A)) by ring. rewrite Rabs_Ropp. exact E.
Qed.
Lemma err_opp ea eb q A B : bessel_err ea eb q (- A) B = bessel_err ea eb q A B.
Proof. unfold bessel_err. rewrite Rabs_Ropp. reflexivity. Qed.
Lemma d_unique (G : R -> R -> R) n (x : f64) (v D : R) : Derive.is_derive (G (IZR n)) (dvalue x) v -> derivable_pt_lim (G (IZR n)) (dvalue x) D -> D = v.
Proof. intros H K. apply Derive.is_derive_Reals in H. eapply uniqueness_limite; eassumption. Qed.

Section BesselDouble.
Variables (F : f64 -> f64 -> f64) (G : R -> R -> R) (n : Z) (order x : f64) (ea eb : R).
Hypotheses (HR : bessel_range n order x) (HK : bessel_known ea eb F G n x).
Lemma x_nz : dvalue x <> 0.
Proof. destruct HR as (_ & _ & _ & _ & H & _). intros C. rewrite C, Rabs_R0 in H. assert (0 < / (2:R) ^ 100) by (apply Rinv_0_lt_compat, pow_lt; lra). lra. Qed.
Lemma Rneq0 : neq (T := R) (IZR n) (nofZ 0) = (n =? 0)%Z.
Proof. clear HR HK. cbv [neq RNum RNum_at nofZ]. unfold Reqb. destruct (Req_EM_T (IZR n) 0) as [E|E]; [apply eq_IZR in E; subst n; reflexivity|]. symmetry. apply Z.eqb_neq. intros ->. apply E. reflexivity. Qed.
(** [s] is the sign given to the value of the lower order, [z] the one it has at order 0. *)
Lemma both (v : f64) (s : bool) :
  v = (if neq order (nofZ 0) then F (nofZ 1) x else nsub (F (nsub order (nofZ 1)) x) (nmul (ndiv order x) (F order x))) ->
  within (bessel_err ea eb (IZR n / dvalue x) (G (IZR (lower n)) (dvalue x)) (G (IZR n) (dvalue x))) v
    (if (n =? 0)%Z then G 1 (dvalue x) else G (IZR n - 1) (dvalue x) - IZR n / dvalue x * G (IZR n) (dvalue x)).
Proof.
  intros ->. destruct (order_cases _ _ _ HR) as (O1 & O2 & O3 & O4). destruct HK as (N1 & N2 & P1 & P2 & S1 & S2). unfold lower in *. destruct (Z.eqb_spec n 0) as [E|E].
  - rewrite (O1 E). destruct (ofZ_ok 1 ltac:(lia)) as (F1 & V1). apply (lift _ (F order x) _ _ _ _ _ (G 1 (dvalue x))); [|assumption|assumption|reflexivity]. exact (N1 (f64_ofZ 1) F1 V1).
  - rewrite (O2 E). replace (IZR n - 1) with (IZR (n - 1)) by (rewrite minus_IZR; reflexivity).
    apply core; try assumption; [exact (N1 _ O3 O4)|]. destruct HR as (Fo & Vo & _). exact (N2 _ Fo Vo).
Qed.
Lemma both_k (v : f64) :
  v = (if neq order (nofZ 0) then nneg (F (nofZ 1) x) else nsub (nneg (F (nsub order (nofZ 1)) x)) (nmul (ndiv order x) (F order x))) ->
  within (bessel_err ea eb (IZR n / dvalue x) (G (IZR (lower n)) (dvalue x)) (G (IZR n) (dvalue x))) v
    (if (n =? 0)%Z then - G 1 (dvalue x) else - G (IZR n - 1) (dvalue x) - IZR n / dvalue x * G (IZR n) (dvalue x)).
Proof.
  intros ->. destruct (order_cases _ _ _ HR) as (O1 & O2 & O3 & O4). destruct HK as (N1 & N2 & P1 & P2 & S1 & S2). rewrite <- err_opp. unfold lower in *. destruct (Z.eqb_spec n 0) as [E|E].
  - rewrite (O1 E). destruct (ofZ_ok 1 ltac:(lia)) as (F1 & V1). apply (lift _ (F order x) _ _ _ _ _ (- G 1 (dvalue x))); [|assumption|assumption|reflexivity]. apply within_opp. exact (N1 (f64_ofZ 1) F1 V1).
  - rewrite (O2 E). replace (IZR n - 1) with (IZR (n - 1)) by (rewrite minus_IZR; reflexivity).
    apply core; try assumption; [apply within_opp; exact (N1 _ O3 O4)| |rewrite Rabs_Ropp; exact S1]. destruct HR as (Fo & Vo & _). exact (N2 _ Fo Vo).
Qed.
Lemma both_j (v : f64) :
  v = (if neq order (nofZ 0) then nneg (F (nofZ 1) x) else nsub (F (nsub order (nofZ 1)) x) (nmul (ndiv order x) (F order x))) ->
  within (bessel_err ea eb (IZR n / dvalue x) (G (IZR (lower n)) (dvalue x)) (G (IZR n) (dvalue x))) v
    (if (n =? 0)%Z then - G 1 (dvalue x) else G (IZR n - 1) (dvalue x) - IZR n / dvalue x * G (IZR n) (dvalue x)).
Proof.
  intros E. destruct (order_cases _ _ _ HR) as (O1 & O2 & _). destruct (Z.eqb_spec n 0) as [N|N].
  - assert (K := both_k v). rewrite (O1 N) in *. specialize (K E). rewrite (proj2 (Z.eqb_eq n 0) N) in K. exact K.
  - assert (K := both v true). rewrite (O2 N) in *. specialize (K E). rewrite (proj2 (Z.eqb_neq n 0) N) in K. exact K.
Qed.
Lemma j_real : bessel_derivative (T := R) Ropp G (IZR n) (dvalue x) = if (n =? 0)%Z then - G 1 (dvalue x) else G (IZR n - 1) (dvalue x) - IZR n / dvalue x * G (IZR n) (dvalue x).
Proof. unfold bessel_derivative. rewrite Rneq0. destruct (n =? 0)%Z; reflexivity. Qed.
Lemma i_real : bessel_i_derivative (T := R) G (IZR n) (dvalue x) = if (n =? 0)%Z then G 1 (dvalue x) else G (IZR n - 1) (dvalue x) - IZR n / dvalue x * G (IZR n) (dvalue x).
Proof. unfold bessel_i_derivative. rewrite Rneq0. destruct (n =? 0)%Z; reflexivity. Qed.
Lemma k_real : bessel_k_derivative (T := R) Ropp G (IZR n) (dvalue x) = if (n =? 0)%Z then - G 1 (dvalue x) else - G (IZR n - 1) (dvalue x) - IZR n / dvalue x * G (IZR n) (dvalue x).
Proof. unfold bessel_k_derivative. rewrite Rneq0. destruct (n =? 0)%Z; reflexivity. Qed.
Lemma j_close v : S_Special.bessel_relations G (IZR n) (dvalue x) ->
  v = (if neq order (nofZ 0) then nneg (F (nofZ 1) x) else nsub (F (nsub order (nofZ 1)) x) (nmul (ndiv order x) (F order x))) -> bessel_close ea eb G n x v.
Proof. intros H E D HD. rewrite (d_unique _ _ _ _ _ (L_Bessel.derivative_lemma _ _ _ x_nz H) HD), j_real. apply both_j. exact E. Qed.
End BesselDouble.

Lemma bessel_double_pf : forall F G n (order x : f64) ea eb, bessel_range n order x -> bessel_known ea eb F G n x ->
  (S_Special.bessel_relations G (IZR n) (dvalue x) -> bessel_close ea eb G n x (bessel_derivative (nneg (T := f64)) F order x)) /\
  (S_Special.modified_i_relations G (IZR n) (dvalue x) -> bessel_close ea eb G n x (bessel_i_derivative F order x)) /\
  (S_Special.modified_k_relations G (IZR n) (dvalue x) -> bessel_close ea eb G n x (bessel_k_derivative (nneg (T := f64)) F order x)).
Proof.
  intros F G n order x ea eb HR HK. split; [|split].
  - intros H. exact (j_close F G n order x ea eb HR HK _ H eq_refl).
  - intros H D HD. rewrite (d_unique _ _ _ _ _ (L_Bessel.i_derivative_lemma _ _ _ (x_nz n order x HR) H) HD), i_real. apply (both F G n order x ea eb HR HK _ true). reflexivity.
  - intros H D HD. rewrite (d_unique _ _ _ _ _ (L_Bessel.k_derivative_lemma _ _ _ (x_nz n order x HR) H) HD), k_real. apply (both_k F G n order x ea eb HR HK). reflexivity.
Qed.
Lemma hankel_double_pf : forall (H : f64 -> f64 -> f64 * f64) J Y n (order x : f64) ea eb ea' eb', bessel_range n order x ->
  bessel_known ea eb (fun o z => fst (H o z)) J n x -> bessel_known ea' eb' (fun o z => snd (H o z)) Y n x ->
  S_Special.bessel_relations J (IZR n) (dvalue x) -> S_Special.bessel_relations Y (IZR n) (dvalue x) ->
  let r := bessel_derivative (VT := VNum_complex) (fun z => (nneg (fst z), nneg (snd z))) H order x in
  bessel_close ea eb J n x (fst r) /\ bessel_close ea' eb' Y n x (snd r).
Proof.
  intros H J Y n order x ea eb ea' eb' HR KJ KY RJ RY r. split.
  - apply (j_close _ J n order x ea eb HR KJ _ RJ). unfold r, bessel_derivative. destruct (neq order (nofZ 0)); reflexivity.
  - apply (j_close _ Y n order x ea' eb' HR KY _ RY). unfold r, bessel_derivative. destruct (neq order (nofZ 0)); reflexivity.
Qed.

(** ** Sampled impulse *)
Lemma sub_near (a b : f64) : sample_ok a -> sample_ok b -> is_finite (a -! b) = true /\ Rabs (val (a -! b) - (val a - val b)) <= u53 * Rabs (val a - val b).
Proof.
  intros (Fa & Ha) (Fb & Hb). unfold dvalue in *. destruct (minus_ok a b Fa Fb) as (F & V).
  - replace ((2:R) ^ 1000) with (bpow radix2 1000) in * by (rewrite bpow_powerRZ; reflexivity). apply big_over. fold big in *. assert (T := Rabs_triang (val a) (- val b)). rewrite Rabs_Ropp in T. unfold Rminus. assert (P := big_pos). lra.
  - split; [exact F|]. rewrite V. assert (S := sum_err (val a) (- val b) (fmt64_val a)). unfold Rminus in *. apply S. rewrite <- B2R_Bopp. apply fmt64_val.
Qed.
Definition thr (a b : f64) : f64 := nlit (T := f64) 1 2 *! (b -! a).
Lemma half_lit : is_finite (nlit (T := f64) 1 2) = true /\ val (nlit (T := f64) 1 2) = / 2.
Proof. split; [vm_compute; reflexivity|]. unfold nlit. cbn [ndiv nofZ F64Num]. destruct (ofZ_ok 1 ltac:(lia)) as (F1 & V1). destruct (ofZ_ok 2 ltac:(lia)) as (F2 & V2).
  destruct (div_ok (f64_ofZ 1) (f64_ofZ 2) F1 F2) as (_ & V); [rewrite V2; lra| |].
  - rewrite V1, V2. apply small_no_overflow. rewrite Rabs_pos_eq by lra. apply Rle_trans with 1; [lra|]. change 1 with (bpow radix2 0). apply bpow_le. discriminate.
  - rewrite V, V1, V2. replace (1 / 2) with (bpow radix2 (-1)) by (simpl; lra). rewrite rnd64_id by (apply fmt64_bpow; discriminate). simpl. lra.
Qed.
Lemma thr_near (a b : f64) : sample_ok a -> sample_ok b -> is_finite (thr a b) = true /\
  (/ 2 ^ 1000 <= dvalue b - dvalue a -> (1 - 2 * u53) * (dvalue b - dvalue a) / 2 <= val (thr a b) <= (1 + 3 * u53) * (dvalue b - dvalue a) / 2) /\
  (dvalue b <= dvalue a -> val (thr a b) <= 0).
Proof.
  intros Ha Hb. destruct (sub_near b a Hb Ha) as (F & E). destruct half_lit as (Fh & Vh). assert (U := u_tiny). unfold dvalue.
  set (d := val b - val a) in *. set (s := val (b -! a)) in *.
  destruct (mult_ok (nlit (T := f64) 1 2) (b -! a) Fh F) as (G & V).
  { rewrite Vh. fold s. rewrite Rabs_mult, (Rabs_pos_eq (/ 2)) by lra. assert (A := abs_val_fmax (b -! a)). fold s in A. assert (P := bpow_gt_0 radix2 969). assert (Q := Rabs_pos s). lra. }
  rewrite Vh in V. fold s in V. split; [exact G|]. unfold thr. rewrite V. split.
  - intros H. assert (P1 : 0 < / (2:R) ^ 1000) by (apply Rinv_0_lt_compat, pow_lt; lra). rewrite (Rabs_pos_eq d) in E by lra. apply Rabs_le_inv in E.
    assert (UD : 0 <= u53 * d <= / 1000 * d) by (split; [apply Rmult_le_pos; lra|apply Rmult_le_compat_r; lra]).
    assert (S1 : / 2 * s * (1 - u53) <= rnd64 (/ 2 * s) <= / 2 * s * (1 + u53)).
    { apply rel_err_pos. replace (bpow radix2 (-1022)) with (/ 2 ^ 1000 * / 2 ^ 22) by (rewrite <- Rinv_mult, <- pow_add, bpow_powerRZ; reflexivity).
      assert (/ (2:R) ^ 22 <= / 10) by (apply Rinv_le_contravar; [lra|simpl; lra]). assert (/ 2 ^ 1000 * / 2 ^ 22 <= / 2 ^ 1000 * / 10) by (apply Rmult_le_compat_l; lra). lra. }
    assert (UU : 0 <= u53 * (u53 * d) <= / 1000 * (u53 * d)) by (split; [apply Rmult_le_pos; lra|apply Rmult_le_compat_r; lra]).
    assert (US1 : u53 * s <= u53 * (d + u53 * d)) by (apply Rmult_le_compat_l; lra).
    assert (US2 : (1 - u53) * (d - u53 * d) <= (1 - u53) * s) by (apply Rmult_le_compat_l; lra). split; lra.
  - intros H. assert (s <= 0). { rewrite (Rabs_left1 d) in E by (unfold d; lra). apply Rabs_le_inv in E. assert (d <= 0) by (unfold d; lra). assert (u53 * - d <= 1 * - d) by (apply Rmult_le_compat_r; lra). lra. }
    rewrite <- (rnd64_id 0 (fmt64_IZR 0 ltac:(lia))). apply rnd64_le. lra.
Qed.
Definition hit (a b imp height xi : f64) : f64 := if nlt (Babs (xi -! imp)) (thr a b) then height else nofZ 0.
Lemma mapM_Ok {A B} (f : A -> outcome B) (g : A -> B) l : (forall x, f x = Ok (g x)) -> mapM f l = Ok (map g l).
Proof. intros H. induction l as [|x l IH]; cbn [mapM map]; [reflexivity|]. rewrite H. cbn [bind]. rewrite IH. reflexivity. Qed.
Lemma dirac_unfold x imp h : (2 <= length x)%nat -> Dirac AbsReal x imp h = Ok (map (hit (nth 0 x (f64_ofZ 0)) (nth 1 x (f64_ofZ 0)) imp h) x).
Proof.
  intros H. destruct x as [|x0 [|x1 x]]; cbn [length] in H; try lia. unfold Dirac. cbn [vidx nth_error bind nth]. apply mapM_Ok. intros y. reflexivity.
Qed.
Lemma hit_cases a b imp h xi : sample_ok a -> sample_ok b -> sample_ok imp -> sample_ok xi ->
  let step := dvalue b - dvalue a in let d := Rabs (dvalue xi - dvalue imp) in
  (/ 2 ^ 1000 <= step -> d < (1 - 4 * u53) * (step / 2) -> hit a b imp h xi = h) /\
  (/ 2 ^ 1000 <= step -> (1 + 5 * u53) * (step / 2) <= d -> hit a b imp h xi = f64_ofZ 0) /\
  (step <= 0 -> hit a b imp h xi = f64_ofZ 0).
Proof.
  intros Ha Hb Hi Hx step d. destruct (thr_near a b Ha Hb) as (Ft & T1 & T2). fold step in T1. destruct (sub_near xi imp Hx Hi) as (Fd & E). unfold dvalue in *. assert (U := u_tiny).
  assert (Fa : is_finite (Babs (xi -! imp)) = true) by (rewrite is_finite_Babs; exact Fd).
  assert (VA : val (Babs (xi -! imp)) = Rabs (val (xi -! imp))) by apply B2R_Babs.
  assert (L1 : (1 - u53) * d <= Rabs (val (xi -! imp)) <= (1 + u53) * d).
  { fold d in E. assert (K1 := Rabs_triang_inv (val (xi -! imp)) (val xi - val imp)). assert (K2 := Rabs_triang_inv (val xi - val imp) (val (xi -! imp))). fold d in K1, K2.
    rewrite <- Rabs_Ropp in E. replace (- (val (xi -! imp) - (val xi - val imp))) with (val xi - val imp - val (xi -! imp)) in E by ring.
    assert (E2 := E). rewrite <- Rabs_Ropp in E2. replace (- (val xi - val imp - val (xi -! imp))) with (val (xi -! imp) - (val xi - val imp)) in E2 by ring. lra. }
  assert (D0 : 0 <= d) by apply Rabs_pos. unfold hit.
  assert (P1 : 0 < / (2:R) ^ 1000) by (apply Rinv_0_lt_compat, pow_lt; lra).
  split; [|split].
  - intros Hs Hd. specialize (T1 Hs). rewrite nlt_lt; [reflexivity|exact Fa|exact Ft|]. rewrite VA. unfold step in *.
    set (m := (val b - val a) / 2) in *. assert (M : 0 < m) by (unfold m; lra).
    replace ((1 - 2 * u53) * (val b - val a) / 2) with ((1 - 2 * u53) * m) in T1 by (unfold m; field).
    assert (UD : u53 * d <= u53 * ((1 - 4 * u53) * m)) by (apply Rmult_le_compat_l; lra). assert (0 <= u53 * (u53 * m)) by (apply Rmult_le_pos; [|apply Rmult_le_pos]; lra). lra.
  - intros Hs Hd. specialize (T1 Hs). rewrite nlt_ge; [reflexivity|exact Fa|exact Ft|]. rewrite VA. unfold step in *.
    set (m := (val b - val a) / 2) in *. assert (M : 0 < m) by (unfold m; lra).
    replace ((1 + 3 * u53) * (val b - val a) / 2) with ((1 + 3 * u53) * m) in T1 by (unfold m; field).
    assert (UM : u53 * (u53 * m) <= / 1000 * (u53 * m)) by (apply Rmult_le_compat_r; [apply Rmult_le_pos|]; lra).
    assert (0 <= u53 * m) by (apply Rmult_le_pos; lra).
    assert (W : (1 - u53) * ((1 + 5 * u53) * m) <= (1 - u53) * d) by (apply Rmult_le_compat_l; lra). lra.
  - intros Hs. rewrite nlt_ge; [reflexivity|exact Fa|exact Ft|]. rewrite VA. specialize (T2 ltac:(unfold step in Hs; lra)). assert (Q := Rabs_pos (val (xi -! imp))). lra.
Qed.
Lemma dirac_double_pf : forall (x : list f64) imp h, (2 <= length x)%nat -> Forall sample_ok x -> sample_ok imp ->
  let at_ k := dvalue (nth k x (f64_ofZ 0)) in let step := at_ 1%nat - at_ 0%nat in
  exists l, Dirac AbsReal x imp h = Ok l /\ length l = length x /\
  forall k, (k < length x)%nat -> let d := Rabs (at_ k - dvalue imp) in let r := nth k l (f64_ofZ 0) in
    (/ 2 ^ 1000 <= step -> d < (1 - 4 * uround) * (step / 2) -> r = h) /\
    (/ 2 ^ 1000 <= step -> (1 + 5 * uround) * (step / 2) <= d -> r = f64_ofZ 0) /\
    (step <= 0 -> r = f64_ofZ 0) /\ (r = h \/ r = f64_ofZ 0).
Proof.
  intros x imp h HL HF Hi at_ step. rewrite dirac_unfold by exact HL. set (f := hit _ _ imp h). exists (map f x). rewrite map_length. split; [reflexivity|]. split; [reflexivity|].
  intros k Hk d r. assert (N : forall j, (j < length x)%nat -> sample_ok (nth j x (f64_ofZ 0))) by (intros j Hj; rewrite Forall_forall in HF; apply HF, nth_In, Hj).
  assert (E : r = f (nth k x (f64_ofZ 0))) by (unfold r; rewrite (nth_indep (map f x) (f64_ofZ 0) (f (f64_ofZ 0))) by (rewrite map_length; exact Hk); apply map_nth).
  destruct (hit_cases _ _ _ h _ (N 0%nat ltac:(lia)) (N 1%nat ltac:(lia)) Hi (N k Hk)) as (C1 & C2 & C3). rewrite E. change uround with u53.
  split; [exact C1|]. split; [exact C2|]. split; [exact C3|]. unfold f, hit. destruct (nlt _ _); [left|right]; reflexivity.
Qed.
Lemma list_ext (l l' : list f64) d : length l = length l' -> (forall k, (k < length l)%nat -> nth k l d = nth k l' d) -> l = l'.
Proof. intros H K. apply nth_ext with d d; assumption. Qed.
Lemma dirac_impulse_pf : forall (x : list f64) k h, (2 <= length x)%nat -> (k < length x)%nat -> Forall sample_ok x ->
  let at_ j := dvalue (nth j x (f64_ofZ 0)) in let step := at_ 1%nat - at_ 0%nat in / 2 ^ 1000 <= step ->
  (forall j, (j < length x)%nat -> j <> k -> 51 / 100 * step <= Rabs (at_ j - at_ k)) ->
  Dirac AbsReal x (nth k x (f64_ofZ 0)) h = Ok (impulse64 (length x) k h).
Proof.
  intros x k h HL Hk HF at_ step Hs Hd. assert (U := u_tiny).
  assert (Hi : sample_ok (nth k x (f64_ofZ 0))) by (rewrite Forall_forall in HF; apply HF, nth_In, Hk).
  destruct (dirac_double_pf x (nth k x (f64_ofZ 0)) h HL HF Hi) as (l & E & Ll & V). rewrite E. f_equal. unfold impulse64.
  apply list_ext with (f64_ofZ 0); [rewrite map_length, seq_length; exact Ll|]. intros j Hj. rewrite Ll in Hj. specialize (V j Hj). cbv zeta in V. fold (at_ j) in V. fold (at_ 1%nat) in V. fold (at_ 0%nat) in V. fold step in V. change uround with u53 in V.
  fold (at_ k) in V. assert (P1 : 0 < / (2:R) ^ 1000) by (apply Rinv_0_lt_compat, pow_lt; lra).
  set (g := fun i : nat => if (i =? k)%nat then h else f64_ofZ 0). rewrite (nth_indep (map g (seq 0 (length x))) (f64_ofZ 0) (g 0%nat)) by (rewrite map_length, seq_length; exact Hj).
  rewrite map_nth, seq_nth by exact Hj. rewrite Nat.add_0_l. unfold g. destruct V as (V1 & V2 & _). destruct (Nat.eqb_spec j k) as [->|N].
  - apply V1; [exact Hs|]. rewrite Rminus_diag_eq, Rabs_R0 by reflexivity. apply Rmult_lt_0_compat; lra.
  - apply V2; [exact Hs|]. apply Rle_trans with (2 := Hd j Hj N). assert (u53 * step <= / 1000 * step) by (apply Rmult_le_compat_r; lra). lra.
Qed.

Lemma dirac_linspace_pf : forall bm (start stop : f64) n, grid_ready start stop n -> Rabs (dvalue start) <= 2 ^ 1000 -> Rabs (dvalue stop) <= 2 ^ 1000 ->
  let s := (dvalue stop - dvalue start) / INR (n - 1) in / 2 ^ 999 <= s -> uround * grid_size start stop <= / 1000 * s ->
  exists x, linspace bm start stop n = Ok x /\ forall k h, (k < n)%nat -> Dirac AbsReal x (nth k x (f64_ofZ 0)) h = Ok (impulse64 n k h).
Proof.
  intros bm start stop n (H1 & H2 & H3 & H4 & H5 & H6 & H7) B1 B2 s Hs HG.
  destruct (linspace_double_lemma bm start stop n H1 H2 H3 H4 H5 H6 H7) as (x & E & Lx & _ & _ & HX & _). exists x. split; [exact E|]. intros k h Hk.
  assert (P1 : 0 < / (2:R) ^ 999) by (apply Rinv_0_lt_compat, pow_lt; lra).
  assert (NI : forall j, (j < n)%nat -> nth j x start = nth j x (f64_ofZ 0)) by (intros j Hj; apply nth_indep; lia).
  assert (V : forall j, (j < n)%nat -> Rabs (dvalue (nth j x (f64_ofZ 0)) - (dvalue start + INR j * s)) <= / 1000 * s).
  { intros j Hj. destruct (HX j Hj) as (_ & _ & D). rewrite (NI j Hj) in D. fold s in D. apply Rle_trans with (1 := D). exact HG. }
  rewrite <- Lx. apply dirac_impulse_pf; [lia|lia| |cbv zeta|cbv zeta].
  - rewrite Forall_forall. intros y Hy. apply (In_nth _ _ start) in Hy. destruct Hy as (j & Hj & <-). destruct (HX j ltac:(lia)) as (F & (A & B) & _). split; [exact F|]. apply Rabs_le_inv in B1, B2. apply Rabs_le. lra.
  - assert (V1 := V 1%nat ltac:(lia)). assert (V0 := V 0%nat ltac:(lia)). apply Rabs_le_inv in V1, V0. change (INR 1) with 1 in V1. change (INR 0) with 0 in V0.
    assert (/ 2 ^ 1000 <= / 2 * / 2 ^ 999) by (rewrite <- Rinv_mult; right; reflexivity). lra.
  - intros j Hj N. rewrite Lx in Hj. assert (V1 := V 1%nat ltac:(lia)). assert (V0 := V 0%nat ltac:(lia)). apply Rabs_le_inv in V1, V0. change (INR 1) with 1 in V1. change (INR 0) with 0 in V0.
    assert (Vj := V j Hj). assert (Vk := V k Hk). apply Rabs_le_inv in Vj, Vk.
    destruct (Nat.lt_ge_cases j k) as [L|L].
    + assert (I : INR j + 1 <= INR k) by (rewrite <- S_INR; apply le_INR; lia). assert ((INR j + 1) * s <= INR k * s) by (apply Rmult_le_compat_r; lra).
      rewrite Rabs_left1; lra.
    + assert (I : INR k + 1 <= INR j) by (rewrite <- S_INR; apply le_INR; lia). assert ((INR k + 1) * s <= INR j * s) by (apply Rmult_le_compat_r; lra).
      rewrite Rabs_pos_eq; lra.
Qed.

(** ** Examples *)
Lemma ofR_4 t : Rabs t <= 4 -> is_finite (ofR t) = true /\ Rabs (val (ofR t) - t) <= 5 * u53.
Proof.
  intros H. assert (U := u_tiny). destruct (Rle_lt_dec (Rabs t) 1) as [L|L].
  - destruct (L_Rot64.ofR_ok t L) as (F & V). split; [exact F|]. rewrite V. assert (R := L_F64Err.rnd_err t). assert (ES := L_Arange64.eta_small).
    assert (u53 * Rabs t <= u53 * 1) by (apply Rmult_le_compat_l; lra). lra.
  - destruct (L_E1d.ofR_rel t) as (F & V).
    + right. split; [apply Rle_trans with 1; [change 1 with (bpow radix2 0); apply bpow_le; discriminate|lra]|].
      apply Rle_trans with (1 := H). change 4 with (bpow radix2 2). apply bpow_le. discriminate.
    + split; [exact F|]. apply Rle_trans with (1 := V). assert (u53 * Rabs t <= u53 * 4) by (apply Rmult_le_compat_l; lra). lra.
Qed.
Lemma exact_atan2_near : libm_atan2 5 exact_atan2.
Proof.
  intros y x Fy Fx. exists (Ratan2 (dvalue y) (dvalue x)). assert (RG := L_Geometry.Ratan2_range (dvalue y) (dvalue x)). destruct (L_Geometry.Ratan2_spec (dvalue y) (dvalue x)) as (S1 & S2).
  split; [split; [lra|split; symmetry; assumption]|]. cbn [natan2 exact_atan2]. assert (P4 := PI_4). apply ofR_4. apply Rabs_le. lra.
Qed.
Lemma besselJ_bound n x : Rabs (S_Special.BesselJ n x) <= 1.
Proof.
  unfold S_Special.BesselJ. assert (P := PI_RGT_0). rewrite Rabs_mult, (Rabs_pos_eq (/ PI)) by (left; apply Rinv_0_lt_compat; exact P).
  assert (B : Rabs (RInt.RInt (fun t => cos (n * t - x * sin t)) 0 PI) <= (PI - 0) * 1).
  { apply (RInt.abs_RInt_le_const (fun t => cos (n * t - x * sin t)) 0 PI 1); [lra|apply L_Bessel.ex_cosphase|intros t _; apply Rabs_le; destruct (COS_bound (n * t - x * sin t)); lra]. }
  apply Rle_trans with (/ PI * ((PI - 0) * 1)); [apply Rmult_le_compat_l; [left; apply Rinv_0_lt_compat; exact P|exact B]|]. right. field. lra.
Qed.
(** The correctly rounded J. *)
Lemma ex_bessel : bessel_close (5 * uround) (5 * uround) S_Special.BesselJ 2 (f64_ofZ 3)
  (bessel_derivative (nneg (T := f64)) (fun o z => ofR (S_Special.BesselJ (dvalue o) (dvalue z))) (f64_ofZ 2) (f64_ofZ 3)).
Proof.
  destruct (ofZ_ok 2 ltac:(lia)) as (F2 & V2). destruct (ofZ_ok 3 ltac:(lia)) as (F3 & V3). assert (U := u_tiny).
  assert (NA : forall n x, near_at (5 * u53) (fun o z => ofR (S_Special.BesselJ (dvalue o) (dvalue z))) S_Special.BesselJ n x).
  { intros n x o Fo Vo. rewrite Vo. apply ofR_4. apply Rle_trans with (1 := besselJ_bound _ _). lra. }
  assert (B9 : 10 <= bpow radix2 900) by (apply Rle_trans with (bpow radix2 4); [simpl; lra|apply bpow_le; discriminate]).
  apply (proj1 (bessel_double_pf _ S_Special.BesselJ 2 (f64_ofZ 2) (f64_ofZ 3) (5 * uround) (5 * uround)
    ltac:(split; [exact F2|]; split; [exact V2|]; split; [lia|]; split; [exact F3|]; unfold dvalue; rewrite V3, Rabs_pos_eq by lra; split; [apply Rle_trans with 1; [rewrite <- Rinv_1; apply Rinv_le_contravar; [lra|apply pow_R1_Rle; lra]|lra]|apply Rle_trans with (2 ^ 2); [simpl; lra|apply Rle_pow; [lra|lia]]])
    ltac:(change uround with u53; split; [apply NA|]; split; [apply NA|]; split; [lra|]; split; [lra|]; split;
      [assert (B := besselJ_bound (IZR (lower 2)) (dvalue (f64_ofZ 3))); lra|
       assert (B := besselJ_bound (IZR 2) (dvalue (f64_ofZ 3))); replace (dvalue (f64_ofZ 3)) with 3 in * by (symmetry; exact V3); rewrite (Rabs_pos_eq (2 / 3)) by lra; lra]))).
  apply L_Bessel.BesselJ_relations. unfold dvalue. rewrite V3. lra.
Qed.
Lemma ex_dirac : exists x, linspace Release (f64_ofZ 0) (f64_ofZ 2) 3 = Ok x /\
  Dirac AbsReal x (nth 1 x (f64_ofZ 0)) (f64_ofZ 7) = Ok [f64_ofZ 0; f64_ofZ 7; f64_ofZ 0].
Proof.
  destruct (ofZ_ok 0 ltac:(lia)) as (F0 & V0). destruct (ofZ_ok 2 ltac:(lia)) as (F2 & V2). assert (U := u_tiny).
  assert (P1 : 1 <= (2:R) ^ 999) by (apply pow_R1_Rle; lra). assert (P2 : 2 <= (2:R) ^ 1000) by (change 1000%nat with (S 999); cbn [pow]; lra).
  destruct (dirac_linspace_pf Release (f64_ofZ 0) (f64_ofZ 2) 3 L_Gen64.ex_grid) as (x & E & V).
  - unfold dvalue. rewrite V0, Rabs_R0. lra.
  - unfold dvalue. rewrite V2, Rabs_pos_eq by lra. exact P2.
  - unfold dvalue. rewrite V0, V2. replace ((2 - 0) / INR (3 - 1)) with 1 by (simpl; field). apply Rle_trans with (/ 1); [apply Rinv_le_contravar; lra|lra].
  - unfold grid_size, dvalue. rewrite V0, V2. replace ((2 - 0) / INR (3 - 1)) with 1 by (simpl; field). rewrite Rabs_R0, Rabs_pos_eq, Rmax_right by lra. change uround with u53. lra.
  - exists x. split; [exact E|]. exact (V 1%nat (f64_ofZ 7) ltac:(lia)).
Qed.
Lemma ex_ned : within2 ((2 * 2 + 16 + 10 * Rabs (30 / 180 * PI)) * uround * ((1000 / 3600 / 1) * 36))
  (GetNEDVelocityVector (TT := exact_trig) (f64_ofZ 36) (f64_ofZ 0) (f64_ofZ 30) DEG KMH MS) (scal2 (1000 / 3600 / 1) (turn2 (30 / 180 * PI) (mkV2 36 0))).
Proof.
  destruct (ofZ_ok 0 ltac:(lia)) as (F0 & V0). destruct (ofZ_ok 36 ltac:(lia)) as (F2 & V2). destruct (ofZ_ok 30 ltac:(lia)) as (F3 & V3).
  assert (P1 : 36 <= (2:R) ^ 890) by (apply Rle_trans with (2 ^ 6); [simpl; lra|apply Rle_pow; [lra|lia]]). assert (P9 : 1 <= (2:R) ^ 900) by (apply pow_R1_Rle; lra).
  assert (I1 : / (2:R) ^ 890 <= 1) by (apply Rle_trans with (/ 1); [apply Rinv_le_contravar; lra|lra]). assert (I2 : / (2:R) ^ 900 <= 1) by (apply Rle_trans with (/ 1); [apply Rinv_le_contravar; lra|lra]).
  assert (H := ned_velocity_double_pf 2 exact_trig L_Rot64.exact_trig_near ltac:(lra) (f64_ofZ 36) (f64_ofZ 0) (f64_ofZ 30) DEG KMH MS 36 ltac:(lra)).
  unfold speed_ok, dvalue in H. rewrite V0, V2, V3, Rabs_R0, (Rabs_pos_eq 36) in H by lra. cbn [radians metres_per_second] in H. apply H; [split; [exact F2|split; [lra|right; lra]]|split; [exact F0|split; [lra|left; reflexivity]]|exact F3].
Qed.
