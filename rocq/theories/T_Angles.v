(** Properties C35-C37: angle normalisation (Angles.h). *)
From Coq Require Import ZArith Reals Bool Lia Lra.
From Flocq Require Import Core.Core IEEE754.BinarySingleNaN.
From Verif Require Import Num NumFun F64 Outcome M_Basics S_Angles L_Angles.
Open Scope R_scope.

(** C35: exact arithmetic, [p] being whatever number is used for pi: the
    unique representative of the angle modulo a full turn. *)
Theorem C35_normalize_0_360 : forall p a,
  let r := Normalize_0_360 (NT := RNum_at p) a in
  0 <= r < 360 /\ congruent 360 a r /\ forall r', 0 <= r' < 360 -> congruent 360 a r' -> r' = r.
Proof. exact normalize_0_360_lemma. Qed.
Print Assumptions C35_normalize_0_360.

Theorem C35_normalize_0_2pi : forall p a, 0 < p ->
  let r := Normalize_0_2PI (NT := RNum_at p) a in
  0 <= r < 2 * p /\ congruent (2 * p) a r /\ forall r', 0 <= r' < 2 * p -> congruent (2 * p) a r' -> r' = r.
Proof. exact normalize_0_2pi_lemma. Qed.
Print Assumptions C35_normalize_0_2pi.

Theorem C35_normalize_180 : forall p a,
  let r := Normalize__180_180 (NT := RNum_at p) a in
  -180 < r <= 180 /\ congruent 360 a r /\ forall r', -180 < r' <= 180 -> congruent 360 a r' -> r' = r.
Proof. exact normalize_180_lemma. Qed.
Print Assumptions C35_normalize_180.

Theorem C35_normalize_pi : forall p a, 0 < p ->
  let r := Normalize__PI_PI (NT := RNum_at p) a in
  - p < r <= p /\ congruent (2 * p) a r /\ forall r', - p < r' <= p -> congruent (2 * p) a r' -> r' = r.
Proof. exact normalize_pi_lemma. Qed.
Print Assumptions C35_normalize_pi.

(** Two angles are normalised to the same value exactly when congruent. *)
Theorem C35_normalize_same : forall p a b, 0 < p ->
  (Normalize_0_360 (NT := RNum_at p) a = Normalize_0_360 (NT := RNum_at p) b <-> congruent 360 a b) /\
  (Normalize__180_180 (NT := RNum_at p) a = Normalize__180_180 (NT := RNum_at p) b <-> congruent 360 a b) /\
  (Normalize_0_2PI (NT := RNum_at p) a = Normalize_0_2PI (NT := RNum_at p) b <-> congruent (2 * p) a b) /\
  (Normalize__PI_PI (NT := RNum_at p) a = Normalize__PI_PI (NT := RNum_at p) b <-> congruent (2 * p) a b).
Proof. exact normalize_same_lemma. Qed.
Print Assumptions C35_normalize_same.

(** An angle is left unchanged exactly when it is already in range. *)
Theorem C35_normalize_fixpoints : forall p a, 0 < p ->
  (Normalize_0_360 (NT := RNum_at p) a = a <-> 0 <= a < 360) /\
  (Normalize__180_180 (NT := RNum_at p) a = a <-> -180 < a <= 180) /\
  (Normalize_0_2PI (NT := RNum_at p) a = a <-> 0 <= a < 2 * p) /\
  (Normalize__PI_PI (NT := RNum_at p) a = a <-> - p < a <= p).
Proof. exact normalize_idempotent_lemma. Qed.
Print Assumptions C35_normalize_fixpoints.

(** A non-trivial instance: -190 degrees is 170 in both ranges. *)
Example C35_example : Normalize_0_360 (T := R) (-190) = 170 /\ Normalize__180_180 (T := R) (-190) = 170.
Proof.
  split; symmetry.
  - apply (C35_normalize_0_360 PI (-190)); [lra|]. exists (-1)%Z. simpl. lra.
  - apply (C35_normalize_180 PI (-190)); [lra|]. exists (-1)%Z. simpl. lra.
Qed.

(** C36: in binary64 the result is the correctly rounded representative of
    [0,360); it lies in [0,360] and is 360 exactly when the representative is
    within half an ulp of 360. *)
Theorem C36_normalize_0_360_double : forall a : f64, is_finite a = true ->
  let y := Normalize_0_360 a in
  is_finite y = true /\
  exists r, 0 <= r < 360 /\ congruent 360 (dvalue a) r /\ dvalue y = dround r /\
    0 <= dvalue y <= 360 /\ (dvalue y = 360 <-> 360 - / 2 ^ 45 <= r).
Proof. exact normalize_0_360_double_lemma. Qed.
Print Assumptions C36_normalize_0_360_double.

(** The documented half-open range [0,360[ does not hold in binary64. *)
Theorem C36_half_open_range_refuted : exists a : f64,
  is_finite a = true /\ dvalue a = - / 2 ^ 60 /\ dvalue (Normalize_0_360 a) = 360.
Proof. exact normalize_0_360_refuted_pf. Qed.
Print Assumptions C36_half_open_range_refuted.

Theorem C36_normalize_0_2pi_double : forall a : f64, is_finite a = true ->
  let y := Normalize_0_2PI a in
  let turn := 2 * dvalue f64_pi in
  is_finite y = true /\
  exists r, 0 <= r < turn /\ congruent turn (dvalue a) r /\ dvalue y = dround r /\
    0 <= dvalue y <= turn.
Proof. exact normalize_0_2pi_double_lemma. Qed.
Print Assumptions C36_normalize_0_2pi_double.

Example C36_example : B2SF (Normalize_0_360 (f64_ofZ (-190))) = B2SF (f64_ofZ 170) /\
  B2SF (Normalize_0_360 (f64_ofZ 123456789)) = B2SF (f64_ofZ 189).
Proof. vm_compute. auto. Qed.

(** C37: in binary64 the result is finite, in ]-180,180], and congruent to the
    angle up to one rounding of the shifted angle and one of the result. *)
Theorem C37_normalize_180_double : forall a : f64, is_finite a = true ->
  let y := Normalize__180_180 a in
  is_finite y = true /\ -180 < dvalue y <= 180 /\
  exists k : Z, Rabs (dvalue y - (dvalue a + IZR k * 360)) <= / 2 * dulp (dvalue a + 180) + / 2 ^ 45.
Proof. exact normalize_180_double_lemma. Qed.
Print Assumptions C37_normalize_180_double.

(** The same in radians, [p] being the double M_PI. *)
Theorem C37_normalize_pi_double : forall a : f64, is_finite a = true ->
  let y := Normalize__PI_PI a in
  let p := dvalue f64_pi in
  is_finite y = true /\ - p < dvalue y <= p /\
  exists k : Z, Rabs (dvalue y - (dvalue a + IZR k * (2 * p))) <= / 2 * dulp (dvalue a + p) + / 2 ^ 51.
Proof. exact normalize_pi_double_lemma. Qed.
Print Assumptions C37_normalize_pi_double.

Example C37_example : B2SF (Normalize__180_180 (f64_ofZ (-190))) = B2SF (f64_ofZ 170) /\
  B2SF (Normalize__180_180 (f64_ofZ (-180))) = B2SF (f64_ofZ 180) /\
  is_finite (f64_ofZ (-190)) = true.
Proof. vm_compute. auto. Qed.
