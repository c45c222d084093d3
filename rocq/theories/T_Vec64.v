(** Property C116: vectors, amplitudes and signed square roots in IEEE double. *)
From Coq Require Import List Arith ZArith Reals Lia Lra.
From Flocq Require Import IEEE754.BinarySingleNaN.
From Verif Require Import Outcome Num NumFun F64 M_Basics M_Triangle M_Geometry M_Vec S_Basics S_Vec S_Angles S_Double S_Vec64 L_F64 L_Vec64.
Import ListNotations.
Local Open Scope R_scope.

(** The norm, relatively to the exact one: three roundings. *)
Theorem C116_norm_double : forall (TT : NumTr f64), ieee_sqrt TT -> forall v, bounded3 (2 ^ 500) v -> reaches3 (/ 2 ^ 500) v ->
  is_finite (v3_norm v) = true /\ Rabs (dvalue (v3_norm v) - norm3 (dvec3 v)) <= 3 * uround * norm3 (dvec3 v).
Proof. exact norm_double_lemma. Qed.
Print Assumptions C116_norm_double.

(** Normalize: every coordinate, the length of the result, and the test IsUnit. *)
Theorem C116_normalize_double : forall (TT : NumTr f64), ieee_sqrt TT -> forall v, bounded3 (2 ^ 500) v -> reaches3 (/ 2 ^ 500) v ->
  each3 (fun r x => is_finite r = true /\ Rabs (dvalue r - dvalue x / norm3 (dvec3 v)) <= 4 * uround * Rabs (dvalue x / norm3 (dvec3 v)) + uflow) (Normalize v) v /\
  Rabs (norm3 (dvec3 (Normalize v)) - 1) <= 4 * uround /\ IsUnit (Normalize v) = true.
Proof. exact normalize_double_lemma. Qed.
Print Assumptions C116_normalize_double.

(** Outside that range: the squares underflow, the squares overflow, a NaN. *)
Theorem C116_normalize_tiny : forall (TT : NumTr f64) v, bounded3 (/ 2 ^ 538) v -> Normalize v = v.
Proof. exact normalize_tiny_lemma. Qed.
Print Assumptions C116_normalize_tiny.
Theorem C116_normalize_overflow : forall (TT : NumTr f64), ieee_sqrt TT -> forall v, Forall (fun x => is_finite x = true) (coords3 v) ->
  reaches3 (2 ^ 512) v -> Forall (fun x => is_finite x = true /\ dvalue x = 0) (coords3 (Normalize v)).
Proof. exact normalize_overflow_lemma. Qed.
Print Assumptions C116_normalize_overflow.
Theorem C116_normalize_nan : forall (TT : NumTr f64) v, Exists (fun x => is_nan x = true) (coords3 v) -> Normalize v = v.
Proof. exact normalize_nan_lemma. Qed.
Print Assumptions C116_normalize_nan.

(** Hence Normalize does not give a unit vector for every non-zero finite vector. *)
Theorem C116_normalize_refuted : forall TT : NumTr f64, ieee_sqrt TT ->
  (exists v, Forall (fun x => is_finite x = true) (coords3 v) /\ 1 < norm3 (dvec3 v) /\ norm3 (dvec3 (Normalize v)) = 0) /\
  (exists v, Forall (fun x => is_finite x = true) (coords3 v) /\ 0 < norm3 (dvec3 v) /\ norm3 (dvec3 (Normalize v)) < / 2).
Proof. exact normalize_refuted_pf. Qed.
Print Assumptions C116_normalize_refuted.

(** Cross product: error of each coordinate relatively to the sum of the two
    products; antisymmetry and p x p = 0 are exact. *)
Theorem C116_cross_double : forall p q : vec3 f64, bounded3 (2 ^ 500) p -> bounded3 (2 ^ 500) q ->
  let c := v3_cross p q in let e := cross3 (dvec3 p) (dvec3 q) in let s := cross3_abs (dvec3 p) (dvec3 q) in
  Forall (fun x => is_finite x = true) (coords3 c) /\
  Rabs (dvalue (vx c) - vx e) <= 3 * uround * vx s + 3 * uflow /\
  Rabs (dvalue (vy c) - vy e) <= 3 * uround * vy s + 3 * uflow /\
  Rabs (dvalue (vz c) - vz e) <= 3 * uround * vz s + 3 * uflow.
Proof. exact cross_double_lemma. Qed.
Print Assumptions C116_cross_double.
Theorem C116_cross_antisymmetric : forall p q : vec3 f64, bounded3 (2 ^ 500) p -> bounded3 (2 ^ 500) q ->
  dvec3 (v3_cross q p) = scal3 (-1) (dvec3 (v3_cross p q)) /\ dvec3 (v3_cross p p) = mkV3 0 0 0.
Proof. exact cross_anti_lemma. Qed.
Print Assumptions C116_cross_antisymmetric.

(** Inner product: error relatively to the sum of the absolute products; symmetric. *)
Theorem C116_inner_double : forall p q : vec3 f64, bounded3 (2 ^ 500) p -> bounded3 (2 ^ 500) q ->
  is_finite (inner p q) = true /\ Rabs (dvalue (inner p q) - dot3 (dvec3 p) (dvec3 q)) <= 4 * uround * dot3_abs (dvec3 p) (dvec3 q) + 6 * uflow /\
  dvalue (inner q p) = dvalue (inner p q).
Proof. exact inner_double_lemma. Qed.
Print Assumptions C116_inner_double.

(** The computed cross product need not be orthogonal to its factors. *)
Theorem C116_orthogonal_refuted : exists p q : vec3 f64, bounded3 (2 ^ 30) p /\ bounded3 (2 ^ 30) q /\ 1 <= dvalue (inner p (v3_cross p q)).
Proof. exact orthogonal_refuted_pf. Qed.
Print Assumptions C116_orthogonal_refuted.

(** The infinity norm is exact. *)
Theorem C116_infNorm_exact : forall l : list f64, Forall (fun x => is_finite x = true) l ->
  is_finite (infNorm l) = true /\ is_inf_norm (map dvalue l) (dvalue (infNorm l)).
Proof. exact infNorm_double_lemma. Qed.
Print Assumptions C116_infNorm_exact.

(** Amplitude of a complex entry. *)
Theorem C116_amplitude_double : forall (TT : NumTr f64), ieee_sqrt TT -> forall (l : list (f64 * f64)) k, (k < length l)%nat ->
  let z := nth k l (f64_ofZ 0, f64_ofZ 0) in let a := nth k (Amplitude l) (f64_ofZ 0) in
  let A := sqrt (dvalue (fst z) * dvalue (fst z) + dvalue (snd z) * dvalue (snd z)) in
  is_finite (fst z) = true -> is_finite (snd z) = true -> Rabs (dvalue (fst z)) <= 2 ^ 500 -> Rabs (dvalue (snd z)) <= 2 ^ 500 ->
  (/ 2 ^ 500 <= Rabs (dvalue (fst z)) \/ / 2 ^ 500 <= Rabs (dvalue (snd z))) ->
  is_finite a = true /\ Rabs (dvalue a - A) <= 5 / 2 * uround * A.
Proof. exact amplitude_double_lemma. Qed.
Print Assumptions C116_amplitude_double.
(** An amplitude well inside the range of doubles can overflow. *)
Theorem C116_amplitude_refuted : forall (TT : NumTr f64), ieee_sqrt TT -> exists l : list (f64 * f64),
  Forall (fun z => is_finite (fst z) = true /\ is_finite (snd z) = true /\ sqrt (dvalue (fst z) * dvalue (fst z) + dvalue (snd z) * dvalue (snd z)) <= 2 ^ 600) l /\
  Forall (fun a => is_finite a = false) (Amplitude l) /\ l <> [].
Proof. exact amplitude_refuted_pf. Qed.
Print Assumptions C116_amplitude_refuted.

(** SgnSqrt: one rounding, for every finite double; odd. *)
Theorem C116_sgnsqrt_double : forall (TT : NumTr f64), ieee_sqrt TT -> forall v : f64, is_finite v = true ->
  let r := dvalue (SgnSqrt v) in let e := sqrt (Rabs (dvalue v)) in
  is_finite (SgnSqrt v) = true /\
  (0 <= dvalue v -> Rabs (r - e) <= uround * e) /\ (dvalue v <= 0 -> Rabs (r + e) <= uround * e) /\ dvalue (SgnSqrt (Bopp v)) = - r.
Proof. exact sgnsqrt_double_lemma. Qed.
Print Assumptions C116_sgnsqrt_double.

(** A library meeting the hypothesis ([sqrt_only], S_Vec64.v), and the vector (1, -2, 3). *)
Example C116_lib : ieee_sqrt sqrt_only.
Proof. intros x. reflexivity. Qed.
Example C116_vector : bounded3 (2 ^ 500) (mkV3 (f64_ofZ 1) (f64_ofZ (-2)) (f64_ofZ 3)) /\ reaches3 (/ 2 ^ 500) (mkV3 (f64_ofZ 1) (f64_ofZ (-2)) (f64_ofZ 3)).
Proof.
  assert (P : 2 ^ 2 <= 2 ^ 500) by (apply Rle_pow; [lra|lia]). assert (Q : 1 <= 2 ^ 500) by (apply pow_R1_Rle; lra).
  split.
  - unfold bounded3, coords3. cbn [vx vy vz]. constructor; [|constructor; [|constructor; [|constructor]]]; (split; [reflexivity|]); unfold dvalue.
    + destruct (ofZ_ok 1 ltac:(lia)) as (_ & ->). rewrite Rabs_pos_eq; lra.
    + destruct (ofZ_ok (-2) ltac:(lia)) as (_ & ->). rewrite Rabs_left; lra.
    + destruct (ofZ_ok 3 ltac:(lia)) as (_ & ->). rewrite Rabs_pos_eq; lra.
  - apply Exists_cons_hd. unfold dvalue. cbn [vx]. destruct (ofZ_ok 1 ltac:(lia)) as (_ & ->). rewrite Rabs_R1, <- Rinv_1. apply Rinv_le_contravar; lra.
Qed.
(** Normalize (3, 0, 4) in double. *)
Example C116_normalize_345 : B2SF (vx (@Normalize f64 _ sqrt_only (mkV3 (f64_ofZ 3) (f64_ofZ 0) (f64_ofZ 4)))) = B2SF (nlit 3 5 : f64).
Proof. vm_compute. reflexivity. Qed.
