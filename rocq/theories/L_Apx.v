(** A calculus of rounding errors: [apx f r A k] says that the double [f] is
    finite and within [k] roundings of [A] of the real [r], where [A] bounds [r]. *)
From Coq Require Import ZArith Reals Bool Lia Lra Psatz.
From Flocq Require Import Core.Core IEEE754.BinarySingleNaN.
From Verif Require Import Num NumFun F64 L_F64 L_Linspace64 L_F64Err L_Interp64.
Local Open Scope R_scope.

Definition apx (f : f64) (r A k : R) : Prop :=
  is_finite f = true /\ Rabs r <= A /\ Rabs (val f - r) <= k * u53 * A.

(** Bounds between which neither overflow nor underflow matters. *)
Definition big : R := bpow radix2 1000.
Definition tau : R := bpow radix2 (-1010).

Lemma u_tiny : 0 < u53 <= / 1000000000000000.
Proof. unfold u53. split; [apply Rinv_0_lt_compat, pow_lt; lra|]. apply Rinv_le_contravar; [lra|]. simpl. lra. Qed.

Lemma eta_tau : eta64 <= / 1000 * u53 * tau.
Proof.
  unfold eta64, tau.
  assert (U : u53 = bpow radix2 (-53)) by (unfold u53; rewrite bpow_powerRZ; simpl; reflexivity).
  rewrite U. change (-1074)%Z with (-11 + (-53 + -1010))%Z. rewrite (bpow_plus radix2 (-11)), (bpow_plus radix2 (-53)).
  assert (P : 0 < bpow radix2 (-53) * bpow radix2 (-1010)) by (apply Rmult_lt_0_compat; apply bpow_gt_0).
  set (p := bpow radix2 (-53) * bpow radix2 (-1010)) in *.
  replace (/ 1000 * bpow radix2 (-53) * bpow radix2 (-1010)) with (/ 1000 * p) by (unfold p; ring).
  simpl (bpow radix2 (-11)). lra.
Qed.

Lemma tau_pos : 0 < tau. Proof. apply bpow_gt_0. Qed.
Lemma big_pos : 0 < big. Proof. apply bpow_gt_0. Qed.

Lemma big_over z : Rabs z <= 8 * big -> Rabs z <= fmax64 + bpow radix2 969.
Proof.
  intros H. assert (P := bpow_gt_0 radix2 969). apply Rle_trans with (1 := H).
  apply Rle_trans with fmax64; [|lra].
  apply Rle_trans with (bpow radix2 1003).
  - change 1003%Z with (3 + 1000)%Z. rewrite bpow_plus. apply Rmult_le_compat_r; [apply bpow_ge_0|]. simpl. lra.
  - cbv [fmax64 F2R Fnum Fexp]. change 1003%Z with (32 + 971)%Z. rewrite bpow_plus.
    apply Rmult_le_compat_r; [apply bpow_ge_0|]. simpl. lra.
Qed.

Lemma apx_A f r A k : apx f r A k -> 0 <= A.
Proof. intros (_ & H & _). eapply Rle_trans; [apply Rabs_pos|exact H]. Qed.

Lemma apx_id x A : is_finite x = true -> Rabs (val x) <= A -> apx x (val x) A 0.
Proof.
  intros F H. split; auto. split; auto. rewrite Rminus_diag_eq, Rabs_R0 by reflexivity. lra.
Qed.

Lemma apx_weaken f r A k A' k' : apx f r A k -> 0 <= k -> A <= A' -> k <= k' -> apx f r A' k'.
Proof.
  intros H Hk HA Hk'. assert (A0 := apx_A _ _ _ _ H). destruct H as (F & B & E). split; auto. split; [lra|].
  eapply Rle_trans; [exact E|]. assert (U := u_tiny).
  rewrite !Rmult_assoc. apply Rmult_le_compat; auto; [apply Rmult_le_pos; lra|]. apply Rmult_le_compat_l; lra.
Qed.

Lemma apx_val f r A k : apx f r A k -> 0 <= k <= 1000000 -> Rabs (val f) <= 1001 / 1000 * A.
Proof.
  intros H Hk. assert (A0 := apx_A _ _ _ _ H). destruct H as (F & B & E). assert (U := u_tiny).
  replace (val f) with ((val f - r) + r) by ring. eapply Rle_trans; [apply Rabs_triang|].
  assert (k * u53 <= / 1000) by nra. assert (k * u53 * A <= / 1000 * A) by (apply Rmult_le_compat_r; auto). lra.
Qed.

Lemma apx_neg f r A k : apx f r A k -> apx (Bopp f) (- r) A k.
Proof.
  intros (F & B & E). split; [rewrite is_finite_Bopp; auto|]. split; [rewrite Rabs_Ropp; auto|].
  rewrite B2R_Bopp. replace (- val f - - r) with (- (val f - r)) by ring. rewrite Rabs_Ropp. exact E.
Qed.

(** One more rounding. *)
Lemma apx_round f e r A k e' : is_finite f = true -> Rabs (val f - e) <= u53 * Rabs e + e' ->
  0 <= k <= 1000000 -> Rabs r <= A -> Rabs (e - r) <= k * u53 * A -> e' <= / 1000 * u53 * A ->
  apx f r A (k + 101 / 100).
Proof.
  intros F E Hk B K He. assert (U := u_tiny). assert (A0 : 0 <= A) by (eapply Rle_trans; [apply Rabs_pos|exact B]).
  assert (P : 0 <= u53 * A) by (apply Rmult_le_pos; lra).
  split; auto. split; auto.
  assert (Re : Rabs e <= 1001 / 1000 * A).
  { replace e with ((e - r) + r) by ring. eapply Rle_trans; [apply Rabs_triang|].
    assert (k * u53 <= / 1000) by nra. assert (k * u53 * A <= / 1000 * A) by (apply Rmult_le_compat_r; auto). lra. }
  replace (val f - r) with ((val f - e) + (e - r)) by ring. eapply Rle_trans; [apply Rabs_triang|].
  assert (u53 * Rabs e <= u53 * (1001 / 1000 * A)) by (apply Rmult_le_compat_l; lra). lra.
Qed.

Lemma apx_plus f g a b A B k l K : apx f a A k -> apx g b B l -> 0 <= k <= K -> 0 <= l <= K -> K <= 1000000 ->
  A + B <= big -> apx (f +! g) (a + b) (A + B) (K + 101 / 100).
Proof.
  intros Hf Hg Hk Hl HK HB. assert (A0 := apx_A _ _ _ _ Hf). assert (B0 := apx_A _ _ _ _ Hg).
  assert (VF := apx_val _ _ _ _ Hf ltac:(lra)). assert (VG := apx_val _ _ _ _ Hg ltac:(lra)).
  destruct Hf as (F & Ba & Ea). destruct Hg as (G & Bb & Eb). assert (U := u_tiny).
  destruct (plus_ok f g F G) as [Fs _].
  { apply big_over. eapply Rle_trans; [apply Rabs_triang|]. assert (BP := big_pos). lra. }
  apply apx_round with (e := val f + val g) (e' := 0); auto.
  - rewrite Rplus_0_r. apply plus_err; auto.
  - lra.
  - eapply Rle_trans; [apply Rabs_triang|]. lra.
  - replace (val f + val g - (a + b)) with ((val f - a) + (val g - b)) by ring.
    eapply Rle_trans; [apply Rabs_triang|].
    assert (k * u53 * A <= K * u53 * A) by (apply Rmult_le_compat_r; auto; apply Rmult_le_compat_r; lra).
    assert (l * u53 * B <= K * u53 * B) by (apply Rmult_le_compat_r; auto; apply Rmult_le_compat_r; lra). lra.
  - assert (0 <= u53 * (A + B)) by (apply Rmult_le_pos; lra). lra.
Qed.

Lemma apx_minus f g a b A B k l K : apx f a A k -> apx g b B l -> 0 <= k <= K -> 0 <= l <= K -> K <= 1000000 ->
  A + B <= big -> apx (f -! g) (a - b) (A + B) (K + 101 / 100).
Proof.
  intros Hf Hg Hk Hl HK HB. assert (A0 := apx_A _ _ _ _ Hf). assert (B0 := apx_A _ _ _ _ Hg).
  assert (VF := apx_val _ _ _ _ Hf ltac:(lra)). assert (VG := apx_val _ _ _ _ Hg ltac:(lra)).
  destruct Hf as (F & Ba & Ea). destruct Hg as (G & Bb & Eb). assert (U := u_tiny).
  assert (TR : forall p q, Rabs (p - q) <= Rabs p + Rabs q).
  { intros p q. eapply Rle_trans; [apply Rabs_triang|]. rewrite Rabs_Ropp. lra. }
  destruct (minus_ok f g F G) as [Fs _].
  { apply big_over. eapply Rle_trans; [apply TR|]. assert (BP := big_pos). lra. }
  apply apx_round with (e := val f - val g) (e' := 0); auto.
  - rewrite Rplus_0_r. apply minus_err; auto.
  - lra.
  - eapply Rle_trans; [apply TR|]. lra.
  - replace (val f - val g - (a - b)) with ((val f - a) - (val g - b)) by ring.
    eapply Rle_trans; [apply TR|].
    assert (k * u53 * A <= K * u53 * A) by (apply Rmult_le_compat_r; auto; apply Rmult_le_compat_r; lra).
    assert (l * u53 * B <= K * u53 * B) by (apply Rmult_le_compat_r; auto; apply Rmult_le_compat_r; lra). lra.
  - assert (0 <= u53 * (A + B)) by (apply Rmult_le_pos; lra). lra.
Qed.

Lemma apx_mult f g a b A B k l : apx f a A k -> apx g b B l -> 0 <= k <= 100000 -> 0 <= l <= 100000 ->
  tau <= A * B <= big -> apx (f *! g) (a * b) (A * B) (k + l + 102 / 100).
Proof.
  intros Hf Hg Hk Hl HB. assert (A0 := apx_A _ _ _ _ Hf). assert (B0 := apx_A _ _ _ _ Hg).
  assert (VF := apx_val _ _ _ _ Hf ltac:(lra)). assert (VG := apx_val _ _ _ _ Hg ltac:(lra)).
  destruct Hf as (F & Ba & Ea). destruct Hg as (G & Bb & Eb). assert (U := u_tiny). assert (T := tau_pos).
  assert (AB : 0 <= A * B) by lra.
  assert (N : Rabs (val f * val g) <= 8 * big).
  { rewrite Rabs_mult. eapply Rle_trans; [apply Rmult_le_compat; [apply Rabs_pos|apply Rabs_pos|exact VF|exact VG]|].
    assert (BP := big_pos). replace (1001 / 1000 * A * (1001 / 1000 * B)) with (1001 / 1000 * (1001 / 1000) * (A * B)) by ring. lra. }
  destruct (mult_ok f g F G) as [Fs _]; [apply big_over; auto|].
  replace (k + l + 102 / 100) with ((k + l + 1 / 100) + 101 / 100) by lra.
  apply apx_round with (e := val f * val g) (e' := eta64); auto.
  - apply mult_err; auto.
  - lra.
  - rewrite Rabs_mult. apply Rmult_le_compat; auto using Rabs_pos.
  - replace (val f * val g - a * b) with ((val f - a) * b + (a * (val g - b) + (val f - a) * (val g - b))) by ring.
    eapply Rle_trans; [apply Rabs_triang|].
    assert (K1 : Rabs ((val f - a) * b) <= k * u53 * (A * B)).
    { rewrite Rabs_mult. replace (k * u53 * (A * B)) with (k * u53 * A * B) by ring.
      apply Rmult_le_compat; auto using Rabs_pos. }
    assert (K2 : Rabs (a * (val g - b)) <= l * u53 * (A * B)).
    { rewrite Rabs_mult. replace (l * u53 * (A * B)) with (A * (l * u53 * B)) by ring.
      apply Rmult_le_compat; auto using Rabs_pos. }
    assert (K3 : Rabs ((val f - a) * (val g - b)) <= / 100 * u53 * (A * B)).
    { rewrite Rabs_mult. eapply Rle_trans; [apply Rmult_le_compat; [apply Rabs_pos|apply Rabs_pos|exact Ea|exact Eb]|].
      replace (k * u53 * A * (l * u53 * B)) with (((k * l) * u53) * (u53 * (A * B))) by ring. rewrite (Rmult_assoc (/ 100)).
      apply Rmult_le_compat_r; [apply Rmult_le_pos; lra|].
      assert (0 <= k * l <= 10000000000) by nra.
      apply Rle_trans with (10000000000 * u53); [apply Rmult_le_compat_r; lra|lra]. }
    assert (K4 := Rabs_triang (a * (val g - b)) ((val f - a) * (val g - b))). lra.
  - eapply Rle_trans; [apply eta_tau|]. apply Rmult_le_compat_l; [lra|]. lra.
Qed.

(** Division by an approximation with a relative error. *)
Lemma apx_div f g a b A k l : apx f a A k -> apx g b (Rabs b) l -> b <> 0 ->
  0 <= k <= 100000 -> 0 <= l <= 100000 ->
  tau <= A / Rabs b <= big -> apx (f /! g) (a / b) (A / Rabs b) (k + l + 103 / 100).
Proof.
  intros Hf Hg Hb Hk Hl HB. assert (A0 := apx_A _ _ _ _ Hf).
  assert (VF := apx_val _ _ _ _ Hf ltac:(lra)).
  destruct Hf as (F & Ba & Ea). destruct Hg as (G & _ & Eb). assert (U := u_tiny). assert (T := tau_pos).
  assert (Pb : 0 < Rabs b) by (apply Rabs_pos_lt; auto).
  set (B := Rabs b) in *. set (Q := A / B) in *. assert (HA : A = Q * B) by (unfold Q; field; lra).
  assert (LU : l * u53 <= / 1000000000) by nra.
  assert (Glow : (1 - / 1000000000) * B <= Rabs (val g)).
  { assert (K := Rabs_triang_inv b (b - val g)). replace (b - (b - val g)) with (val g) in K by ring.
    rewrite <- (Rabs_Ropp (b - val g)) in K. replace (- (b - val g)) with (val g - b) in K by ring. fold B in K.
    assert (l * u53 * B <= / 1000000000 * B) by (apply Rmult_le_compat_r; lra). lra. }
  assert (Gpos : 0 < Rabs (val g)) by nra.
  assert (Gne : val g <> 0) by (intros Z; rewrite Z, Rabs_R0 in Gpos; lra).
  assert (BG : B / Rabs (val g) <= 1001 / 1000).
  { apply Rmult_le_reg_r with (Rabs (val g)); auto. unfold Rdiv at 1. rewrite Rmult_assoc, Rinv_l by lra. lra. }
  assert (BG2 : B / Rabs (val g) <= 1 + / 100000000).
  { apply Rmult_le_reg_r with (Rabs (val g)); auto. unfold Rdiv at 1. rewrite Rmult_assoc, Rinv_l by lra. lra. }
  assert (BG0 : 0 <= B / Rabs (val g)) by (apply Rmult_le_pos; [lra|left; apply Rinv_0_lt_compat; auto]).
  assert (N : Rabs (val f / val g) <= 8 * big).
  { unfold Rdiv. rewrite Rabs_mult, Rabs_inv. assert (BP := big_pos).
    apply Rle_trans with (1001 / 1000 * Q * (B / Rabs (val g))).
    - replace (1001 / 1000 * Q * (B / Rabs (val g))) with (1001 / 1000 * A * / Rabs (val g)) by (rewrite HA; field; lra).
      apply Rmult_le_compat_r; [left; apply Rinv_0_lt_compat; auto|auto].
    - apply Rle_trans with (1001 / 1000 * Q * (1001 / 1000)); [apply Rmult_le_compat_l; lra|]. lra. }
  destruct (div_ok f g F G Gne) as [Fs _]; [apply big_over; auto|].
  replace (k + l + 103 / 100) with ((k + l + 2 / 100) + 101 / 100) by lra.
  apply apx_round with (e := val f / val g) (e' := eta64); auto.
  - apply div_err; auto.
  - lra.
  - unfold Rdiv, Q. rewrite Rabs_mult, Rabs_inv. fold B. apply Rmult_le_compat_r; [left; apply Rinv_0_lt_compat; auto|auto].
  - replace (val f / val g - a / b) with (((val f - a) + a * ((b - val g) / b)) / val g) by (field; split; auto).
    unfold Rdiv at 1. rewrite Rabs_mult, Rabs_inv.
    assert (K1 : Rabs (val f - a + a * ((b - val g) / b)) <= (k + l) * u53 * A).
    { eapply Rle_trans; [apply Rabs_triang|].
      assert (Rabs (a * ((b - val g) / b)) <= A * (l * u53)).
      { rewrite Rabs_mult. apply Rmult_le_compat; auto using Rabs_pos. unfold Rdiv. rewrite Rabs_mult, Rabs_inv. fold B.
        rewrite Rabs_minus_sym in Eb. apply Rmult_le_reg_r with B; auto. rewrite Rmult_assoc, Rinv_l by lra. lra. }
      lra. }
    apply Rle_trans with ((k + l) * u53 * A * / Rabs (val g)).
    { apply Rmult_le_compat_r; [left; apply Rinv_0_lt_compat; auto|auto]. }
    rewrite HA. replace ((k + l) * u53 * (Q * B) * / Rabs (val g)) with (((k + l) * (B / Rabs (val g))) * (u53 * Q)) by (field; lra).
    rewrite (Rmult_assoc (k + l + 2 / 100)). apply Rmult_le_compat_r; [apply Rmult_le_pos; lra|].
    apply Rle_trans with ((k + l) * (1 + / 100000000)); [apply Rmult_le_compat_l; lra|lra].
  - eapply Rle_trans; [apply eta_tau|]. apply Rmult_le_compat_l; [lra|]. lra.
Qed.

(** The difference of two doubles has a relative error of one rounding. *)
Lemma apx_diff x y : is_finite x = true -> is_finite y = true -> Rabs (val x - val y) <= big ->
  apx (x -! y) (val x - val y) (Rabs (val x - val y)) 1.
Proof.
  intros F G H. destruct (minus_ok x y F G) as [Fs _].
  { apply big_over. assert (BP := big_pos). lra. }
  split; auto. split; [lra|]. rewrite Rmult_1_l. apply minus_err; auto.
Qed.

Lemma apx_sum2 x y : is_finite x = true -> is_finite y = true -> Rabs (val x + val y) <= big ->
  apx (x +! y) (val x + val y) (Rabs (val x + val y)) 1.
Proof.
  intros F G H. destruct (plus_ok x y F G) as [Fs _].
  { apply big_over. assert (BP := big_pos). lra. }
  split; auto. split; [lra|]. rewrite Rmult_1_l. apply plus_err; auto.
Qed.

Lemma apx_one : apx (f64_ofZ 1) 1 1 0.
Proof.
  destruct (ofZ_ok 1 ltac:(reflexivity)) as [F E]. split; auto. split; [rewrite Rabs_R1; lra|].
  rewrite E, Rminus_diag_eq, Rabs_R0 by reflexivity. lra.
Qed.

(** ** Exact computations on dyadic numbers *)
Definition dya (f : f64) (n k : Z) : Prop :=
  is_finite f = true /\ val f = IZR n / IZR (2 ^ k) /\ (Z.abs n <= 2 ^ 53)%Z /\ (0 <= k <= 53)%Z.

Lemma pow2_pos k : (0 <= k)%Z -> (0 < 2 ^ k)%Z.
Proof. intros. apply Z.pow_pos_nonneg; lia. Qed.

Lemma dya_int (f : f64) n : is_finite f = true -> val f = IZR n -> (Z.abs n <= 2 ^ 53)%Z -> dya f n 0.
Proof. intros F E H. split; auto. split; [rewrite E; simpl; field|]. lia. Qed.

Lemma dya_neg f n k : dya f n k -> dya (Bopp f) (- n) k.
Proof.
  intros (F & E & H1 & H2). split; [rewrite is_finite_Bopp; auto|]. split; [|lia].
  rewrite B2R_Bopp, E, opp_IZR. unfold Rdiv. ring.
Qed.

Lemma dya_plus f g n m k : dya f n k -> dya g m k -> (Z.abs (n + m) <= 2 ^ 53)%Z -> dya (f +! g) (n + m) k.
Proof.
  intros (F & E & H1 & H2) (G & E' & H1' & _) H.
  assert (Q : val f + val g = IZR (n + m) / IZR (2 ^ k)) by (rewrite E, E', plus_IZR; field; apply not_0_IZR; assert (P := pow2_pos k); lia).
  destruct (plus_ok f g F G) as [A B]; [rewrite Q; apply scaled_no_overflow; lia|].
  split; auto. split; [|lia]. rewrite B, Q. apply rnd64_id, fmt64_scaled; lia.
Qed.

Lemma dya_minus f g n m k : dya f n k -> dya g m k -> (Z.abs (n - m) <= 2 ^ 53)%Z -> dya (f -! g) (n - m) k.
Proof.
  intros (F & E & H1 & H2) (G & E' & H1' & _) H.
  assert (Q : val f - val g = IZR (n - m) / IZR (2 ^ k)) by (rewrite E, E', minus_IZR; field; apply not_0_IZR; assert (P := pow2_pos k); lia).
  destruct (minus_ok f g F G) as [A B]; [rewrite Q; apply scaled_no_overflow; lia|].
  split; auto. split; [|lia]. rewrite B, Q. apply rnd64_id, fmt64_scaled; lia.
Qed.

Lemma dya_mult f g n m k l : dya f n k -> dya g m l -> (Z.abs (n * m) <= 2 ^ 53)%Z -> (k + l <= 53)%Z ->
  dya (f *! g) (n * m) (k + l).
Proof.
  intros (F & E & H1 & H2) (G & E' & H1' & H2') H Hk.
  assert (Q : val f * val g = IZR (n * m) / IZR (2 ^ (k + l))).
  { rewrite E, E', mult_IZR, Z.pow_add_r, mult_IZR by lia. field.
    split; apply not_0_IZR; [assert (P := pow2_pos l)|assert (P := pow2_pos k)]; lia. }
  destruct (mult_ok f g F G) as [A B]; [rewrite Q; apply scaled_no_overflow; lia|].
  split; auto. split; [|lia]. rewrite B, Q. apply rnd64_id, fmt64_scaled; lia.
Qed.

Lemma dya_inv f k : dya f (2 ^ k) 0 -> (0 <= k <= 53)%Z -> dya (f64_ofZ 1 /! f) 1 k.
Proof.
  intros (F & E & H1 & H2) Hk. destruct (ofZ_ok 1 ltac:(reflexivity)) as [G E1].
  assert (P := pow2_pos k ltac:(lia)).
  assert (N : IZR (2 ^ k) <> 0) by (apply not_0_IZR; lia).
  assert (Q : val (f64_ofZ 1) / val f = IZR 1 / IZR (2 ^ k)) by (rewrite E, E1; change (2 ^ 0)%Z with 1%Z; field; auto).
  destruct (div_ok (f64_ofZ 1) f G F) as [A B].
  - rewrite E. change (2 ^ 0)%Z with 1%Z. unfold Rdiv. rewrite Rinv_1, Rmult_1_r. auto.
  - rewrite Q. apply scaled_no_overflow; lia.
  - split; auto. split; [|lia]. rewrite B, Q. apply rnd64_id, fmt64_scaled; lia.
Qed.
