(** Unit conversions in binary64: relative error of products and quotients. *)
From Coq Require Import List Arith ZArith Reals Bool Lia Lra Psatz Machin.
From Flocq Require Import Core.Core IEEE754.BinarySingleNaN.
From Verif Require Import Outcome Num NumFun F64 L_F64 L_Linspace64 L_F64Err M_Basics S_Angles S_Basics L_Basics
  S_Double L_Series64 L_Interp64.
Import ListNotations.
Local Open Scope R_scope.

(** [t] is a product of at most [k] rounding factors. *)
Definition fac (k : nat) (t : R) : Prop := (1 - u53) ^ k <= t <= / (1 - u53) ^ k.

Lemma w_pos : / 2 < 1 - u53 < 1.
Proof. assert (U := u_small). lra. Qed.
Lemma wk_pos k : 0 < (1 - u53) ^ k <= 1.
Proof.
  assert (W := w_pos). split; [apply pow_lt; lra|].
  apply Rle_trans with (1 ^ k); [apply pow_incr; lra|rewrite pow1; lra].
Qed.
Lemma fac_pos k t : fac k t -> 0 < t.
Proof. intros [H _]. assert (W := wk_pos k). lra. Qed.
Lemma fac_1 : fac 0 1.
Proof. unfold fac. simpl. lra. Qed.
Lemma fac_mult j k s t : fac j s -> fac k t -> fac (j + k) (s * t).
Proof.
  intros Hs Ht. assert (Ps := fac_pos _ _ Hs). assert (Pt := fac_pos _ _ Ht). assert (Wj := wk_pos j). assert (Wk := wk_pos k).
  destruct Hs as [S1 S2]. destruct Ht as [T1 T2]. unfold fac. rewrite pow_add. split.
  - apply Rmult_le_compat; lra.
  - rewrite Rinv_mult. apply Rmult_le_compat; lra.
Qed.
Lemma fac_inv k t : fac k t -> fac k (/ t).
Proof.
  intros Ht. assert (Pt := fac_pos _ _ Ht). assert (Wk := wk_pos k). destruct Ht as [T1 T2]. split.
  - rewrite <- (Rinv_inv ((1 - u53) ^ k)). apply Rinv_le_contravar; lra.
  - apply Rinv_le_contravar; lra.
Qed.
Lemma fac_weaken j k t : (j <= k)%nat -> fac j t -> fac k t.
Proof.
  intros Hjk Ht. assert (Wj := wk_pos j). assert (Wk := wk_pos k). destruct Ht as [T1 T2].
  assert (E : (1 - u53) ^ k <= (1 - u53) ^ j).
  { replace k with (j + (k - j))%nat by lia. rewrite pow_add. assert (W' := wk_pos (k - j)). nra. }
  split; [lra|]. apply Rle_trans with (1 := T2). apply Rinv_le_contravar; lra.
Qed.
Lemma fac_2 k t : (k <= 100)%nat -> fac k t -> / 2 <= t <= 2.
Proof.
  intros Hk Ht. apply (fac_weaken k 100) in Ht; auto.
  assert (B : / 2 <= (1 - u53) ^ 100).
  { assert (L : forall n, 1 - INR n * u53 <= (1 - u53) ^ n).
    { intros n. assert (W := w_pos). induction n as [|n IH]; [simpl; lra|].
      rewrite S_INR. simpl pow. assert (Q := wk_pos n). assert (0 <= INR n) by apply pos_INR. assert (U := u_small).
      assert (0 <= INR n * (u53 * u53)) by (apply Rmult_le_pos; [auto|nra]). nra. }
    assert (L' := L 100%nat). assert (U := u_small). simpl INR in L'. lra. }
  destruct Ht as [T1 T2]. split; [lra|]. apply Rle_trans with (1 := T2).
  rewrite <- (Rinv_inv 2). apply Rinv_le_contravar; lra.
Qed.
(** From factors to the usual error bound. *)
Lemma fac_err k t : (k <= 100)%nat -> fac k t -> Rabs (t - 1) <= INR (S k) * u53.
Proof.
  intros Hk Ht. assert (U := u_small). assert (W := w_pos).
  assert (L : forall n, 1 - INR n * u53 <= (1 - u53) ^ n).
  { intros n. induction n as [|n IH]; [simpl; lra|].
    rewrite S_INR. simpl pow. assert (Q := wk_pos n). assert (0 <= INR n) by apply pos_INR.
    assert (0 <= INR n * (u53 * u53)) by (apply Rmult_le_pos; [auto|nra]). nra. }
  destruct Ht as [T1 T2]. assert (L' := L k). rewrite S_INR.
  assert (K : 0 <= INR k <= 100).
  { split; [apply pos_INR|]. replace 100 with (INR 100) by (simpl; lra). apply le_INR; auto. }
  apply Rabs_le. split; [lra|].
  assert (P : 0 < 1 - INR k * u53) by nra.
  assert (T3 : t <= / (1 - INR k * u53)).
  { apply Rle_trans with (1 := T2). apply Rinv_le_contravar; auto. }
  assert (T4 : / (1 - INR k * u53) <= 1 + (INR k + 1) * u53).
  { apply Rmult_le_reg_r with (1 - INR k * u53); auto. rewrite Rinv_l by lra.
    assert (INR k * ((INR k + 1) * u53) <= 1).
    { apply Rle_trans with (100 * (101 * / 1000000)); [|lra]. apply Rmult_le_compat; nra. }
    nra. }
  lra.
Qed.

(** [a] approximates [b] with at most [k] rounding factors, [b] being between
    2^-e and 2^e in absolute value. *)
Definition apx (k : nat) (e : Z) (a : f64) (b : R) : Prop :=
  is_finite a = true /\ (exists t, val a = b * t /\ fac k t) /\ bpow radix2 (- e) <= Rabs b <= bpow radix2 e.

Lemma apx_rnd k e b t : (k <= 99)%nat -> (0 <= e <= 990)%Z -> fac k t ->
  bpow radix2 (- e) <= Rabs b <= bpow radix2 e ->
  Rabs (b * t) <= fmax64 + bpow radix2 969 /\ exists s, rnd64 (b * t) = b * s /\ fac (S k) s.
Proof.
  intros Hk He Ht [B1 B2]. assert (T2 := fac_2 k t ltac:(lia) Ht). assert (Pt := fac_pos _ _ Ht).
  assert (P := bpow_gt_0 radix2 (- e)).
  assert (N : bpow radix2 (- e - 1) <= Rabs (b * t) <= bpow radix2 (e + 1)).
  { rewrite Rabs_mult, (Rabs_pos_eq t) by lra. unfold Z.sub. rewrite !bpow_plus. change (bpow radix2 (- (1))) with (/ 2).
    change (bpow radix2 1) with 2. split; apply Rmult_le_compat; lra. }
  split.
  - apply small_no_overflow. apply Rle_trans with (1 := proj2 N). apply bpow_le. lia.
  - assert (E : Rabs (rnd64 (b * t) - b * t) <= u53 * Rabs (b * t)).
    { apply rel_err. apply Rle_trans with (2 := proj1 N). apply bpow_le. lia. }
    assert (Hb : b <> 0) by (intros ->; rewrite Rabs_R0 in B1; lra).
    assert (Hbt : b * t <> 0) by (apply Rmult_integral_contrapositive; lra).
    exists (t * (rnd64 (b * t) / (b * t))). split; [field; split; lra|].
    replace (S k) with (k + 1)%nat by lia. apply fac_mult; auto. set (z := b * t) in *.
    assert (Q : Rabs (rnd64 z / z - 1) <= u53).
    { replace (rnd64 z / z - 1) with ((rnd64 z - z) / z) by (field; auto). unfold Rdiv. rewrite Rabs_mult, Rabs_inv.
      apply Rmult_le_reg_r with (Rabs z); [apply Rabs_pos_lt; auto|]. rewrite Rmult_assoc, Rinv_l by (apply Rabs_no_R0; auto). lra. }
    apply Rabs_le_inv in Q. assert (W := w_pos). unfold fac. rewrite pow_1. split; [lra|].
    apply Rle_trans with (1 + u53); [lra|]. apply Rmult_le_reg_r with (1 - u53); [lra|]. rewrite Rinv_l by lra. nra.
Qed.

Lemma apx_mult j k e f a b c d : apx j e a b -> apx k f c d -> (j + k <= 99)%nat -> (0 <= e)%Z -> (0 <= f)%Z -> (e + f <= 990)%Z ->
  apx (S (j + k)) (e + f) (a *! c) (b * d).
Proof.
  intros (Fa & (s & Va & Hs) & Rb) (Fc & (t & Vc & Ht) & Rd) Hjk He Hf Hef.
  assert (R : bpow radix2 (- (e + f)) <= Rabs (b * d) <= bpow radix2 (e + f)).
  { rewrite Rabs_mult. replace (- (e + f))%Z with (- e + - f)%Z by lia. rewrite !bpow_plus.
    split; apply Rmult_le_compat; try apply bpow_ge_0; try apply Rabs_pos; lra. }
  destruct (apx_rnd (j + k) (e + f) (b * d) (s * t) Hjk ltac:(lia) (fac_mult _ _ _ _ Hs Ht) R) as [O (r & V & Hr)].
  replace (b * d * (s * t)) with (val a * val c) in * by (rewrite Va, Vc; ring).
  destruct (mult_ok a c Fa Fc O) as [F E]. split; auto. split; auto. exists r. split; auto. rewrite E. exact V.
Qed.

Lemma apx_div j k e f a b c d : apx j e a b -> apx k f c d -> (j + k <= 99)%nat -> (0 <= e)%Z -> (0 <= f)%Z -> (e + f <= 990)%Z ->
  apx (S (j + k)) (e + f) (a /! c) (b / d).
Proof.
  intros (Fa & (s & Va & Hs) & Rb) (Fc & (t & Vc & Ht) & Rd) Hjk He Hf Hef.
  assert (Pd : 0 < Rabs d) by (assert (P := bpow_gt_0 radix2 (- f)); lra).
  assert (Nd : d <> 0) by (intros ->; rewrite Rabs_R0 in Pd; lra).
  assert (Pt := fac_pos _ _ Ht).
  assert (R : bpow radix2 (- (e + f)) <= Rabs (b / d) <= bpow radix2 (e + f)).
  { unfold Rdiv. rewrite Rabs_mult, Rabs_inv. replace (- (e + f))%Z with (- e + - f)%Z by lia. rewrite !bpow_plus.
    assert (I1 : bpow radix2 (- f) <= / Rabs d) by (rewrite bpow_opp; apply Rinv_le_contravar; lra).
    assert (I2 : / Rabs d <= bpow radix2 f).
    { replace (bpow radix2 f) with (/ bpow radix2 (- f)) by (rewrite <- bpow_opp; f_equal; lia).
      apply Rinv_le_contravar; [apply bpow_gt_0|lra]. }
    assert (0 < / Rabs d) by (apply Rinv_0_lt_compat; auto).
    split; apply Rmult_le_compat; try apply bpow_ge_0; try apply Rabs_pos; lra. }
  destruct (apx_rnd (j + k) (e + f) (b / d) (s * / t) Hjk ltac:(lia) (fac_mult _ _ _ _ Hs (fac_inv _ _ Ht)) R) as [O (r & V & Hr)].
  replace (b / d * (s * / t)) with (val a / val c) in * by (rewrite Va, Vc; field; split; lra).
  destruct (div_ok a c Fa Fc) as [F E]; auto.
  { rewrite Vc. apply Rmult_integral_contrapositive. split; lra. }
  split; auto. split; auto. exists r. split; auto. rewrite E. exact V.
Qed.

Lemma apx_exact e a b : is_finite a = true -> val a = b -> bpow radix2 (- e) <= Rabs b <= bpow radix2 e -> apx 0 e a b.
Proof. intros F V R. split; auto. split; auto. exists 1. split; [lra|apply fac_1]. Qed.

Lemma apx_ofZ e z : (Z.abs z < 2 ^ 53)%Z -> (0 <= e)%Z -> (1 <= Z.abs z <= 2 ^ e)%Z -> apx 0 e (f64_ofZ z) (IZR z).
Proof.
  intros Hz He Hb. destruct (ofZ_ok z Hz) as [F V]. apply apx_exact; auto. rewrite <- abs_IZR. split.
  - apply Rle_trans with (bpow radix2 0); [apply bpow_le; lia|]. simpl. apply IZR_le. lia.
  - rewrite <- IZR_Zpower by auto. apply IZR_le. change (Zpower radix2 e) with (2 ^ e)%Z. lia.
Qed.

Lemma apx_weaken j k e f a b : (j <= k)%nat -> (e <= f)%Z -> apx j e a b -> apx k f a b.
Proof.
  intros Hjk Hef (F & (t & V & Ht) & R1 & R2). split; auto. split.
  - exists t. split; auto. apply fac_weaken with j; auto.
  - split; [apply Rle_trans with (2 := R1)|apply Rle_trans with (1 := R2)]; apply bpow_le; lia.
Qed.

Lemma apx_result k e a b : (k <= 100)%nat -> apx k e a b -> is_finite a = true /\ Rabs (val a - b) <= INR (S k) * u53 * Rabs b.
Proof.
  intros Hk (F & (t & V & Ht) & _). split; auto. rewrite V. replace (b * t - b) with (b * (t - 1)) by ring.
  rewrite Rabs_mult, Rmult_comm. apply Rmult_le_compat_r; [apply Rabs_pos|]. apply fac_err; auto.
Qed.

(** ** The constants *)
Lemma pi_close : 31415926535897932 / 10000000000000000 <= PI <= 31415926535897933 / 10000000000000000.
Proof.
  assert (H := PI_2_3_7_ineq 8). unfold tg_alt, PI_2_3_7_tg, Ratan_seq in H.
  cbn [Nat.mul Nat.add sum_f_R0] in H. rewrite !INR_IZR_INZ in H. cbn [Z.of_nat Pos.of_succ_nat Pos.succ pow] in H.
  lra.
Qed.

Lemma apx_pi : apx 1 2 f64_pi PI.
Proof.
  assert (H := pi_close). assert (P := PI_RGT_0).
  assert (F : is_finite f64_pi = true) by (vm_compute; reflexivity).
  assert (V : val f64_pi = 7074237752028440 / 2251799813685248).
  { rewrite (val_pos _ 7074237752028440 51) by (vm_compute; reflexivity). reflexivity. }
  split; auto. split.
  - exists (val f64_pi / PI). split; [field; lra|]. unfold fac. rewrite pow_1. assert (W := w_pos).
    assert (U : / 9007199254740993 <= u53 <= / 9007199254740991).
    { unfold u53. replace (2 ^ 53) with 9007199254740992; [split; lra|]. rewrite pow_IZR. reflexivity. }
    rewrite V. split.
    + apply Rmult_le_reg_r with PI; auto. replace (7074237752028440 / 2251799813685248 / PI * PI) with (7074237752028440 / 2251799813685248) by (field; lra). nra.
    + apply Rle_trans with 1.
      * apply Rmult_le_reg_r with PI; auto. replace (7074237752028440 / 2251799813685248 / PI * PI) with (7074237752028440 / 2251799813685248) by (field; lra). lra.
      * rewrite <- Rinv_1. apply Rinv_le_contravar; lra.
  - rewrite Rabs_pos_eq by lra. change (bpow radix2 (- (2))) with (/ 4). change (bpow radix2 2) with 4. lra.
Qed.

Definition NR : Num R := RNum_at PI.

Lemma apx_hour : apx 0 12 (mu_one_hour (T := f64)) (mu_one_hour (NT := NR)).
Proof.
  assert (V : val (mu_one_hour (T := f64)) = 3600).
  { assert (E : B2SF (mu_one_hour (T := f64)) = B2SF (f64_ofZ 3600)) by (vm_compute; reflexivity).
    rewrite (val_SF _ _ E), SF2R_B2SF. apply (ofZ_ok 3600). lia. }
  apply apx_exact; [vm_compute; reflexivity|rewrite V; unfold mu_one_hour; cbn [nmul nofZ NR RNum_at]; lra|].
  unfold mu_one_hour. cbn [nmul nofZ NR RNum_at]. rewrite Rabs_pos_eq by lra.
  change (bpow radix2 (- (12))) with (/ 4096). change (bpow radix2 12) with 4096. lra.
Qed.
Lemma apx_knot : apx 1 23 (mu_knot (T := f64)) (mu_knot (NT := NR)).
Proof. apply (apx_div 0 0 11 12 _ _ _ _ (apx_ofZ 11 1852 ltac:(lia) ltac:(lia) ltac:(lia)) apx_hour); lia. Qed.
Lemma apx_kmh : apx 1 22 (mu_kmh (T := f64)) (mu_kmh (NT := NR)).
Proof. apply (apx_div 0 0 10 12 _ _ _ _ (apx_ofZ 10 1000 ltac:(lia) ltac:(lia) ltac:(lia)) apx_hour); lia. Qed.
Lemma apx_pi_180 : apx 2 10 (mu_pi_180 (T := f64)) (mu_pi_180 (NT := NR)).
Proof. apply (apx_div 1 0 2 8 _ _ _ _ apx_pi (apx_ofZ 8 180 ltac:(lia) ltac:(lia) ltac:(lia))); lia. Qed.
Lemma apx_180_pi : apx 2 10 (mu_180_pi (T := f64)) (mu_180_pi (NT := NR)).
Proof. apply (apx_div 0 1 8 2 _ _ _ _ (apx_ofZ 8 180 ltac:(lia) ltac:(lia) ltac:(lia)) apx_pi); lia. Qed.
(** 2 pi is a doubling: no rounding. *)
Lemma apx_2pi : apx 1 3 (mu_2pi (T := f64)) (mu_2pi (NT := NR)).
Proof.
  destruct apx_pi as (F & (t & V & Ht) & R1 & R2).
  assert (V2 : val (mu_2pi (T := f64)) = 2 * val f64_pi).
  { rewrite (val_pos (mu_2pi (T := f64)) 7074237752028440 50) by (vm_compute; reflexivity).
    rewrite (val_pos f64_pi 7074237752028440 51) by (vm_compute; reflexivity).
    change (2 ^ 50)%Z with 1125899906842624%Z. change (2 ^ 51)%Z with 2251799813685248%Z. lra. }
  assert (E : mu_2pi (NT := NR) = 2 * PI) by reflexivity. rewrite E.
  split; [vm_compute; reflexivity|]. split.
  - exists t. split; auto. rewrite V2, V. ring.
  - rewrite Rabs_mult, (Rabs_pos_eq 2) by lra.
    change (bpow radix2 (- (2))) with (/ 4) in R1. change (bpow radix2 2) with 4 in R2.
    change (bpow radix2 (- (3))) with (/ 8). change (bpow radix2 3) with 8. lra.
Qed.
Lemma apx_rpm : apx 2 9 (mu_rpm2rads (T := f64)) (mu_rpm2rads (NT := NR)).
Proof. apply (apx_div 1 0 3 6 _ _ _ _ apx_2pi (apx_ofZ 6 60 ltac:(lia) ltac:(lia) ltac:(lia))); lia. Qed.

(** ** The conversions *)
Lemma conv_velocity_apx k e a b u w : apx k e a b -> (k <= 50)%nat -> (0 <= e <= 900)%Z ->
  apx (k + 4) (e + 46) (convert_velocity_unit a u w) (convert_velocity_unit (NT := NR) b u w).
Proof.
  intros H Hk He.
  assert (P : exists c, (match u with MS => a | KMH => kmh2ms a | KNOT => knot2ms a end) = c /\
     apx (k + 2) (e + 23) c (match u with MS => b | KMH => kmh2ms (NT := NR) b | KNOT => knot2ms (NT := NR) b end)).
  { eexists. split; [reflexivity|]. destruct u.
    - apply (apx_weaken k _ e); auto; lia.
    - apply (apx_weaken (S (k + 1)) _ (e + 23)); [lia|lia|]. apply (apx_mult _ _ _ _ _ _ _ _ H apx_knot); lia.
    - apply (apx_weaken (S (k + 1)) _ (e + 22)); [lia|lia|]. apply (apx_mult _ _ _ _ _ _ _ _ H apx_kmh); lia. }
  destruct P as (c & Ec & Hc). unfold convert_velocity_unit. rewrite Ec. destruct w.
  - apply (apx_weaken (k + 2) _ (e + 23)); auto; lia.
  - apply (apx_weaken (S (k + 2 + 1)) _ (e + 23 + 23)); [lia|lia|]. apply (apx_div _ _ _ _ _ _ _ _ Hc apx_knot); lia.
  - apply (apx_weaken (S (k + 2 + 1)) _ (e + 23 + 22)); [lia|lia|]. apply (apx_div _ _ _ _ _ _ _ _ Hc apx_kmh); lia.
Qed.

Lemma conv_frequency_apx k e a b u w : apx k e a b -> (k <= 50)%nat -> (0 <= e <= 900)%Z ->
  apx (k + 12) (e + 41) (convert_frequency a u w) (convert_frequency (NT := NR) b u w).
Proof.
  intros H Hk He. unfold convert_frequency.
  destruct (frequency_unit_eqb u w); [apply (apx_weaken k _ e); auto; lia|].
  assert (P : exists c, (match u with HERTZ => a | RADS => rads2hz a | PERIOD_S => s2hz a | DEGS => rads2hz (degs2rads a)
                         | DEGM => rads2hz (degm2rads a) | RPM => rads2hz (rpm2rads a) end) = c /\
     apx (k + 6) (e + 19) c
       (match u with HERTZ => b | RADS => rads2hz (NT := NR) b | PERIOD_S => s2hz (NT := NR) b
        | DEGS => rads2hz (NT := NR) (degs2rads (NT := NR) b)
        | DEGM => rads2hz (NT := NR) (degm2rads (NT := NR) b) | RPM => rads2hz (NT := NR) (rpm2rads (NT := NR) b) end)).
  { eexists. split; [reflexivity|]. destruct u.
    - apply (apx_weaken k _ e); auto; lia.
    - apply (apx_weaken (S (k + 1)) _ (e + 3)); [lia|lia|]. apply (apx_div _ _ _ _ _ _ _ _ H apx_2pi); lia.
    - assert (K := apx_mult _ _ _ _ _ _ _ _ H apx_pi_180 ltac:(lia) ltac:(lia) ltac:(lia) ltac:(lia)).
      apply (apx_weaken (S (S (k + 2) + 1)) _ (e + 10 + 3)); [lia|lia|].
      apply (apx_div _ _ _ _ _ _ _ _ K apx_2pi); lia.
    - assert (K := apx_mult _ _ _ _ _ _ _ _ H apx_pi_180 ltac:(lia) ltac:(lia) ltac:(lia) ltac:(lia)).
      assert (K2 := apx_div _ _ _ _ _ _ _ _ K (apx_ofZ 6 60 ltac:(lia) ltac:(lia) ltac:(lia)) ltac:(lia) ltac:(lia) ltac:(lia) ltac:(lia)).
      apply (apx_weaken (S (S (S (k + 2) + 0) + 1)) _ (e + 10 + 6 + 3)); [lia|lia|].
      apply (apx_div _ _ _ _ _ _ _ _ K2 apx_2pi); lia.
    - apply (apx_weaken (S (0 + k)) _ (0 + e)); [lia|lia|].
      apply (apx_div _ _ _ _ _ _ _ _ (apx_ofZ 0 1 ltac:(lia) ltac:(lia) ltac:(lia)) H); lia.
    - assert (K := apx_mult _ _ _ _ _ _ _ _ H apx_rpm ltac:(lia) ltac:(lia) ltac:(lia) ltac:(lia)).
      apply (apx_weaken (S (S (k + 2) + 1)) _ (e + 9 + 3)); [lia|lia|].
      apply (apx_div _ _ _ _ _ _ _ _ K apx_2pi); lia. }
  destruct P as (c & Ec & Hc). rewrite Ec.
  assert (R := apx_mult _ _ _ _ _ _ _ _ apx_2pi Hc ltac:(lia) ltac:(lia) ltac:(lia) ltac:(lia)).
  destruct w.
  - apply (apx_weaken (k + 6) _ (e + 19)); auto; lia.
  - apply (apx_weaken (S (1 + (k + 6))) _ (3 + (e + 19))); [lia|lia|exact R].
  - apply (apx_weaken (S (S (1 + (k + 6)) + 2)) _ (3 + (e + 19) + 10)); [lia|lia|].
    apply (apx_mult _ _ _ _ _ _ _ _ R apx_180_pi); lia.
  - assert (K := apx_mult _ _ _ _ _ _ _ _ R apx_180_pi ltac:(lia) ltac:(lia) ltac:(lia) ltac:(lia)).
    apply (apx_weaken (S (S (S (1 + (k + 6)) + 2) + 0)) _ (3 + (e + 19) + 10 + 6)); [lia|lia|].
    apply (apx_mult _ _ _ _ _ _ _ _ K (apx_ofZ 6 60 ltac:(lia) ltac:(lia) ltac:(lia))); lia.
  - apply (apx_weaken (S (0 + (k + 6))) _ (0 + (e + 19))); [lia|lia|].
    apply (apx_div _ _ _ _ _ _ _ _ (apx_ofZ 0 1 ltac:(lia) ltac:(lia) ltac:(lia)) Hc); lia.
  - apply (apx_weaken (S (S (1 + (k + 6)) + 2)) _ (3 + (e + 19) + 9)); [lia|lia|].
    apply (apx_div _ _ _ _ _ _ _ _ R apx_rpm); lia.
Qed.

Lemma apx_self x e : is_finite x = true -> / 2 ^ e <= Rabs (dvalue x) <= 2 ^ e -> apx 0 (Z.of_nat e) x (dvalue x).
Proof.
  intros F H. apply apx_exact; auto. rewrite bpow_opp, bpow_powerRZ, <- pow_powerRZ. exact H.
Qed.

Lemma velocity_double_lemma : forall x u w, is_finite x = true -> / 2 ^ 900 <= Rabs (dvalue x) <= 2 ^ 900 ->
  let y := dvalue x * metres_per_second u / metres_per_second w in
  is_finite (convert_velocity_unit x u w) = true /\
  Rabs (dvalue (convert_velocity_unit x u w) - y) <= 5 * uround * Rabs y.
Proof.
  intros x u w F H y.
  assert (A := conv_velocity_apx 0 _ x _ u w (apx_self x 900 F H) ltac:(lia) ltac:(lia)).
  apply apx_result in A; [|lia]. destruct A as [A1 A2]. split; auto.
  assert (E : convert_velocity_unit (NT := NR) (dvalue x) u w = y).
  { unfold y. apply Rmult_eq_reg_r with (metres_per_second w); [|apply mps_pos].
    unfold NR. rewrite velocity_meaning_lemma. field. apply mps_pos. }
  rewrite E in A2. rewrite uround_u53. change (INR (S (0 + 4))) with (1 + 1 + 1 + 1 + 1) in A2.
  replace 5 with (1 + 1 + 1 + 1 + 1) by lra. exact A2.
Qed.

Lemma velocity_roundtrip_lemma : forall x u w, is_finite x = true -> / 2 ^ 850 <= Rabs (dvalue x) <= 2 ^ 850 ->
  let y := convert_velocity_unit (convert_velocity_unit x u w) w u in
  is_finite y = true /\ Rabs (dvalue y - dvalue x) <= 9 * uround * Rabs (dvalue x).
Proof.
  intros x u w F H y.
  assert (A := conv_velocity_apx 0 _ x _ u w (apx_self x 850 F H) ltac:(lia) ltac:(lia)).
  apply (conv_velocity_apx _ _ _ _ w u) in A; [|lia|lia].
  apply apx_result in A; [|lia]. destruct A as [A1 A2]. split; auto.
  destruct (velocity_compose_lemma PI (dvalue x) u w u) as [E1 E2]. unfold NR in A2. rewrite E1, E2 in A2.
  rewrite uround_u53. change (INR (S (0 + 4 + 4))) with (INR 9) in A2. rewrite INR_IZR_INZ in A2. exact A2.
Qed.

Lemma pow_nz x e : / 2 ^ e <= Rabs x -> x <> 0.
Proof. intros H ->. rewrite Rabs_R0 in H. assert (0 < / 2 ^ e) by (apply Rinv_0_lt_compat, pow_lt; lra). lra. Qed.

Lemma frequency_double_lemma : forall x u w f y, is_finite x = true -> / 2 ^ 900 <= Rabs (dvalue x) <= 2 ^ 900 ->
  denotes_hertz PI u (dvalue x) f -> denotes_hertz PI w y f ->
  is_finite (convert_frequency x u w) = true /\
  Rabs (dvalue (convert_frequency x u w) - y) <= 13 * uround * Rabs y.
Proof.
  intros x u w f y F H Hf Hy.
  assert (A := conv_frequency_apx 0 _ x _ u w (apx_self x 900 F H) ltac:(lia) ltac:(lia)).
  apply apx_result in A; [|lia]. destruct A as [A1 A2]. split; auto.
  assert (Nf : f <> 0).
  { intros ->. apply (pow_nz (dvalue x) 900); [apply H|]. destruct u; unfold denotes_hertz in Hf; lra. }
  assert (E : convert_frequency (NT := NR) (dvalue x) u w = y).
  { apply (denotes_unique PI w _ _ f PI_neq0); [|exact Hy]. apply frequency_meaning_lemma; auto. apply PI_neq0. }
  rewrite E in A2. rewrite uround_u53. change (INR (S (0 + 12))) with (INR 13) in A2. rewrite INR_IZR_INZ in A2. exact A2.
Qed.

Lemma frequency_roundtrip_lemma : forall x u w, is_finite x = true -> / 2 ^ 850 <= Rabs (dvalue x) <= 2 ^ 850 ->
  let y := convert_frequency (convert_frequency x u w) w u in
  is_finite y = true /\ Rabs (dvalue y - dvalue x) <= 25 * uround * Rabs (dvalue x).
Proof.
  intros x u w F H y.
  assert (A := conv_frequency_apx 0 _ x _ u w (apx_self x 850 F H) ltac:(lia) ltac:(lia)).
  apply (conv_frequency_apx _ _ _ _ w u) in A; [|lia|lia].
  apply apx_result in A; [|lia]. destruct A as [A1 A2]. split; auto.
  assert (N := pow_nz (dvalue x) 850 (proj1 H)).
  destruct (frequency_compose_lemma PI (dvalue x) u w u PI_neq0 ltac:(auto)) as [E1 E2]. unfold NR in A2. rewrite E1, E2 in A2.
  rewrite uround_u53. change (INR (S (0 + 12 + 12))) with (INR 25) in A2. rewrite INR_IZR_INZ in A2. exact A2.
Qed.

(** Degrees and radians. *)
Lemma degrees_double_lemma : forall l, Forall (fun x => is_finite x = true /\ / 2 ^ 900 <= Rabs (dvalue x) <= 2 ^ 900) l ->
  Forall2 (fun x y => is_finite y = true /\ Rabs (dvalue y - dvalue x * (PI / 180)) <= 4 * uround * Rabs (dvalue x * (PI / 180)))
    l (deg2rad l) /\
  Forall2 (fun x y => is_finite y = true /\ Rabs (dvalue y - dvalue x * (180 / PI)) <= 4 * uround * Rabs (dvalue x * (180 / PI)))
    l (rad2deg l) /\
  Forall2 (fun x y => is_finite y = true /\ Rabs (dvalue y - dvalue x) <= 7 * uround * Rabs (dvalue x))
    l (rad2deg (deg2rad l)).
Proof.
  intros l Hl. unfold deg2rad, rad2deg.
  assert (D : forall x, is_finite x = true /\ / 2 ^ 900 <= Rabs (dvalue x) <= 2 ^ 900 ->
    apx 3 910 (nmul x mu_pi_180) (dvalue x * (PI / 180)) /\ apx 3 910 (nmul x mu_180_pi) (dvalue x * (180 / PI))).
  { intros x [F H]. assert (A := apx_self x 900 F H). split.
    - apply (apx_mult 0 2 _ _ _ _ _ _ A apx_pi_180); lia.
    - apply (apx_mult 0 2 _ _ _ _ _ _ A apx_180_pi); lia. }
  assert (R4 : INR 4 = 4) by (rewrite INR_IZR_INZ; reflexivity).
  assert (R7 : INR 7 = 7) by (rewrite INR_IZR_INZ; reflexivity).
  assert (P := PI_RGT_0). rewrite uround_u53. rewrite map_map.
  split; [|split]; induction Hl as [|x l Hx Hl IH]; constructor; auto; destruct (D x Hx) as [D1 D2].
  - apply apx_result in D1; [|lia]. rewrite R4 in D1. exact D1.
  - apply apx_result in D2; [|lia]. rewrite R4 in D2. exact D2.
  - assert (K := apx_mult _ _ _ _ _ _ _ _ D1 apx_180_pi ltac:(lia) ltac:(lia) ltac:(lia) ltac:(lia)).
    apply apx_result in K; [|lia]. change (INR (S (S (3 + 2)))) with (INR 7) in K. rewrite R7 in K.
    assert (E : dvalue x * (PI / 180) * mu_180_pi (NT := NR) = dvalue x).
    { unfold mu_180_pi. cbn [ndiv nofZ npi NR RNum_at]. field. lra. }
    rewrite E in K. exact K.
Qed.

(** 29 km/h converted to km/h is not 29. *)
Lemma velocity_same_unit_refuted_pf : exists x u, is_finite x = true /\ dvalue x = 29 /\
  is_finite (convert_velocity_unit x u u) = true /\ dvalue (convert_velocity_unit x u u) = 29 - / 2 ^ 48.
Proof.
  exists (f64_ofZ 29), KMH. destruct (ofZ_ok 29 ltac:(lia)) as [F V]. split; auto. split; auto.
  split; [vm_compute; reflexivity|].
  match goal with |- dvalue ?z = _ => change (dvalue z) with (val z) end.
  rewrite (val_pos _ 8162774324609023 48) by (vm_compute; reflexivity).
  change (2 ^ 48)%Z with 281474976710656%Z. rewrite pow_IZR. change (2 ^ Z.of_nat 48)%Z with 281474976710656%Z. lra.
Qed.

(** 3 degrees to radians and back. *)
Lemma degrees_roundtrip_refuted_pf : exists x, is_finite x = true /\ dvalue x = 3 /\
  map dvalue (rad2deg (deg2rad [x])) = [3 + / 2 ^ 51].
Proof.
  exists (f64_ofZ 3). destruct (ofZ_ok 3 ltac:(lia)) as [F V]. split; auto. split; auto.
  cbn [rad2deg deg2rad map]. f_equal.
  match goal with |- dvalue ?z = _ => change (dvalue z) with (val z) end.
  rewrite (val_pos _ 6755399441055745 51) by (vm_compute; reflexivity).
  change (2 ^ 51)%Z with 2251799813685248%Z. rewrite pow_IZR. change (2 ^ Z.of_nat 51)%Z with 2251799813685248%Z. lra.
Qed.
