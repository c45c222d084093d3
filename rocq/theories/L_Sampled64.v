(** Sampling by repeated addition of a step, in binary64: FFT frequencies and
    the points of Integrate1d. *)
From Coq Require Import List Arith ZArith Reals Bool Lia Lra Psatz.
From Coquelicot Require Import Coquelicot.
From Flocq Require Import Core.Core IEEE754.BinarySingleNaN.
From Verif Require Import Outcome Num NumFun F64 M_Basics M_Integ S_Basics S_Series L_Series S_Integ L_Integ
  L_F64 L_Linspace64 L_F64Err S_Angles S_Double S_Trapz64 S_Sampled64 L_Series64 L_Interp64 L_Special64 L_Apx L_Sum64 L_Trapz64.
From Verif Require L_Arange64 L_Units64.
Import ListNotations.
Local Open Scope R_scope.

Lemma div_rel (x y : f64) : is_finite x = true -> is_finite y = true -> val y <> 0 -> Rabs (val x / val y) <= 8 * big ->
  is_finite (x /! y) = true /\ Rabs (val (x /! y) - val x / val y) <= u53 * Rabs (val x / val y) + eta64.
Proof.
  intros F G N H. destruct (div_ok x y F G N (big_over _ H)) as (A & B). split; [exact A|]. rewrite B. apply L_F64Err.rnd_err.
Qed.

(** ** k additions of the same step *)
Section Steps.
Context (a d : f64) (H e A : R).
Hypothesis Fa : is_finite a = true.
Hypothesis Fd : is_finite d = true.
Hypothesis Hd : Rabs (val d - H) <= e.
Hypothesis HA : Rabs (val a) <= A.
Lemma steps_err k : INR k <= nmax -> A + INR k * (Rabs H + e) <= big ->
  is_finite (fsum a (fun _ => d) k) = true /\
  Rabs (val (fsum a (fun _ => d) k) - (val a + INR k * H)) <= INR k * e + 101 / 100 * INR k * u53 * (A + INR k * (Rabs H + e)).
Proof.
  intros Hk HB. destruct (fsum_err a (fun _ => d) (val a) 0 A (fun _ => H) (fun _ => e) (fun _ => Rabs H) k) as (X & Y); auto.
  - rewrite Rminus_eq_0, Rabs_R0. lra.
  - intros. lra.
  - rewrite bsum_const. lra.
  - split; [exact X|]. rewrite !bsum_const in Y. rewrite Rplus_0_l in Y. replace (A + 0 + INR k * (Rabs H + e)) with (A + INR k * (Rabs H + e)) in Y by ring. exact Y.
Qed.
End Steps.

Lemma fsum_const_shift (a d : f64) k : fsum a (fun _ => d) (S k) = fsum (a +! d) (fun _ => d) k.
Proof. apply (fsum_shift a (fun _ => d) k). Qed.

Lemma freq_loop_nth df u : forall k f i z, (i < k)%nat ->
  nth i (freq_loop f df u k) z = convert_frequency (fsum f (fun _ => df) i) HERTZ u.
Proof.
  induction k as [|k IH]; intros f i z Hi; [lia|]. destruct i as [|i]; [reflexivity|].
  change (nth i (freq_loop (f +! df) df u k) z = convert_frequency (fsum f (fun _ => df) (S i)) HERTZ u).
  rewrite IH by lia. rewrite fsum_const_shift. reflexivity.
Qed.
Lemma freq_loop_length df u : forall k f, length (freq_loop f df u k) = k.
Proof. induction k as [|k IH]; intros f; [reflexivity|]. cbn [freq_loop length]. rewrite IH. reflexivity. Qed.

Lemma sample_map (g : f64 -> f64) dx : forall k x, sample g x dx k = map g (map (fsum x (fun _ => dx)) (seq 0 k)).
Proof.
  induction k as [|k IH]; intros x; [reflexivity|]. cbn [sample seq map]. f_equal.
  change (sample g (x +! dx) dx k = map g (map (fsum x (fun _ => dx)) (seq 1 k))). rewrite IH. f_equal. rewrite <- seq_shift, map_map.
  apply map_ext. intros i. symmetry. apply fsum_const_shift.
Qed.

(** ** Frequencies *)
Lemma convert_near (z : f64) u (F y dl ep : R) : is_finite z = true -> 0 < F -> val z = F * (1 + dl) -> Rabs dl <= ep -> ep <= / 100 ->
  / 2 ^ 900 <= Rabs (val z) <= 2 ^ 900 -> denotes_hertz PI u y F ->
  is_finite (convert_frequency z HERTZ u) = true /\ Rabs (dvalue (convert_frequency z HERTZ u) - y) <= 102 / 100 * (ep + 13 * u53) * Rabs y.
Proof.
  intros Fz HF E Hd He HR Hy. assert (U := u_tiny). apply Rabs_le_inv in Hd. assert (P : 0 < 1 + dl) by lra.
  assert (X : exists y', denotes_hertz PI u y' (val z) /\ Rabs (y' - y) <= 102 / 100 * ep * Rabs y /\ Rabs y' <= 102 / 100 * Rabs y).
  { assert (Y0 := Rabs_pos y).
    assert (LIN : Rabs (y * (1 + dl) - y) <= 102 / 100 * ep * Rabs y /\ Rabs (y * (1 + dl)) <= 102 / 100 * Rabs y).
    { split.
      - replace (y * (1 + dl) - y) with (dl * y) by ring. rewrite Rabs_mult. apply Rmult_le_compat_r; [exact Y0|]. apply Rabs_le. lra.
      - rewrite Rabs_mult, Rmult_comm. apply Rmult_le_compat_r; [exact Y0|]. apply Rabs_le. lra. }
    assert (INV : Rabs (/ (1 + dl) - 1) <= 102 / 100 * ep /\ Rabs (/ (1 + dl)) <= 102 / 100).
    { assert (I : 0 < / (1 + dl) <= 102 / 100).
      { split; [apply Rinv_0_lt_compat; exact P|]. apply Rmult_le_reg_r with (1 + dl); [exact P|]. rewrite Rinv_l by lra. lra. }
      split; [|rewrite Rabs_pos_eq; lra].
      replace (/ (1 + dl) - 1) with (- dl * / (1 + dl)) by (field; lra). rewrite Rabs_mult, Rabs_Ropp, (Rabs_pos_eq (/ (1 + dl))) by lra.
      replace (102 / 100 * ep) with (ep * (102 / 100)) by ring. apply Rmult_le_compat; [apply Rabs_pos|lra|apply Rabs_le; lra|lra]. }
    destruct u; cbn [denotes_hertz] in *;
      try (exists (y * (1 + dl)); split; [rewrite Hy, E; ring|exact LIN]).
    exists (y * / (1 + dl)). split; [rewrite E; rewrite <- Hy; field; lra|]. destruct INV as (I1 & I2). split.
    - replace (y * / (1 + dl) - y) with ((/ (1 + dl) - 1) * y) by ring. rewrite Rabs_mult. apply Rmult_le_compat_r; assumption.
    - rewrite Rabs_mult, Rmult_comm. apply Rmult_le_compat_r; assumption. }
  destruct X as (y' & D & X1 & X2).
  destruct (L_Units64.frequency_double_lemma z HERTZ u (val z) y' Fz HR eq_refl D) as (Fc & Ec). rewrite uround_u53 in Ec.
  split; [exact Fc|]. replace (dvalue (convert_frequency z HERTZ u) - y) with ((dvalue (convert_frequency z HERTZ u) - y') + (y' - y)) by ring.
  apply Rle_trans with (1 := Rabs_triang _ _).
  assert (13 * u53 * Rabs y' <= 13 * u53 * (102 / 100 * Rabs y)) by (apply Rmult_le_compat_l; lra). lra.
Qed.

Section Freq.
Context (fs : f64) (n : nat).
Hypothesis Ff : is_finite fs = true.
Hypothesis Hf : bpow radix2 (-400) <= val fs <= bpow radix2 400.
Hypothesis Hn : (0 < n)%nat.
Hypothesis HN : (Z.of_nat n <= 2 ^ 40)%Z.
Let df : f64 := fs /! f64_ofZ (Z.of_nat n).
Let F1 := val fs / INR n.

Lemma n_bounds : 1 <= INR n <= bpow radix2 40.
Proof. split; [change 1 with (INR 1); apply le_INR; lia|]. rewrite INR_IZR_INZ. apply IZR_le. exact HN. Qed.
Lemma n_nmax : bpow radix2 40 <= nmax.
Proof. unfold nmax. apply bpow_le. discriminate. Qed.
Lemma F1_bounds : bpow radix2 (-440) <= F1 <= bpow radix2 400.
Proof.
  assert (N := n_bounds). assert (I : bpow radix2 (-40) <= / INR n <= 1).
  { split; [|rewrite <- Rinv_1; apply Rinv_le_contravar; lra]. change (-40)%Z with (- (40))%Z. rewrite bpow_opp. apply Rinv_le_contravar; lra. }
  unfold F1, Rdiv. assert (P := bpow_gt_0 radix2 (-400)). assert (P2 := bpow_gt_0 radix2 (-40)). split.
  - change (-440)%Z with (-400 + -40)%Z. rewrite bpow_plus. apply Rmult_le_compat; lra.
  - rewrite <- (Rmult_1_r (bpow radix2 400)). apply Rmult_le_compat; lra.
Qed.
Lemma df_ok : is_finite df = true /\ Rabs (val df - F1) <= 1001 / 1000 * u53 * F1.
Proof.
  assert (N := n_bounds). assert (B := F1_bounds). assert (Z1 : (Z.abs (Z.of_nat n) < 2 ^ 53)%Z) by lia.
  destruct (ofZ_ok (Z.of_nat n) Z1) as (Fz & Vz). rewrite <- INR_IZR_INZ in Vz.
  assert (P := bpow_gt_0 radix2 (-440)). assert (F0 : 0 < F1) by lra.
  assert (BB : bpow radix2 400 <= big) by (apply bpow_le; discriminate).
  destruct (div_rel fs (f64_ofZ (Z.of_nat n)) Ff Fz) as (A & E); rewrite ?Vz in *; [lra|fold F1; rewrite Rabs_pos_eq; lra|].
  fold F1 in E. fold df in A, E. split; [exact A|]. rewrite (Rabs_pos_eq F1) in E by lra.
  assert (T := eta_tau). assert (TT : tau <= F1) by (apply Rle_trans with (2 := proj1 B); apply bpow_le; discriminate).
  assert (U := u53_pos). assert (/ 1000 * u53 * tau <= / 1000 * u53 * F1) by (apply Rmult_le_compat_l; lra). lra.
Qed.

Lemma freq_k k : (k <= n)%nat -> is_finite (fsum (f64_ofZ 0) (fun _ => df) k) = true /\
  Rabs (val (fsum (f64_ofZ 0) (fun _ => df) k) - INR k * F1) <= (102 / 100 * INR k + 1001 / 1000) * u53 * (INR k * F1).
Proof.
  intros Hk. assert (N := n_bounds). assert (NM := n_nmax). assert (B := F1_bounds). assert (P := bpow_gt_0 radix2 (-440)).
  destruct df_ok as (Fd & Ed). destruct (ofZ_ok 0 ltac:(lia)) as (F0 & V0). assert (U := u_tiny).
  assert (Ik : 0 <= INR k <= INR n) by (split; [apply pos_INR|apply le_INR; exact Hk]).
  assert (F1p : 0 < F1) by lra.
  assert (UF : u53 * F1 <= / 1000000 * F1) by (apply Rmult_le_compat_r; lra).
  assert (KF : 0 <= INR k * F1) by (apply Rmult_le_pos; lra).
  assert (KB : INR k * F1 <= bpow radix2 440).
  { change 440%Z with (40 + 400)%Z. rewrite bpow_plus. apply Rmult_le_compat; lra. }
  assert (KU : INR k * (u53 * F1) <= / 1000000 * (INR k * F1)).
  { replace (/ 1000000 * (INR k * F1)) with (INR k * (/ 1000000 * F1)) by ring. apply Rmult_le_compat_l; lra. }
  assert (BB : 2 * bpow radix2 440 <= big).
  { replace (2 * bpow radix2 440) with (bpow radix2 441) by (change 441%Z with (1 + 440)%Z; rewrite bpow_plus; reflexivity). apply bpow_le. discriminate. }
  destruct (steps_err (f64_ofZ 0) df F1 (1001 / 1000 * u53 * F1) 0 F0 Fd Ed) with (k := k) as (X & Y).
  - rewrite V0, Rabs_R0. lra.
  - lra.
  - rewrite Rabs_pos_eq by lra. lra.
  - split; [exact X|]. rewrite V0 in Y. rewrite !Rplus_0_l in Y. apply Rle_trans with (1 := Y). rewrite (Rabs_pos_eq F1) by lra.
    replace (INR k * (1001 / 1000 * u53 * F1) + 101 / 100 * INR k * u53 * (INR k * (F1 + 1001 / 1000 * u53 * F1)))
      with (1001 / 1000 * (u53 * (INR k * F1)) + 101 / 100 * (INR k * u53 * (INR k * F1 + 1001 / 1000 * (INR k * (u53 * F1))))) by ring.
    replace ((102 / 100 * INR k + 1001 / 1000) * u53 * (INR k * F1)) with (1001 / 1000 * (u53 * (INR k * F1)) + 101 / 100 * (INR k * u53 * (102 / 101 * (INR k * F1)))) by field.
    apply Rplus_le_compat_l, Rmult_le_compat_l; [lra|]. apply Rmult_le_compat_l; [apply Rmult_le_pos; lra|]. lra.
Qed.

Lemma freq_entry k u y : (0 < k <= n)%nat -> denotes_hertz PI u y (INR k * F1) ->
  is_finite (convert_frequency (fsum (f64_ofZ 0) (fun _ => df) k) HERTZ u) = true /\
  Rabs (dvalue (convert_frequency (fsum (f64_ofZ 0) (fun _ => df) k) HERTZ u) - y) <= (2 * INR k + 15) * u53 * Rabs y.
Proof.
  intros Hk Hy. destruct (freq_k k ltac:(lia)) as (Fz & Ez). assert (N := n_bounds). assert (NM := n_nmax). assert (B := F1_bounds). assert (P := bpow_gt_0 radix2 (-440)).
  assert (U := u_tiny). set (z := fsum (f64_ofZ 0) (fun _ => df) k) in *.
  assert (Ik : 1 <= INR k <= INR n) by (split; [change 1 with (INR 1); apply le_INR; lia|apply le_INR; lia]).
  set (F := INR k * F1) in *. assert (F1p : 0 < F1) by lra. assert (FL : F1 <= F) by (unfold F; replace F1 with (1 * F1) at 1 by ring; apply Rmult_le_compat_r; lra).
  assert (FH : F <= bpow radix2 440) by (unfold F; change 440%Z with (40 + 400)%Z; rewrite bpow_plus; apply Rmult_le_compat; lra).
  assert (KU := ku_small (INR k) ltac:(lra)).
  set (ep := (102 / 100 * INR k + 1001 / 1000) * u53) in *. assert (EP : 0 <= ep <= / 100) by (unfold ep; lra).
  assert (D : Rabs ((val z - F) / F) <= ep).
  { unfold Rdiv. rewrite Rabs_mult, Rabs_inv, (Rabs_pos_eq F) by lra. apply Rmult_le_reg_r with F; [lra|]. rewrite Rmult_assoc, Rinv_l, Rmult_1_r by lra. exact Ez. }
  assert (V : val z = F * (1 + (val z - F) / F)) by (field; lra).
  assert (BZ : F / 2 <= val z <= 2 * F).
  { apply Rabs_le_inv in Ez. assert (ep * F <= / 100 * F) by (apply Rmult_le_compat_r; lra). lra. }
  destruct (convert_near z u F y ((val z - F) / F) ep) as (C & E); auto; try lra.
  - rewrite Rabs_pos_eq by lra. split.
    + apply Rle_trans with (F / 2); [|lra]. apply Rle_trans with (bpow radix2 (-440) / 2); [|lra].
      replace (/ 2 ^ 900) with (bpow radix2 (-900)) by (change (-900)%Z with (- (900))%Z; rewrite bpow_opp, (bpow_powerRZ radix2 900); reflexivity).
      apply Rle_trans with (bpow radix2 (-441)); [apply bpow_le; discriminate|].
      change (-440)%Z with (1 + -441)%Z. rewrite bpow_plus. change (bpow radix2 1) with 2. lra.
    + apply Rle_trans with (2 * F); [lra|]. apply Rle_trans with (bpow radix2 441).
      * change 441%Z with (1 + 440)%Z. rewrite bpow_plus. change (bpow radix2 1) with 2. lra.
      * replace (2 ^ 900) with (bpow radix2 900) by (rewrite (bpow_powerRZ radix2 900); reflexivity). apply bpow_le. discriminate.
  - split; [exact C|]. apply Rle_trans with (1 := E). apply Rmult_le_compat_r; [apply Rabs_pos|]. unfold ep.
    assert (0 <= INR k * u53) by (apply Rmult_le_pos; lra). assert (1 * u53 <= INR k * u53) by (apply Rmult_le_compat_r; lra). lra.
Qed.

Lemma freq_increasing k : (k < n)%nat -> val (fsum (f64_ofZ 0) (fun _ => df) k) < val (fsum (f64_ofZ 0) (fun _ => df) (S k)).
Proof.
  intros Hk. destruct (freq_k k ltac:(lia)) as (Fz & Ez). assert (N := n_bounds). assert (NM := n_nmax). assert (B := F1_bounds). assert (P := bpow_gt_0 radix2 (-440)).
  assert (U := u_tiny). cbn [fsum]. set (z := fsum (f64_ofZ 0) (fun _ => df) k) in *. destruct df_ok as (Fd & Ed).
  assert (Ik : 0 <= INR k <= INR n) by (split; [apply pos_INR|apply le_INR; lia]).
  assert (KU := ku_small (INR k) ltac:(lra)). assert (F1p : 0 < F1) by lra.
  assert (KF : 0 <= INR k * F1) by (apply Rmult_le_pos; lra).
  assert (KB : INR k * F1 <= bpow radix2 440).
  { change 440%Z with (40 + 400)%Z. rewrite bpow_plus. apply Rmult_le_compat; lra. }
  assert (BB : bpow radix2 440 <= big) by (apply bpow_le; discriminate).
  assert (BC : bpow radix2 400 <= big) by (apply bpow_le; discriminate).
  assert (EZ : Rabs (val z - INR k * F1) <= / 100 * (INR k * F1)).
  { apply Rle_trans with (1 := Ez). apply Rmult_le_compat_r; [exact KF|]. lra. }
  apply Rabs_le_inv in EZ.
  assert (UF : u53 * F1 <= / 1000000 * F1) by (apply Rmult_le_compat_r; lra). assert (UF0 : 0 <= u53 * F1) by (apply Rmult_le_pos; lra).
  apply Rabs_le_inv in Ed.
  assert (S0 : 0 <= val z + val df) by lra.
  destruct (plus_rel z df Fz Fd) as (_ & E).
  { rewrite Rabs_pos_eq by lra. lra. }
  rewrite (Rabs_pos_eq _ S0) in E. apply Rabs_le_inv in E.
  assert (u53 * (val z + val df) <= u53 * (101 / 100 * (INR k * F1) + 2 * F1)) by (apply Rmult_le_compat_l; lra).
  assert (INR k * u53 * F1 <= / 1000 * F1) by (apply Rmult_le_compat_r; lra).
  replace (u53 * (101 / 100 * (INR k * F1) + 2 * F1)) with (101 / 100 * (INR k * u53 * F1) + 2 * (u53 * F1)) in H by ring.
  lra.
Qed.
End Freq.

(** ** Integrate1d *)
Lemma full_err (m h dx c s S B t p P Q g v : R) :
  0 <= m <= nmax -> Rabs (s - S) <= 101 / 100 * m * u53 * B -> Rabs S <= B ->
  Rabs (t - 2 * s) <= u53 * Rabs (2 * s) + eta64 ->
  Rabs (p - P) <= u53 * Rabs P -> Rabs P <= Q -> Rabs (g - (p + t)) <= u53 * Rabs (p + t) ->
  Rabs (dx - h) <= 201 / 100 * u53 * Rabs h + 101 / 100 * eta64 -> Rabs (c - dx / 2) <= u53 * (Rabs dx / 2) + eta64 ->
  Rabs (v - g * c) <= u53 * Rabs (g * c) + eta64 ->
  Rabs (v - h * (S + P / 2)) <= 2 * (m + 4) * u53 * (Rabs h * (B + Q / 2)) + 2 * eta64 * (Rabs h + (Q + 2 * B) + 1).
Proof.
  intros Hm Hs HS Ht Hp HP Hg Hd Hc Hv. assert (U := u_tiny). assert (KU := ku_small m Hm). assert (ES := L_Arange64.eta_small).
  set (u := u53) in *. set (eta := eta64) in *. set (w := m * u) in *. set (H := Rabs h) in *.
  assert (H0 : 0 <= H) by apply Rabs_pos. assert (B0 : 0 <= B) by (apply Rle_trans with (2 := HS); apply Rabs_pos).
  assert (Q0 : 0 <= Q) by (apply Rle_trans with (2 := HP); apply Rabs_pos). set (K := Q + 2 * B).
  assert (wB : 0 <= w * B <= / 1000 * B) by (split; [apply Rmult_le_pos; lra|apply Rmult_le_compat_r; lra]).
  replace (101 / 100 * m * u * B) with (101 / 100 * (w * B)) in Hs by (unfold w; ring).
  assert (UB : 0 <= u * B <= / 1000000 * B) by (split; [apply Rmult_le_pos; lra|apply Rmult_le_compat_r; lra]).
  assert (UQ : 0 <= u * Q <= / 1000000 * Q) by (split; [apply Rmult_le_pos; lra|apply Rmult_le_compat_r; lra]).
  assert (UE : 0 <= u * eta <= / 1000000 * eta) by (split; [apply Rmult_le_pos; lra|apply Rmult_le_compat_r; lra]).
  assert (As : Rabs s <= 1002 / 1000 * B).
  { replace s with ((s - S) + S) by ring. apply Rle_trans with (1 := Rabs_triang _ _). lra. }
  assert (A2 : Rabs (2 * s) <= 2004 / 1000 * B) by (rewrite Rabs_mult, (Rabs_pos_eq 2) by lra; lra).
  assert (Et : Rabs (t - 2 * s) <= 2004 / 1000 * (u * B) + eta).
  { apply Rle_trans with (1 := Ht). assert (u * Rabs (2 * s) <= u * (2004 / 1000 * B)) by (apply Rmult_le_compat_l; lra). lra. }
  assert (Ep : Rabs (p - P) <= u * Q) by (apply Rle_trans with (1 := Hp); apply Rmult_le_compat_l; lra).
  (* p + t against P + 2 S *)
  assert (D1 : Rabs (p + t - (P + 2 * S)) <= u * Q + 2004 / 1000 * (u * B) + eta + 202 / 100 * (w * B)).
  { replace (p + t - (P + 2 * S)) with ((p - P) + ((t - 2 * s) + 2 * (s - S))) by ring.
    apply Rle_trans with (1 := Rabs_triang _ _). assert (X := Rabs_triang (t - 2 * s) (2 * (s - S))).
    rewrite (Rabs_mult 2), (Rabs_pos_eq 2) in X by lra. lra. }
  assert (G0 : Rabs (P + 2 * S) <= K).
  { apply Rle_trans with (1 := Rabs_triang _ _). rewrite (Rabs_mult 2), (Rabs_pos_eq 2) by lra. unfold K. lra. }
  assert (A3 : Rabs (p + t) <= 1004 / 1000 * K + eta).
  { replace (p + t) with ((p + t - (P + 2 * S)) + (P + 2 * S)) by ring. apply Rle_trans with (1 := Rabs_triang _ _). unfold K in *. lra. }
  assert (UK : 0 <= u * K <= / 1000000 * K) by (unfold K; lra).
  assert (Eg : Rabs (g - (p + t)) <= 1004 / 1000 * (u * K) + u * eta).
  { apply Rle_trans with (1 := Hg). assert (u * Rabs (p + t) <= u * (1004 / 1000 * K + eta)) by (apply Rmult_le_compat_l; lra). lra. }
  assert (DG : Rabs (g - (P + 2 * S)) <= 21 / 10 * (u * K) + 101 / 100 * (w * K) + 101 / 100 * eta).
  { replace (g - (P + 2 * S)) with ((g - (p + t)) + (p + t - (P + 2 * S))) by ring. apply Rle_trans with (1 := Rabs_triang _ _).
    assert (0 <= w * Q) by (apply Rmult_le_pos; lra). replace (w * K) with (w * Q + 2 * (w * B)) by (unfold K; ring).
    replace (u * K) with (u * Q + 2 * (u * B)) in * by (unfold K; ring). lra. }
  assert (K0 : 0 <= K) by (unfold K; lra).
  assert (WK : 0 <= w * K <= / 1000 * K) by (split; [apply Rmult_le_pos; lra|apply Rmult_le_compat_r; lra]).
  assert (AG : Rabs g <= 101 / 100 * K + 101 / 100 * eta).
  { replace g with ((g - (P + 2 * S)) + (P + 2 * S)) by ring. apply Rle_trans with (1 := Rabs_triang _ _). lra. }
  (* c against h / 2 *)
  assert (UH : 0 <= u * H <= / 1000000 * H) by (split; [apply Rmult_le_pos; lra|apply Rmult_le_compat_r; lra]).
  assert (AD : Rabs dx <= 1001 / 1000 * H + 101 / 100 * eta).
  { replace dx with ((dx - h) + h) by ring. apply Rle_trans with (1 := Rabs_triang _ _). fold H. lra. }
  assert (DC : Rabs (c - h / 2) <= 152 / 100 * (u * H) + 152 / 100 * eta).
  { replace (c - h / 2) with ((c - dx / 2) + (dx - h) * / 2) by field. apply Rle_trans with (1 := Rabs_triang _ _).
    rewrite (Rabs_mult _ (/ 2)), (Rabs_pos_eq (/ 2)) by lra.
    assert (u * (Rabs dx / 2) <= u * ((1001 / 1000 * H + 101 / 100 * eta) / 2)) by (apply Rmult_le_compat_l; lra). lra. }
  assert (H2 : Rabs (h / 2) = H / 2) by (unfold Rdiv; rewrite Rabs_mult, (Rabs_pos_eq (/ 2)) by lra; reflexivity).
  assert (AC : Rabs c <= 501 / 1000 * H + 152 / 100 * eta).
  { replace c with ((c - h / 2) + h / 2) by ring. apply Rle_trans with (1 := Rabs_triang _ _). rewrite H2. lra. }
  (* products *)
  assert (KH : 0 <= K * H) by (apply Rmult_le_pos; lra).
  assert (EK : 0 <= eta * K) by (apply Rmult_le_pos; lra). assert (EH : 0 <= eta * H) by (apply Rmult_le_pos; lra).
  assert (EE : 0 <= eta * eta <= / 1000000 * eta) by (split; [apply Rmult_le_pos; lra|apply Rmult_le_compat_r; lra]).
  assert (UKH : 0 <= u * (K * H)) by (apply Rmult_le_pos; lra). assert (WKH : 0 <= w * (K * H)) by (apply Rmult_le_pos; lra).
  assert (UEH : 0 <= u * (eta * H) <= / 1000000 * (eta * H)) by (split; [apply Rmult_le_pos; lra|apply Rmult_le_compat_r; lra]).
  assert (UEK : 0 <= u * (eta * K) <= / 1000000 * (eta * K)) by (split; [apply Rmult_le_pos; lra|apply Rmult_le_compat_r; lra]).
  assert (UEE : 0 <= u * (eta * eta) <= / 1000000 * (eta * eta)) by (split; [apply Rmult_le_pos; lra|apply Rmult_le_compat_r; lra]).
  assert (T1 : Rabs ((g - (P + 2 * S)) * (h / 2)) <= 105 / 100 * (u * (K * H)) + 51 / 100 * (w * (K * H)) + 51 / 100 * (eta * H)).
  { rewrite Rabs_mult, H2. assert (X : Rabs (g - (P + 2 * S)) * (H / 2) <= (21 / 10 * (u * K) + 101 / 100 * (w * K) + 101 / 100 * eta) * (H / 2)) by (apply Rmult_le_compat_r; lra).
    apply Rle_trans with (1 := X).
    replace ((21 / 10 * (u * K) + 101 / 100 * (w * K) + 101 / 100 * eta) * (H / 2)) with (105 / 100 * (u * (K * H)) + 101 / 200 * (w * (K * H)) + 101 / 200 * (eta * H)) by field. lra. }
  assert (T2 : Rabs (g * (c - h / 2)) <= 154 / 100 * (u * (K * H)) + 155 / 100 * (eta * K) + / 100 * (eta * H) + / 100 * eta).
  { rewrite Rabs_mult. apply Rle_trans with ((101 / 100 * K + 101 / 100 * eta) * (152 / 100 * (u * H) + 152 / 100 * eta)).
    - apply Rmult_le_compat; auto; apply Rabs_pos.
    - replace ((101 / 100 * K + 101 / 100 * eta) * (152 / 100 * (u * H) + 152 / 100 * eta))
        with (101 / 100 * (152 / 100) * (u * (K * H)) + 101 / 100 * (152 / 100) * (eta * K) + 101 / 100 * (152 / 100) * (u * (eta * H)) + 101 / 100 * (152 / 100) * (eta * eta)) by ring. lra. }
  assert (T3 : u * Rabs (g * c) <= 51 / 100 * (u * (K * H)) + / 100 * (eta * K) + / 100 * (eta * H) + / 100 * eta).
  { rewrite Rabs_mult. apply Rle_trans with (u * ((101 / 100 * K + 101 / 100 * eta) * (501 / 1000 * H + 152 / 100 * eta))).
    - apply Rmult_le_compat_l; [lra|]. apply Rmult_le_compat; auto; apply Rabs_pos.
    - replace (u * ((101 / 100 * K + 101 / 100 * eta) * (501 / 1000 * H + 152 / 100 * eta)))
        with (101 / 100 * (501 / 1000) * (u * (K * H)) + 101 / 100 * (152 / 100) * (u * (eta * K)) + 101 / 100 * (501 / 1000) * (u * (eta * H)) + 101 / 100 * (152 / 100) * (u * (eta * eta))) by ring. lra. }
  replace (v - h * (S + P / 2)) with ((v - g * c) + (g * (c - h / 2) + (g - (P + 2 * S)) * (h / 2))) by field.
  apply Rle_trans with (1 := Rabs_triang _ _). assert (X := Rabs_triang (g * (c - h / 2)) ((g - (P + 2 * S)) * (h / 2))).
  replace (2 * (m + 4) * u * (H * (B + Q / 2))) with (w * (K * H) + 4 * (u * (K * H))) by (unfold w, K; field).
  replace (2 * eta * (H + K + 1)) with (2 * (eta * H) + 2 * (eta * K) + 2 * eta) by ring. lra.
Qed.

Section Full.
Context (y : list f64) (dx : f64) (h : R).
Hypothesis Hn : (2 <= length y)%nat.
Hypothesis HN : INR (length y) <= nmax.
Hypothesis Hy : ordinary mag y.
Hypothesis Fd : is_finite dx = true.
Hypothesis Hh : Rabs h <= 2 * mag.
Hypothesis Hd : Rabs (val dx - h) <= 201 / 100 * u53 * Rabs h + 101 / 100 * eta64.
Let n := length y.
Let s := fsum (f64_ofZ 0) (fun j => nth (1 + j) y f0) (n - 2).
Let v := ((nth 0 y f0 +! nth (n - 1) y f0) +! (f64_ofZ 2 *! s)) *! (nlit 1 2 *! dx).

Lemma abs_sum_bsum (l : list f64) : abs_sum (dvalues l) = bsum (length l) (fun i => Rabs (val (nth i l f0))).
Proof. induction l as [|a l IH]; [reflexivity|]. cbn [length]. rewrite bsum_shift. cbn [dvalues map abs_sum fold_right nth]. f_equal. exact IH. Qed.
Lemma bsum_ends m (f : nat -> R) : (2 <= m)%nat -> (forall i, 0 <= f i) ->
  f 0%nat + f (m - 1)%nat + 2 * bsum (m - 2) (fun j => f (1 + j)%nat) <= 2 * bsum m f.
Proof.
  intros H Hf. destruct m as [|[|m]]; try lia. replace (S (S m) - 2)%nat with m by lia. replace (S (S m) - 1)%nat with (S m) by lia.
  change (bsum (S (S m)) f) with (bsum (S m) f + f (S m)). rewrite bsum_shift.
  assert (A := Hf 0%nat). assert (B := Hf (S m)). change (fun j => f (1 + j)%nat) with (fun j => f (S j)). lra.
Qed.

Lemma full_f a : is_finite v = true /\
  Rabs (val v - areas (grid a h n) (dvalues y)) <=
    2 * (INR n + 2) * u53 * areas_abs (grid a h n) (dvalues y) + 4 * eta64 * (Rabs h + abs_sum (dvalues y) + 1).
Proof.
  assert (M1 := mag_1). assert (U := u_tiny).
  set (y_ := fun i => val (nth i y f0)).
  assert (O : forall i, is_finite (nth i y f0) = true /\ Rabs (y_ i) <= mag) by (intros i; apply ordinary_nth; auto; lra).
  assert (mN : 0 <= INR (n - 2) <= nmax) by (split; [apply pos_INR|apply Rle_trans with (2 := HN); apply le_INR; unfold n; lia]).
  assert (NM : 1000 <= nmax) by (change nmax with (IZR (2 ^ 43)); change (2 ^ 43)%Z with 8796093022208%Z; lra).
  assert (MM : mag <= mag * mag) by (replace mag with (1 * mag) at 1 by ring; apply Rmult_le_compat_r; lra).
  assert (NN : nmax <= nmax * nmax) by (replace nmax with (1 * nmax) at 1 by ring; apply Rmult_le_compat_r; lra).
  assert (N1k : 1000 * nmax <= nmax * nmax) by (apply Rmult_le_compat_r; lra).
  set (B := bsum (n - 2) (fun j => Rabs (y_ (1 + j)%nat))).
  assert (B0 : 0 <= B) by (apply bsum_nonneg; intros; apply Rabs_pos).
  assert (BM : B <= INR (n - 2) * mag).
  { unfold B. rewrite <- bsum_const. apply bsum_le. intros. apply O. }
  assert (MB : forall c, 0 <= c <= nmax * nmax -> c * mag <= big).
  { intros c Hc. apply Rle_trans with (c * (mag * mag)); [apply Rmult_le_compat_l; lra|apply mag_big; lra]. }
  assert (Bn : B <= nmax * mag) by (apply Rle_trans with (1 := BM); apply Rmult_le_compat_r; lra).
  assert (Bb : B <= big) by (apply Rle_trans with (1 := Bn); apply MB; lra).
  destruct (fsum_err (f64_ofZ 0) (fun j => nth (1 + j) y f0) 0 0 0 (fun j => y_ (1 + j)%nat) (fun _ => 0) (fun j => Rabs (y_ (1 + j)%nat)) (n - 2)) as (Fs & Es).
  - reflexivity.
  - rewrite (proj2 (ofZ_ok 0 ltac:(lia))). rewrite Rminus_diag_eq, Rabs_R0 by reflexivity. lra.
  - rewrite Rabs_R0. lra.
  - intros i _. apply O.
  - intros i _. rewrite Rminus_diag_eq, Rabs_R0 by reflexivity. lra.
  - intros i _. lra.
  - lra.
  - rewrite bsum_plus, bsum_0. fold B. lra.
  - rewrite bsum_plus, bsum_0 in Es. fold B in Es. rewrite Rplus_0_l in Es. fold s in Fs, Es.
    set (S := bsum (n - 2) (fun j => y_ (1 + j)%nat)) in *.
    assert (Es' : Rabs (val s - S) <= 101 / 100 * INR (n - 2) * u53 * B) by lra. clear Es.
    assert (AS : Rabs S <= B) by (apply bsum_abs).
    set (p := nth 0 y f0 +! nth (n - 1) y f0) in *. set (P := y_ 0%nat + y_ (n - 1)%nat). set (Q := Rabs (y_ 0%nat) + Rabs (y_ (n - 1)%nat)).
    assert (AP : Rabs P <= Q) by apply Rabs_triang.
    destruct (O 0%nat) as (F0 & M0). destruct (O (n - 1)%nat) as (Fl & Ml).
    assert (QM : Q <= 2 * mag) by (unfold Q; lra).
    assert (B8 := MB 8 ltac:(lra)). assert (B6 := MB (8 * nmax) ltac:(lra)).
    destruct (plus_rel (nth 0 y f0) (nth (n - 1) y f0) F0 Fl) as (Fp & Ep).
    { fold (y_ 0%nat) (y_ (n - 1)%nat). fold P. lra. }
    fold p in Fp, Ep. fold (y_ 0%nat) (y_ (n - 1)%nat) in Ep. fold P in Ep.
    assert (Ap : Rabs (val p) <= 3 * mag).
    { replace (val p) with ((val p - P) + P) by ring. apply Rle_trans with (1 := Rabs_triang _ _).
      assert (u53 * Rabs P <= / 2 * (2 * mag)) by (apply Rmult_le_compat; try lra; apply Rabs_pos). lra. }
    assert (E1 : 0 < eta64 <= 1) by (assert (X := L_Arange64.eta_small); lra).
    assert (K1 := ku_small (INR (n - 2)) mN).
    assert (As : Rabs (val s) <= 2 * B).
    { replace (val s) with ((val s - S) + S) by ring. apply Rle_trans with (1 := Rabs_triang _ _).
      assert (101 / 100 * INR (n - 2) * u53 * B <= / 2 * B) by (apply Rmult_le_compat_r; lra). lra. }
    destruct (ofZ_ok 2 ltac:(lia)) as (F2 & V2).
    assert (A2 : Rabs (2 * val s) <= 4 * B) by (rewrite Rabs_mult, (Rabs_pos_eq 2) by lra; lra).
    destruct (mult_rel (f64_ofZ 2) s F2 Fs) as (Ft & Et); rewrite ?V2 in *; [lra|]. set (t := f64_ofZ 2 *! s) in *.
    assert (At : Rabs (val t) <= 5 * B + 1).
    { replace (val t) with ((val t - 2 * val s) + 2 * val s) by ring. apply Rle_trans with (1 := Rabs_triang _ _).
      assert (u53 * Rabs (2 * val s) <= / 8 * (4 * B)) by (apply Rmult_le_compat; try lra; apply Rabs_pos). lra. }
    assert (Apt : Rabs (val p + val t) <= 4 * mag + 5 * B) by (apply Rle_trans with (1 := Rabs_triang _ _); lra).
    destruct (plus_rel p t Fp Ft) as (Fg & Eg); [lra|].
    set (g := p +! t) in *.
    assert (NX : 1000 * mag <= nmax * mag) by (apply Rmult_le_compat_r; lra).
    assert (Ag : Rabs (val g) <= 6 * nmax * mag).
    { replace (val g) with ((val g - (val p + val t)) + (val p + val t)) by ring. apply Rle_trans with (1 := Rabs_triang _ _).
      assert (u53 * Rabs (val p + val t) <= / 100 * (4 * mag + 5 * B)) by (apply Rmult_le_compat; try lra; apply Rabs_pos). lra. }
    assert (Adx : Rabs (val dx) <= 4 * mag).
    { replace (val dx) with ((val dx - h) + h) by ring. apply Rle_trans with (1 := Rabs_triang _ _).
      assert (201 / 100 * u53 * Rabs h <= / 8 * (2 * mag)) by (apply Rmult_le_compat; try lra; apply Rabs_pos). lra. }
    destruct (half_mult dx Fd) as (Fc & Ec); [lra|]. set (c := nlit 1 2 *! dx) in *.
    assert (Ac : Rabs (val c) <= 4 * mag).
    { replace (val c) with ((val c - val dx / 2) + val dx / 2) by ring. apply Rle_trans with (1 := Rabs_triang _ _).
      unfold Rdiv at 2. rewrite Rabs_mult, (Rabs_pos_eq (/ 2)) by lra.
      assert (u53 * (Rabs (val dx) / 2) <= / 8 * (4 * mag / 2)) by (apply Rmult_le_compat; try lra; assert (X := Rabs_pos (val dx)); lra). lra. }
    destruct (mult_rel g c Fg Fc) as (Fv & Ev).
    { rewrite Rabs_mult. apply Rle_trans with (6 * nmax * mag * (4 * mag)).
      - apply Rmult_le_compat; auto; apply Rabs_pos.
      - replace (6 * nmax * mag * (4 * mag)) with ((24 * nmax) * (mag * mag)) by ring.
        assert (X := mag_big (24 * nmax) ltac:(lra)). assert (Y := big_pos). lra. }
    split; [exact Fv|].
    replace (grid a h n) with (grid a h (length (dvalues y))) by (rewrite dv_length; reflexivity). rewrite areas_grid, areas_abs_grid, dv_length. fold n.
    rewrite <- (trap_regroup n (fun i => nth i (dvalues y) 0)), <- (trap_regroup n (fun i => Rabs (nth i (dvalues y) 0))) by exact Hn.
    rewrite !nth_dv. rewrite (bsum_ext (n - 2) (fun j => nth (1 + j) (dvalues y) 0) (fun j => y_ (1 + j)%nat)) by (intros; apply nth_dv).
    rewrite (bsum_ext (n - 2) (fun j => Rabs (nth (1 + j) (dvalues y) 0)) (fun j => Rabs (y_ (1 + j)%nat))) by (intros; rewrite nth_dv; reflexivity).
    fold (y_ 0%nat) (y_ (n - 1)%nat). fold S B P Q.
    replace (INR n + 2) with (INR (n - 2) + 4) by (rewrite minus_INR by exact Hn; simpl (INR 2); ring).
    replace (/ 2 * P) with (P / 2) by field. replace (/ 2 * Q) with (Q / 2) by field.
    assert (X := full_err (INR (n - 2)) h (val dx) (val c) (val s) S B (val t) (val p) P Q (val g) (val v) mN Es' AS Et Ep AP Eg Hd Ec Ev).
    apply Rle_trans with (1 := X). apply Rplus_le_compat_l.
    assert (Y := bsum_ends n (fun i => Rabs (y_ i)) Hn ltac:(intros; apply Rabs_pos)). cbv beta in Y. fold B Q in Y.
    rewrite abs_sum_bsum. fold n y_. change (bsum n (fun i => Rabs (val (nth i y f0)))) with (bsum n (fun i => Rabs (y_ i))).
    assert (H0 := Rabs_pos h).
    replace (4 * eta64 * (Rabs h + bsum n (fun i => Rabs (y_ i)) + 1)) with (2 * eta64 * (2 * Rabs h + 2 * bsum n (fun i => Rabs (y_ i)) + 2)) by ring.
    apply Rmult_le_compat_l; lra.
Qed.
End Full.

Section Step.
Context (xmin xmax : f64) (nb : nat).
Hypothesis Fl : is_finite xmin = true.
Hypothesis Fh : is_finite xmax = true.
Hypothesis Bl : Rabs (val xmin) <= mag.
Hypothesis Bh : Rabs (val xmax) <= mag.
Hypothesis Hnb : (2 <= nb)%nat.
Hypothesis HNB : (Z.of_nat nb <= 2 ^ 32)%Z.
Let dx : f64 := (xmax -! xmin) /! f64_ofZ (nb_minus_1 nb).
Let h := (val xmax - val xmin) / INR (nb - 1).

Lemma nbm : nb_minus_1 nb = (Z.of_nat nb - 1)%Z.
Proof. unfold nb_minus_1. apply Z.mod_small. lia. Qed.
Lemma nbm_nat : Z.to_nat (nb_minus_1 nb) = (nb - 1)%nat.
Proof. rewrite nbm. lia. Qed.
Lemma nb_R : 1 <= INR (nb - 1) /\ INR nb <= nmax.
Proof.
  split; [change 1 with (INR 1); apply le_INR; lia|]. rewrite INR_IZR_INZ. change nmax with (IZR (2 ^ 43)). apply IZR_le. apply Z.le_trans with (1 := HNB). discriminate.
Qed.
Lemma h_span : Rabs h * INR (nb - 1) = Rabs (val xmax - val xmin).
Proof. destruct nb_R as (N & _). unfold h, Rdiv. rewrite Rabs_mult, Rabs_inv, (Rabs_pos_eq (INR (nb - 1))) by lra. field. lra. Qed.
Lemma span_le : Rabs (val xmax - val xmin) <= 2 * mag.
Proof. unfold Rminus. apply Rle_trans with (1 := Rabs_triang _ _). rewrite Rabs_Ropp. lra. Qed.
Lemma h_le : Rabs h <= 2 * mag.
Proof.
  destruct nb_R as (N & _). apply Rle_trans with (2 := span_le). rewrite <- h_span. rewrite <- (Rmult_1_r (Rabs h)) at 1.
  apply Rmult_le_compat_l; [apply Rabs_pos|exact N].
Qed.
Lemma dx_ok : is_finite dx = true /\ Rabs (val dx - h) <= 201 / 100 * u53 * Rabs h + eta64.
Proof.
  destruct nb_R as (N & _). assert (SL := span_le). assert (U := u_tiny). assert (M1 := mag_1).
  assert (M8 : 8 * mag <= big).
  { replace (8 * mag) with (bpow radix2 403) by (change 403%Z with (3 + 400)%Z; rewrite bpow_plus; reflexivity). apply bpow_le. discriminate. }
  destruct (minus_rel xmax xmin Fh Fl) as (Fm & Em); [lra|].
  assert (Z1 : (Z.abs (nb_minus_1 nb) < 2 ^ 53)%Z) by (rewrite nbm; lia).
  destruct (ofZ_ok _ Z1) as (Fz & Vz).
  assert (VN : IZR (nb_minus_1 nb) = INR (nb - 1)) by (rewrite INR_IZR_INZ; f_equal; rewrite nbm; lia). rewrite VN in Vz.
  set (D := val xmax - val xmin) in *. set (d := xmax -! xmin) in *. set (q := INR (nb - 1)) in *.
  assert (Iq : 0 < / q <= 1) by (split; [apply Rinv_0_lt_compat; lra|rewrite <- Rinv_1; apply Rinv_le_contravar; lra]).
  assert (AH : Rabs h = Rabs D * / q) by (unfold h, Rdiv; rewrite Rabs_mult, Rabs_inv, (Rabs_pos_eq q) by lra; reflexivity).
  assert (D0 := Rabs_pos D).
  assert (Ad : Rabs (val d) <= (1 + u53) * Rabs D).
  { replace (val d) with ((val d - D) + D) by ring. apply Rle_trans with (1 := Rabs_triang _ _). lra. }
  assert (Aq : Rabs (val d / q) <= (1 + u53) * Rabs h).
  { unfold Rdiv. rewrite Rabs_mult, (Rabs_pos_eq (/ q)) by lra. rewrite AH, <- Rmult_assoc. apply Rmult_le_compat_r; lra. }
  assert (HH := h_le). assert (H0 := Rabs_pos h).
  assert (UH : 0 <= u53 * Rabs h <= / 1000000 * Rabs h) by (split; [apply Rmult_le_pos; lra|apply Rmult_le_compat_r; lra]).
  destruct (div_rel d (f64_ofZ (nb_minus_1 nb)) Fm Fz) as (F & E); rewrite ?Vz in *; [lra|lra|].
  fold dx in F, E. split; [exact F|].
  replace (val dx - h) with ((val dx - val d / q) + (val d - D) * / q) by (unfold h; field; lra).
  apply Rle_trans with (1 := Rabs_triang _ _). rewrite (Rabs_mult _ (/ q)), (Rabs_pos_eq (/ q)) by lra.
  assert (X1 : Rabs (val d - D) * / q <= u53 * Rabs h).
  { rewrite AH, <- Rmult_assoc. apply Rmult_le_compat_r; lra. }
  assert (X2 : u53 * Rabs (val d / q) <= u53 * ((1 + u53) * Rabs h)) by (apply Rmult_le_compat_l; lra).
  assert (X3 : u53 * (u53 * Rabs h) <= / 1000000 * (u53 * Rabs h)) by (apply Rmult_le_compat_r; lra). lra.
Qed.

Lemma point_k k : (k < nb)%nat -> is_finite (fsum xmin (fun _ => dx) k) = true /\
  Rabs (val (fsum xmin (fun _ => dx) k) - (val xmin + INR k * h)) <=
    (2 * INR k + 3) * u53 * (Rabs (val xmin) + Rabs (val xmax - val xmin)) + 2 * INR k * eta64.
Proof.
  intros Hk. destruct dx_ok as (Fd & Ed). destruct nb_R as (N & NM). assert (SL := span_le). assert (U := u_tiny). assert (M1 := mag_1).
  assert (HS := h_span). set (D := Rabs (val xmax - val xmin)) in *. assert (HL := h_le). assert (H0 := Rabs_pos h). assert (A0 := Rabs_pos (val xmin)).
  assert (ES := L_Arange64.eta_small).
  assert (Ik : 0 <= INR k <= INR (nb - 1)) by (split; [apply pos_INR|apply le_INR; lia]).
  assert (Ik' : INR k <= nmax) by (apply Rle_trans with (2 := NM); apply le_INR; lia).
  assert (KU := ku_small (INR k) ltac:(lra)).
  assert (KH : 0 <= INR k * Rabs h <= D).
  { split; [apply Rmult_le_pos; lra|]. rewrite <- HS, Rmult_comm. apply Rmult_le_compat_l; lra. }
  assert (UKH : 0 <= u53 * (INR k * Rabs h) <= / 1000000 * D).
  { split; [apply Rmult_le_pos; lra|]. apply Rmult_le_compat; lra. }
  assert (KE : 0 <= INR k * eta64 <= / 1000 * (INR k * u53)).
  { split; [apply Rmult_le_pos; lra|]. replace (/ 1000 * (INR k * u53)) with (INR k * (/ 1000 * u53)) by ring. apply Rmult_le_compat_l; lra. }
  set (A := Rabs (val xmin)) in *.
  replace (201 / 100 * u53 * Rabs h + eta64) with (201 / 100 * (u53 * Rabs h) + eta64) in Ed by ring.
  assert (M8 : 8 * mag <= big).
  { replace (8 * mag) with (bpow radix2 403) by (change 403%Z with (3 + 400)%Z; rewrite bpow_plus; reflexivity). apply bpow_le. discriminate. }
  assert (WW : A + INR k * (Rabs h + (201 / 100 * (u53 * Rabs h) + eta64)) <= A + 101 / 100 * D + INR k * eta64).
  { replace (INR k * (Rabs h + (201 / 100 * (u53 * Rabs h) + eta64))) with (INR k * Rabs h + 201 / 100 * (u53 * (INR k * Rabs h)) + INR k * eta64) by ring. lra. }
  destruct (steps_err xmin dx h (201 / 100 * (u53 * Rabs h) + eta64) A Fl Fd Ed) with (k := k) as (X & Y).
  - unfold A. lra.
  - lra.
  - lra.
  - split; [exact X|]. apply Rle_trans with (1 := Y).
    replace (INR k * (201 / 100 * (u53 * Rabs h) + eta64)) with (201 / 100 * (u53 * (INR k * Rabs h)) + INR k * eta64) by ring.
    assert (P1 : u53 * (INR k * Rabs h) <= u53 * D) by (apply Rmult_le_compat_l; lra).
    assert (P2 : INR k * u53 * (A + INR k * (Rabs h + (201 / 100 * (u53 * Rabs h) + eta64))) <= INR k * u53 * (A + 101 / 100 * D + INR k * eta64)) by (apply Rmult_le_compat_l; lra).
    assert (P3 : INR k * u53 * (INR k * eta64) <= / 1000 * (INR k * eta64)) by (apply Rmult_le_compat_r; lra).
    assert (P4 : 0 <= INR k * u53 * A) by (apply Rmult_le_pos; lra). assert (P5 : 0 <= INR k * u53 * D) by (apply Rmult_le_pos; lra).
    assert (P6 : 0 <= u53 * A) by (apply Rmult_le_pos; lra). assert (P7 : 0 <= u53 * D) by (apply Rmult_le_pos; lra).
    replace ((2 * INR k + 3) * u53 * (A + D)) with (2 * (INR k * u53 * A) + 2 * (INR k * u53 * D) + 3 * (u53 * A) + 3 * (u53 * D)) by ring.
    replace (101 / 100 * INR k * u53 * (A + INR k * (Rabs h + (201 / 100 * (u53 * Rabs h) + eta64)))) with
      (101 / 100 * (INR k * u53 * (A + INR k * (Rabs h + (201 / 100 * (u53 * Rabs h) + eta64))))) by ring.
    replace (INR k * u53 * (A + 101 / 100 * D + INR k * eta64)) with (INR k * u53 * A + 101 / 100 * (INR k * u53 * D) + INR k * u53 * (INR k * eta64)) in P2 by ring.
    lra.
Qed.

Lemma compute_eq y src meth c0 r0 : length (match src with VECTOR => y | FUNCTION g => sample g xmin dx nb end) = nb ->
  let y' := match src with VECTOR => y | FUNCTION g => sample g xmin dx nb end in
  compute_trapz (mkI1 xmin xmax nb y src meth c0 r0) =
  (mkI1 xmin xmax nb y' src meth c0
    (((nth 0 y' f0 +! nth (nb - 1) y' f0) +! (f64_ofZ 2 *! fsum (f64_ofZ 0) (fun j => nth (1 + j) y' f0) (nb - 2))) *! (nlit 1 2 *! dx)), Ok tt).
Proof.
  intros L y'. unfold compute_trapz. cbn [i_xmin i_xmax i_nb i_src i_y i_method i_computed i_result].
  change (ndiv (xmax - xmin)%num (nofZ (nb_minus_1 nb))) with dx. fold y'. fold y' in L.
  rewrite nbm_nat. replace (nb - 1 - 1)%nat with (nb - 2)%nat by lia.
  rewrite foldM_fsum by lia. cbn [bind]. rewrite (vidx_lt y' 0 f0) by lia. cbn [bind].
  unfold vidx_sub. rewrite (proj2 (Nat.leb_le 1 (length y'))) by lia. rewrite (vidx_lt y' (length y' - 1) f0) by lia. cbn [bind]. rewrite L. reflexivity.
Qed.
End Step.

Lemma integ1_vector_double_lemma : forall (y : list f64) (xmin xmax : f64),
  (2 <= length y)%nat -> (Z.of_nat (length y) <= 2 ^ 32)%Z -> ordinary (2 ^ 400) (xmin :: xmax :: y) ->
  let n := length y in let h := (dvalue xmax - dvalue xmin) / INR (n - 1) in let g := grid (dvalue xmin) h n in
  exists s v, integ1_get (integ1_vector y xmin xmax n) = (s, Ok v) /\ is_finite v = true /\
    Rabs (dvalue v - areas g (dvalues y)) <= 2 * (INR n + 2) * uround * areas_abs g (dvalues y) + 4 * uflow * (Rabs h + abs_sum (dvalues y) + 1).
Proof.
  intros y xmin xmax Hn HN HO n h g. rewrite mag_pow in HO. inversion_clear HO as [|? ? (Fl & Bl) HO']. inversion_clear HO' as [|? ? (Fh & Bh) Hy].
  rewrite uround_u53, uflow_eta. destruct (dx_ok xmin xmax n Fl Fh Bl Bh Hn HN) as (Fd & Ed). assert (E0 := L_Arange64.eta_small).
  assert (Ed' : Rabs (val ((xmax -! xmin) /! f64_ofZ (nb_minus_1 n)) - (val xmax - val xmin) / INR (n - 1)) <= 201 / 100 * u53 * Rabs ((val xmax - val xmin) / INR (n - 1)) + 101 / 100 * eta64) by lra.
  destruct (full_f y _ h Hn (proj2 (nb_R n Hn HN)) Hy Fd (h_le xmin xmax n Bl Bh Hn HN) Ed' (val xmin)) as (Fv & Ev).
  eexists. eexists. split; [|split; [exact Fv|exact Ev]].
  unfold integ1_get, integ1_vector. cbn [i_computed i_method]. rewrite (compute_eq xmin xmax n Hn HN y VECTOR) by reflexivity. reflexivity.
Qed.

Lemma integ1_function_double_lemma : forall (f : f64 -> f64) (xmin xmax : f64) (nb : nat),
  (2 <= nb)%nat -> (Z.of_nat nb <= 2 ^ 32)%Z -> ordinary (2 ^ 400) [xmin; xmax] ->
  (forall x, is_finite x = true -> is_finite (f x) = true /\ Rabs (dvalue (f x)) <= 2 ^ 400) ->
  let h := (dvalue xmax - dvalue xmin) / INR (nb - 1) in let g := grid (dvalue xmin) h nb in
  exists xs s v, integ1_get (integ1_function f xmin xmax nb) = (s, Ok v) /\ i_y s = map f xs /\ length xs = nb /\ is_finite v = true /\
    (forall k, (k < nb)%nat -> is_finite (nth k xs xmax) = true /\
       Rabs (dvalue (nth k xs xmax) - (dvalue xmin + INR k * h)) <=
         (2 * INR k + 3) * uround * (Rabs (dvalue xmin) + Rabs (dvalue xmax - dvalue xmin)) + 2 * INR k * uflow) /\
    Rabs (dvalue v - areas g (dvalues (map f xs))) <=
      2 * (INR nb + 2) * uround * areas_abs g (dvalues (map f xs)) + 4 * uflow * (Rabs h + abs_sum (dvalues (map f xs)) + 1).
Proof.
  intros f xmin xmax nb Hn HN HO Hf h g. rewrite mag_pow in *. inversion_clear HO as [|? ? (Fl & Bl) HO']. inversion_clear HO' as [|? ? (Fh & Bh) _].
  rewrite uround_u53, uflow_eta. destruct (dx_ok xmin xmax nb Fl Fh Bl Bh Hn HN) as (Fd & Ed). assert (E0 := L_Arange64.eta_small).
  assert (PK := point_k xmin xmax nb Fl Fh Bl Bh Hn HN).
  set (dx := (xmax -! xmin) /! f64_ofZ (nb_minus_1 nb)) in *. fold (dvalue xmin) (dvalue xmax) in Ed. fold h in Ed. set (xs := map (fsum xmin (fun _ => dx)) (seq 0 nb)).
  assert (Ed' : Rabs (val dx - h) <= 201 / 100 * u53 * Rabs h + 101 / 100 * eta64) by lra.
  assert (LX : length xs = nb) by (unfold xs; rewrite map_length, seq_length; reflexivity).
  assert (LY : length (map f xs) = nb) by (rewrite map_length; exact LX).
  assert (Hy : ordinary mag (map f xs)).
  { apply Forall_forall. intros z Hz. apply in_map_iff in Hz. destruct Hz as (x1 & <- & Hx). apply in_map_iff in Hx. destruct Hx as (k & <- & Hk). apply in_seq in Hk.
    apply Hf. apply (PK k). lia. }
  destruct (full_f (map f xs) dx h) with (a := val xmin) as (Fv & Ev); rewrite ?LY in *; auto; [apply (nb_R nb Hn HN)|apply (h_le xmin xmax nb Bl Bh Hn HN)|].
  exists xs. eexists. eexists. split; [|split; [|split; [exact LX|split; [exact Fv|split; [|exact Ev]]]]].
  - unfold integ1_get, integ1_function. cbn [i_computed i_method].
    rewrite (compute_eq xmin xmax nb Hn HN [] (FUNCTION f)) by (rewrite sample_map; exact LY). fold dx. rewrite sample_map. fold xs. reflexivity.
  - reflexivity.
  - intros k Hk. unfold xs. rewrite nth_map_seq by exact Hk. exact (PK k Hk).
Qed.

Lemma frequency_vector_double_lemma : forall half nfft fs u, is_finite fs = true -> / 2 ^ 400 <= dvalue fs <= 2 ^ 400 ->
  (0 < nfft)%nat -> (Z.of_nat nfft <= 2 ^ 40)%Z ->
  let out := frequency_vector half nfft fs u in
  length out = (if half then nfft / 2 + 1 else nfft)%nat /\
  forall k y, (0 < k < length out)%nat -> denotes_hertz PI u y (INR k * dvalue fs / INR nfft) ->
    is_finite (nth k out fs) = true /\ Rabs (dvalue (nth k out fs) - y) <= (2 * INR k + 15) * uround * Rabs y.
Proof.
  intros half n fs u Ff Hf Hn HN out.
  assert (HF : bpow radix2 (-400) <= val fs <= bpow radix2 400).
  { replace (/ 2 ^ 400) with (bpow radix2 (-400)) in Hf by (change (-400)%Z with (- (400))%Z; rewrite bpow_opp, (bpow_powerRZ radix2 400); reflexivity).
    rewrite mag_pow in Hf. exact Hf. }
  assert (L : length out = (if half then n / 2 + 1 else n)%nat) by apply freq_loop_length.
  split; [exact L|]. intros k y Hk Hy. rewrite uround_u53.
  assert (KN : (k <= n)%nat).
  { rewrite L in Hk. destruct half; [|lia]. assert (n / 2 <= n)%nat by (apply Nat.div_le_upper_bound; lia). lia. }
  unfold out, frequency_vector. rewrite freq_loop_nth by (rewrite L in Hk; apply Hk).
  apply (freq_entry fs n Ff HF Hn HN k u y); [lia|]. replace (INR k * (val fs / INR n)) with (INR k * val fs / INR n) by (unfold Rdiv; ring). exact Hy.
Qed.

Lemma frequency_increasing_lemma : forall half nfft fs, is_finite fs = true -> / 2 ^ 400 <= dvalue fs <= 2 ^ 400 ->
  (0 < nfft)%nat -> (Z.of_nat nfft <= 2 ^ 40)%Z ->
  let out := frequency_vector half nfft fs HERTZ in dvalue (nth 0 out fs) = 0 /\
  forall k, (S k < length out)%nat -> dvalue (nth k out fs) < dvalue (nth (S k) out fs).
Proof.
  intros half n fs Ff Hf Hn HN out.
  assert (HF : bpow radix2 (-400) <= val fs <= bpow radix2 400).
  { replace (/ 2 ^ 400) with (bpow radix2 (-400)) in Hf by (change (-400)%Z with (- (400))%Z; rewrite bpow_opp, (bpow_powerRZ radix2 400); reflexivity).
    rewrite mag_pow in Hf. exact Hf. }
  assert (L : length out = (if half then n / 2 + 1 else n)%nat) by apply freq_loop_length.
  split.
  - unfold out, frequency_vector. rewrite freq_loop_nth by (destruct half; lia). apply (ofZ_ok 0). lia.
  - intros k Hk. assert (KN : (k < n)%nat).
    { rewrite L in Hk. destruct half; [|lia]. assert (n / 2 <= n)%nat by (apply Nat.div_le_upper_bound; lia). lia. }
    unfold out, frequency_vector. rewrite !freq_loop_nth by (rewrite L in Hk; lia). apply (freq_increasing fs n Ff HF Hn HN k KN).
Qed.

(** Nyquist bin of 12 points at 1 Hz. *)
Lemma bcompare_lt (x y : f64) : is_finite x = true -> is_finite y = true -> Bcompare x y = Some Lt -> val x < val y.
Proof. intros F G C. rewrite (Bcompare_correct 53 1024 x y F G) in C. injection C as C. apply Rcompare_Lt_inv. exact C. Qed.

Lemma nyquist_refuted_pf : exists (nfft : nat) (fs : f64), (Nat.even nfft = true) /\ dvalue fs = 1 /\
  dvalue (nth (nfft / 2) (frequency_vector true nfft fs HERTZ) fs) < dvalue fs / 2.
Proof.
  exists 12%nat, (f64_ofZ 1). split; [reflexivity|]. destruct (ofZ_ok 1 ltac:(lia)) as (F1 & V1). split; [exact V1|].
  unfold dvalue at 2. rewrite V1. destruct half64 as (Fh & Vh). replace (1 / 2) with (val (nlit 1 2 : f64)) by (rewrite Vh; lra).
  apply bcompare_lt; vm_compute; reflexivity.
Qed.

Definition gety (r : integ1 f64 * outcome f64) : list f64 := i_y (fst r).
Lemma overshoot_refuted_pf : exists (xmin xmax : f64) nb s v, dvalue xmin = 0 /\ dvalue xmax = 1 /\
  integ1_get (integ1_function (fun x => x) xmin xmax nb) = (s, Ok v) /\ dvalue xmax < dvalue (last (i_y s) xmin).
Proof.
  destruct (ofZ_ok 0 ltac:(lia)) as (F0 & V0). destruct (ofZ_ok 1 ltac:(lia)) as (F1 & V1).
  exists (f64_ofZ 0), (f64_ofZ 1), 10%nat.
  set (r := integ1_get (integ1_function (fun x => x) (f64_ofZ 0) (f64_ofZ 1) 10)).
  exists (fst r), (fof (snd r)). split; [exact V0|]. split; [exact V1|]. split.
  - rewrite <- (fof_ok (snd r)) by (vm_compute; reflexivity). destruct r; reflexivity.
  - apply bcompare_lt; vm_compute; reflexivity.
Qed.
