(** Power and Chebyshev series in binary64. *)
From Coq Require Import List Arith ZArith Reals Bool Lia Lra Psatz.
From Flocq Require Import Core.Core IEEE754.BinarySingleNaN.
From Flocq Require Import Mult_error.
From Verif Require Import Outcome Num NumFun F64 L_F64 L_Linspace64 L_F64Err M_Series S_Series L_Series S_Angles S_Double L_Series64
  L_Interp64 L_Special64 L_Apx M_Cheb S_Cheb L_Cheb L_GridNearest S_Near64 L_Near64 S_Ser64.
Import ListNotations.
Local Open Scope R_scope.

Lemma eta_900 : eta64 <= / 1000 * u53 * bpow radix2 (-900).
Proof.
  apply Rle_trans with (1 := eta_tau). assert (U := u_tiny). apply Rmult_le_compat_l; [lra|]. unfold tau. apply bpow_le. discriminate.
Qed.
Lemma two_ok : is_finite (nofZ 2 : f64) = true /\ val (nofZ 2 : f64) = 2.
Proof. exact (ofZ_ok 2 ltac:(reflexivity)). Qed.
Lemma one_ok : is_finite (nofZ 1 : f64) = true /\ val (nofZ 1 : f64) = 1.
Proof. exact (ofZ_ok 1 ltac:(reflexivity)). Qed.

(** ** The unit coordinate *)
Lemma unit_closed_f (lo hi x : f64) : is_finite lo = true -> is_finite hi = true -> is_finite x = true ->
  val lo < val hi -> val lo <= val x <= val hi -> Rmax (Rabs (val lo)) (Rabs (val hi)) <= bpow radix2 900 -> bpow radix2 (-900) <= val hi - val lo ->
  (5 * (Rmax (Rabs (val lo)) (Rabs (val hi)) / (val hi - val lo)) + 4) * u53 <= 1 ->
  is_finite (to_unit (Closed lo hi) x) = true /\
  Rabs (val (to_unit (Closed lo hi) x) - segment_unit (val lo) (val hi) (val x)) <= (5 * (Rmax (Rabs (val lo)) (Rabs (val hi)) / (val hi - val lo)) + 4) * u53.
Proof.
  intros Fl Fh Fx Hlt Hx HM HD HK. set (M := Rmax (Rabs (val lo)) (Rabs (val hi))) in *. set (D := val hi - val lo)  in *. fold D M in HK.
  assert (U := u_tiny). assert (PE := eta64_pos). assert (E9 := eta_900). assert (P9 := bpow_gt_0 radix2 (-900)). assert (D0 : 0 < D) by lra.
  assert (Ml : Rabs (val lo) <= M) by apply Rmax_l. assert (Mh : Rabs (val hi) <= M) by apply Rmax_r.
  assert (DM : D <= 2 * M) by (revert Ml Mh; unfold D; rabs; lra).
  assert (ED : eta64 <= / 1000 * u53 * D) by (apply Rle_trans with (1 := E9); apply Rmult_le_compat_l; lra).
  assert (B9 : 16 * bpow radix2 900 <= big).
  { unfold big. change 1000%Z with (100 + 900)%Z. rewrite bpow_plus. apply Rmult_le_compat_r; [apply bpow_ge_0|]. change 16 with (bpow radix2 4). apply bpow_le. discriminate. }
  assert (B8 := big64). fold big in B8. assert (BP := big_pos).
  unfold to_unit.
  (* the length *)
  destruct (minus_ok hi lo Fh Fl) as (Fd & _); [apply big_over; fold D; rewrite Rabs_pos_eq; lra|].
  assert (Ed := minus_err hi lo Fd). fold D in Ed. rewrite (Rabs_pos_eq D) in Ed by lra. set (d := hi -! lo) in *.
  assert (dlo : (1 - u53) * D <= val d <= (1 + u53) * D) by (revert Ed; rabs; lra).
  assert (dp : 0 < val d) by (assert (/ 2 * D <= (1 - u53) * D) by (apply Rmult_le_compat_r; lra); lra).
  (* twice its inverse *)
  destruct two_ok as (F2 & V2).
  assert (QD : 0 < 2 / D) by (apply Rdiv_lt_0_compat; lra).
  assert (QE : Rabs (2 / val d - 2 / D) <= 101 / 100 * u53 * (2 / D)).
  { replace (2 / val d - 2 / D) with ((D - val d) * ((2 / D) / val d)) by (field; lra). rewrite Rabs_mult, (Rabs_pos_eq ((2 / D) / val d)) by (apply Rlt_le, Rdiv_lt_0_compat; lra).
    rewrite Rabs_minus_sym. apply Rle_trans with (u53 * D * ((2 / D) / val d)); [apply Rmult_le_compat_r; [apply Rlt_le, Rdiv_lt_0_compat; lra|exact Ed]|].
    replace (u53 * D * (2 / D / val d)) with ((D / val d) * (u53 * (2 / D))) by (field; lra).
    rewrite (Rmult_assoc (101 / 100)). apply Rmult_le_compat_r; [apply Rmult_le_pos; lra|].
    apply Rmult_le_reg_r with (val d); [exact dp|]. replace (D / val d * val d) with D by (field; lra).
    assert (/ 1000 * D <= D) by lra. assert (u53 * D <= / 1000 * D) by (apply Rmult_le_compat_r; lra). lra. }
  assert (IB : 2 / D <= 2 * bpow radix2 900).
  { unfold Rdiv. apply Rmult_le_compat_l; [lra|]. change 900%Z with (- (-900))%Z at 1. rewrite bpow_opp. apply Rinv_le_contravar; lra. }
  assert (UQ : 0 <= u53 * (2 / D)) by (apply Rmult_le_pos; lra).
  assert (UQ' : u53 * (2 / D) <= / 1000 * (2 / D)) by (apply Rmult_le_compat_r; lra).
  assert (AQ : Rabs (2 / val d) <= 2 * (2 / D)).
  { replace (2 / val d) with ((2 / val d - 2 / D) + 2 / D) by ring. apply Rle_trans with (1 := Rabs_triang _ _). rewrite (Rabs_pos_eq (2 / D)) by lra. lra. }
  destruct (div_ok (nofZ 2) d F2 Fd) as (Fq & _); [lra|rewrite V2; apply big_over; lra|].
  assert (Eq := div_err (nofZ 2) d Fd Fq). rewrite V2 in Eq. set (q := (nofZ 2 : f64) /! d) in *.
  assert (TQ : eta64 <= / 100 * u53 * (2 / D)).
  { apply Rle_trans with (1 := E9). rewrite !(Rmult_assoc _ u53). apply Rmult_le_compat; [lra|apply Rmult_le_pos; lra|lra|]. apply Rmult_le_compat_l; [lra|].
    apply Rmult_le_reg_r with D; [lra|]. replace (2 / D * D) with 2 by (field; lra).
    assert (D <= 2 * bpow radix2 900) by lra.
    apply Rle_trans with (bpow radix2 (-900) * (2 * bpow radix2 900)); [apply Rmult_le_compat_l; lra|].
    replace (bpow radix2 (-900) * (2 * bpow radix2 900)) with (2 * (bpow radix2 (-900) * bpow radix2 900)) by ring. rewrite <- bpow_plus. simpl. lra. }
  assert (Q : Rabs (val q - 2 / D) <= 205 / 100 * u53 * (2 / D)).
  { assert (AQ2 : Rabs (2 / val d) <= 2 / D + 101 / 100 * u53 * (2 / D)).
    { replace (2 / val d) with ((2 / val d - 2 / D) + 2 / D) by ring. apply Rle_trans with (1 := Rabs_triang _ _). rewrite (Rabs_pos_eq (2 / D)) by lra. lra. }
    assert (u53 * Rabs (2 / val d) <= u53 * (2 / D + 101 / 100 * u53 * (2 / D))) by (apply Rmult_le_compat_l; lra).
    assert (u53 * (101 / 100 * u53 * (2 / D)) <= / 1000 * u53 * (2 / D)).
    { replace (u53 * (101 / 100 * u53 * (2 / D))) with (101 / 100 * u53 * (u53 * (2 / D))) by ring. rewrite (Rmult_assoc (/ 1000)). apply Rmult_le_compat_r; lra. }
    replace (val q - 2 / D) with ((val q - 2 / val d) + (2 / val d - 2 / D)) by ring. apply Rle_trans with (1 := Rabs_triang _ _). lra. }
  (* the distance to the middle *)
  assert (B82 : 2 * M <= fmax64) by lra.
  destruct (middle_ok lo hi Fl Fh ltac:(lra) ltac:(lra)) as (Fm & Vm). set (m := (nlit 1 2 : f64) *! (hi +! lo)) in *.
  assert (Em := L_F64Err.rnd_err ((val lo + val hi) / 2)). rewrite <- Vm in Em. set (mid := (val lo + val hi) / 2) in *.
  assert (Mm : Rabs mid <= M) by (unfold mid; revert Ml Mh; rabs; lra).
  assert (UM : u53 * Rabs mid <= u53 * M) by (apply Rmult_le_compat_l; lra).
  assert (W : Rabs (val x - mid) <= D / 2) by (unfold mid, D; rabs; lra).
  assert (UD : 0 <= u53 * D) by (apply Rmult_le_pos; lra). assert (UDM : u53 * D <= u53 * (2 * M)) by (apply Rmult_le_compat_l; lra).
  assert (UM1 : u53 * M <= / 1000 * M) by (apply Rmult_le_compat_r; lra).
  assert (XM : Rabs (val x - val m) <= D / 2 + u53 * M + eta64).
  { replace (val x - val m) with ((val x - mid) - (val m - mid)) by ring. apply Rle_trans with (1 := Rabs_triang _ _). rewrite Rabs_Ropp. lra. }
  destruct (minus_ok x m Fx Fm) as (Fw & _); [apply big_over; lra|].
  assert (Ew := minus_err x m Fw). set (w := x -! m) in *.
  assert (WE : Rabs (val w - (val x - mid)) <= 203 / 100 * u53 * M).
  { replace (val w - (val x - mid)) with ((val w - (val x - val m)) - (val m - mid)) by ring. apply Rle_trans with (1 := Rabs_triang _ _). rewrite Rabs_Ropp.
    assert (u53 * Rabs (val x - val m) <= u53 * (D / 2 + u53 * M + eta64)) by (apply Rmult_le_compat_l; lra).
    assert (u53 * (u53 * M) <= / 1000 * (u53 * M)) by (apply Rmult_le_compat_r; lra).
    assert (u53 * eta64 <= / 1000 * eta64) by (apply Rmult_le_compat_r; lra). lra. }
  (* the product *)
  set (K := M / D). assert (MK : M = K * D) by (unfold K; field; lra).
  assert (K0 : / 2 <= K) by (apply Rmult_le_reg_r with D; [lra|]; lra).
  assert (SU : segment_unit (val lo) (val hi) (val x) = 2 / D * (val x - mid)) by (unfold segment_unit, D, mid; field; unfold D in D0; lra).
  assert (SU1 : Rabs (2 / D * (val x - mid)) <= 1).
  { rewrite Rabs_mult, (Rabs_pos_eq (2 / D)) by lra. replace 1 with (2 / D * (D / 2)) by (field; lra). apply Rmult_le_compat_l; lra. }
  assert (UK : 0 <= u53 * K) by (apply Rmult_le_pos; lra).
  assert (QV : Rabs (val q) <= 101 / 100 * (2 / D)).
  { replace (val q) with ((val q - 2 / D) + 2 / D) by ring. apply Rle_trans with (1 := Rabs_triang _ _). rewrite (Rabs_pos_eq (2 / D)) by lra.
    lra. }
  assert (PR : Rabs (val q * val w - 2 / D * (val x - mid)) <= 411 / 100 * (u53 * K) + 206 / 100 * u53).
  { replace (val q * val w - 2 / D * (val x - mid)) with (val q * (val w - (val x - mid)) + (val q - 2 / D) * (val x - mid)) by ring.
    apply Rle_trans with (1 := Rabs_triang _ _). rewrite !Rabs_mult.
    assert (T1 : Rabs (val q) * Rabs (val w - (val x - mid)) <= 101 / 100 * (2 / D) * (203 / 100 * u53 * M)) by (apply Rmult_le_compat; try apply Rabs_pos; lra).
    assert (T2 : Rabs (val q - 2 / D) * Rabs (val x - mid) <= 205 / 100 * u53 * (2 / D) * (D / 2)) by (apply Rmult_le_compat; try apply Rabs_pos; lra).
    replace (101 / 100 * (2 / D) * (203 / 100 * u53 * M)) with (2 * (101 / 100) * (203 / 100) * (u53 * K)) in T1 by (unfold K; field; lra).
    replace (205 / 100 * u53 * (2 / D) * (D / 2)) with (205 / 100 * u53) in T2 by (field; lra). lra. }
  assert (PB : Rabs (val q * val w) <= 1 + (411 / 100 * (u53 * K) + 206 / 100 * u53)).
  { replace (val q * val w) with ((val q * val w - 2 / D * (val x - mid)) + 2 / D * (val x - mid)) by ring. apply Rle_trans with (1 := Rabs_triang _ _). lra. }
  fold K in HK. assert (NO : Rabs (val q * val w) <= 8 * big) by (assert (1 <= big) by (change 1 with (bpow radix2 0); unfold big; apply bpow_le; discriminate); lra).
  destruct (mult_ok q w Fq Fw) as (Ft & _); [apply big_over; exact NO|].
  assert (Et := mult_err q w Ft). split; [exact Ft|]. rewrite SU.
  assert (TR : Rabs (val (q *! w) - 2 / D * (val x - mid)) <= Rabs (val (q *! w) - val q * val w) + Rabs (val q * val w - 2 / D * (val x - mid))).
  { replace (val (q *! w) - 2 / D * (val x - mid)) with ((val (q *! w) - val q * val w) + (val q * val w - 2 / D * (val x - mid))) by ring. apply Rabs_triang. }
  apply Rle_trans with (1 := TR). clear TR.
  assert (u53 * Rabs (val q * val w) <= u53 * (1 + (411 / 100 * (u53 * K) + 206 / 100 * u53))) by (apply Rmult_le_compat_l; lra).
  assert (u53 * (u53 * K) <= / 1000 * (u53 * K)) by (apply Rmult_le_compat_r; lra).
  assert (u53 * u53 <= / 1000 * u53) by (apply Rmult_le_compat_r; lra).
  assert (eta64 <= / 1000 * u53).
  { apply Rle_trans with (1 := E9). rewrite <- (Rmult_1_r (/ 1000 * u53)) at 2. apply Rmult_le_compat_l; [lra|]. change 1 with (bpow radix2 0). apply bpow_le. discriminate. }
  fold K. lra.
Qed.

Lemma double_exact (q : f64) : is_finite q = true -> Rabs (val q) <= 2 * big ->
  (is_finite ((nofZ 2 : f64) *! q) = true /\ val ((nofZ 2 : f64) *! q) = 2 * val q) /\
  (is_finite (q *! (nofZ 2 : f64)) = true /\ val (q *! (nofZ 2 : f64)) = 2 * val q).
Proof.
  intros Fq Hq. destruct two_ok as (F2 & V2).
  assert (R : rnd64 (2 * val q) = 2 * val q).
  { apply rnd64_id. change 2 with (bpow radix2 1). rewrite Rmult_comm. apply mult_bpow_pos_exact_FLT; [apply fmt64_val|lia]. }
  assert (A : Rabs (2 * val q) <= 8 * big) by (rewrite Rabs_mult, (Rabs_pos_eq 2) by lra; assert (BP := big_pos); lra).
  destruct (mult_ok (nofZ 2) q F2 Fq) as (F & V); [rewrite V2; apply big_over, A|].
  destruct (mult_ok q (nofZ 2) Fq F2) as (F' & V'); [rewrite V2, Rmult_comm; apply big_over, A|].
  rewrite V2 in V, V'. rewrite (Rmult_comm (val q)) in V'. rewrite R in V, V'. auto.
Qed.

Lemma unit_opened_f (lo x : f64) : is_finite lo = true -> is_finite x = true -> 0 < val lo <= val x ->
  is_finite (to_unit (Opened lo) x) = true /\ Rabs (val (to_unit (Opened lo) x) - halfline_unit (val lo) (val x)) <= 4 * u53.
Proof.
  intros Fl Fx Hx. assert (U := u_tiny). assert (PE := eta64_pos).
  assert (E1 : eta64 <= / 1000 * u53).
  { apply Rle_trans with (1 := eta_900). rewrite <- (Rmult_1_r (/ 1000 * u53)) at 2. apply Rmult_le_compat_l; [lra|]. change 1 with (bpow radix2 0). apply bpow_le. discriminate. }
  assert (BG : 8 <= big) by (change 8 with (bpow radix2 3); unfold big; apply bpow_le; discriminate).
  destruct one_ok as (F1 & V1). destruct two_ok as (F2 & V2). unfold to_unit.
  assert (Q0 : 0 < val lo / val x <= 1).
  { split; [apply Rdiv_lt_0_compat; lra|]. apply Rmult_le_reg_r with (val x); [lra|]. replace (val lo / val x * val x) with (val lo) by (field; lra). lra. }
  destruct (div_ok lo x Fl Fx) as (Fq & _); [lra|apply big_over; rewrite Rabs_pos_eq; lra|].
  assert (Eq := div_err lo x Fx Fq). set (q := lo /! x) in *. rewrite (Rabs_pos_eq (val lo / val x)) in Eq by lra.
  assert (Uq : u53 * (val lo / val x) <= u53 * 1) by (apply Rmult_le_compat_l; lra).
  assert (qb : Rabs (val q) <= 2) by (revert Eq; rabs; lra).
  destruct (double_exact q Fq) as ((Fp & Vp) & _); [lra|]. set (p := (nofZ 2 : f64) *! q) in *.
  assert (VP2 : val p = 2 * val q \/ Rabs (val p - 2 * val q) <= eta64) by (left; exact Vp).
  assert (pb : Rabs (val p) <= 4) by (rewrite Vp, Rabs_mult, (Rabs_pos_eq 2) by lra; lra).
  destruct (minus_ok (nofZ 1) p F1 Fp) as (Ft & _); [rewrite V1; apply big_over; revert pb; rabs; lra|].
  assert (Et := minus_err (nofZ 1) p Ft). rewrite V1 in Et. split; [exact Ft|].
  assert (PB : Rabs (val p - 2 * (val lo / val x)) <= 2 * (u53 + eta64) + eta64).
  { replace (val p - 2 * (val lo / val x)) with ((val p - 2 * val q) + 2 * (val q - val lo / val x)) by ring. apply Rle_trans with (1 := Rabs_triang _ _).
    rewrite (Rabs_mult 2), (Rabs_pos_eq 2) by lra. destruct VP2 as [->|V]; [rewrite Rminus_diag_eq, Rabs_R0 by reflexivity; lra|lra]. }
  assert (ONE : Rabs (1 - val p) <= 1 + (2 * (u53 + eta64) + eta64)).
  { replace (1 - val p) with ((1 - 2 * (val lo / val x)) - (val p - 2 * (val lo / val x))) by ring. apply Rle_trans with (1 := Rabs_triang _ _). rewrite Rabs_Ropp.
    apply Rplus_le_compat; [|exact PB]. rabs; lra. }
  assert (u53 * Rabs (1 - val p) <= u53 * (1 + (2 * (u53 + eta64) + eta64))) by (apply Rmult_le_compat_l; lra).
  assert (u53 * (2 * (u53 + eta64) + eta64) <= / 1000 * u53) by (rewrite (Rmult_comm (/ 1000)); apply Rmult_le_compat_l; lra).
  unfold halfline_unit. assert (TR : Rabs (val ((nofZ 1 : f64) -! p) - (1 - 2 * val lo / val x)) <= Rabs (val ((nofZ 1 : f64) -! p) - (1 - val p)) + Rabs (val p - 2 * (val lo / val x))).
  { replace (val ((nofZ 1 : f64) -! p) - (1 - 2 * val lo / val x)) with ((val ((nofZ 1 : f64) -! p) - (1 - val p)) - (val p - 2 * (val lo / val x))) by (unfold Rdiv; ring).
    apply Rle_trans with (1 := Rabs_triang _ _). rewrite Rabs_Ropp. apply Rle_refl. }
  apply Rle_trans with (1 := TR). lra.
Qed.

Lemma unit_f (a : axis f64) (x : f64) : usable a x -> axis_cond (axis_values a) * u53 <= 1 ->
  is_finite (to_unit a x) = true /\ Rabs (val (to_unit a x) - unit_of (axis_values a) (val x)) <= axis_cond (axis_values a) * u53 /\
  Rabs (unit_of (axis_values a) (val x)) <= 1 /\ 0 <= axis_cond (axis_values a).
Proof.
  intros (Fa & Fx & Hx & HM) HK. destruct a as [lo hi|lo]; cbn [axis_values axis_finite on_axis axis_moderate axis_cond unit_of] in *; unfold dvalue in *.
  - destruct Fa as (Fl & Fh). destruct Hx as (Hlt & Hx). destruct HM as (HM & HD).
    destruct (unit_closed_f lo hi x Fl Fh Fx Hlt Hx HM HD HK) as (F & E). split; [exact F|]. split; [exact E|]. split.
    + destruct (unit_closed_lemma (val lo) (val hi) Hlt) as (_ & _ & H). apply H in Hx. apply Rabs_le. lra.
    + assert (0 <= Rmax (Rabs (val lo)) (Rabs (val hi)) / (val hi - val lo)); [|lra].
      apply Rmult_le_pos; [apply Rle_trans with (1 := Rabs_pos (val lo)); apply Rmax_l|apply Rlt_le, Rinv_0_lt_compat; lra].
  - destruct (unit_opened_f lo x Fa Fx Hx) as (F & E). split; [exact F|]. split; [exact E|]. split; [|lra].
    destruct (unit_opened_lemma (val lo) ltac:(lra)) as (_ & _ & H). specialize (H (val x) ltac:(lra)). apply Rabs_le. lra.
Qed.

(** ** Horner's scheme at an approximate point with approximate coefficients *)
Definition mod9 (S : R) : Prop := bpow radix2 (-900) <= S <= bpow radix2 900.
Lemma moderate_eta S : mod9 S -> eta64 <= / 1000 * u53 * S.
Proof. intros (H & _). assert (U := u_tiny). apply Rle_trans with (1 := eta_900). apply Rmult_le_compat_l; lra. Qed.
Lemma moderate_big S : mod9 S -> 0 < S /\ 1000 * S <= big.
Proof.
  intros (H & H'). assert (P := bpow_gt_0 radix2 (-900)). split; [lra|]. apply Rle_trans with (1000 * bpow radix2 900); [lra|].
  unfold big. change 1000%Z with (100 + 900)%Z. rewrite bpow_plus. apply Rmult_le_compat_r; [apply bpow_ge_0|]. apply Rle_trans with (bpow radix2 10); [simpl; lra|apply bpow_le; discriminate].
Qed.

Lemma hloop_near d x t c e kap S : is_finite x = true -> Rabs t <= 1 -> Rabs (val x - t) <= kap * u53 -> 0 <= kap -> mod9 S ->
  forall k r rho eps, (forall i, (i < k)%nat -> is_finite (d i) = true /\ Rabs (val (d i) - c i) <= e i) ->
  is_finite r = true -> Rabs (val r - rho) <= eps -> Rabs rho + bsum k (fun i => Rabs (c i)) <= S ->
  eps + INR k * ((2 * kap + 9) * u53 * S) + bsum k e <= S ->
  is_finite (hloop d x k r) = true /\
  Rabs (val (hloop d x k r) - (rho * t ^ k + bsum k (fun i => c i * t ^ i))) <= eps + INR k * ((2 * kap + 9) * u53 * S) + bsum k e.
Proof.
  intros Fx Ht Hx Hk HS. assert (U := u_tiny). destruct (moderate_big S HS) as (S0 & SB). assert (ES := moderate_eta S HS). assert (PE := eta64_pos).
  assert (US : 0 <= u53 * S) by (apply Rmult_le_pos; lra). assert (US' : u53 * S <= / 1000 * S) by (apply Rmult_le_compat_r; lra).
  set (del := (2 * kap + 9) * u53 * S).
  assert (D0 : 0 <= del) by (unfold del; apply Rmult_le_pos; [apply Rmult_le_pos; lra|lra]).
  induction k as [|k IH]; intros r rho eps HC Fr Er HA HE.
  - cbn [hloop bsum pow INR]. split; [exact Fr|]. replace (val r - (rho * 1 + 0)) with (val r - rho) by ring. simpl INR. lra.
  - cbn [hloop bsum] in *. rewrite S_INR in HE |- *.
    destruct (HC k ltac:(lia)) as (Fd & Ed).
    assert (BC : 0 <= bsum k (fun i => Rabs (c i))) by (apply bsum_nonneg; intros; apply Rabs_pos).
    assert (BE : 0 <= bsum k e).
    { apply bsum_nonneg. intros i Hi. apply Rle_trans with (1 := Rabs_pos (val (d i) - c i)). apply HC. lia. }
    assert (E0 : 0 <= eps) by (apply Rle_trans with (1 := Rabs_pos _) (2 := Er)).
    assert (Ek : 0 <= e k) by (apply Rle_trans with (1 := Rabs_pos _) (2 := Ed)).
    assert (KD : 0 <= INR k * del) by (apply Rmult_le_pos; [apply pos_INR|exact D0]).
    assert (C0 := Rabs_pos (c k)). assert (R0 := Rabs_pos rho).
    assert (KU : kap * u53 <= / 2).
    { assert (X : del <= S) by lra. unfold del in X. apply Rmult_le_reg_r with S; [exact S0|].
      assert (0 <= 9 * u53 * S) by (rewrite Rmult_assoc; lra). lra. }
    assert (XB : Rabs (val x) <= 3 / 2) by (replace (val x) with ((val x - t) + t) by ring; apply Rle_trans with (1 := Rabs_triang _ _); lra).
    assert (RB : Rabs (val r) <= 2 * S) by (replace (val r) with ((val r - rho) + rho) by ring; apply Rle_trans with (1 := Rabs_triang _ _); lra).
    assert (DB : Rabs (val (d k)) <= 2 * S) by (replace (val (d k)) with ((val (d k) - c k) + c k) by ring; apply Rle_trans with (1 := Rabs_triang _ _); lra).
    assert (PB : Rabs (val r * val x) <= 3 * S) by (rewrite Rabs_mult; replace (3 * S) with (2 * S * (3 / 2)) by field; apply Rmult_le_compat; try apply Rabs_pos; lra).
    destruct (mult_ok r x Fr Fx) as (Fp & _); [apply big_over; lra|]. assert (Ep := mult_err r x Fp). set (p := r *! x) in *.
    assert (UP : u53 * Rabs (val r * val x) <= u53 * (3 * S)) by (apply Rmult_le_compat_l; lra).
    assert (PV : Rabs (val p) <= 301 / 100 * S) by (replace (val p) with ((val p - val r * val x) + val r * val x) by ring; apply Rle_trans with (1 := Rabs_triang _ _); lra).
    assert (SV : Rabs (val p + val (d k)) <= 501 / 100 * S) by (apply Rle_trans with (1 := Rabs_triang _ _); lra).
    destruct (plus_ok p (d k) Fp Fd) as (Fs & _); [apply big_over; lra|]. assert (Es := plus_err p (d k) Fs). set (r' := p +! d k) in *.
    assert (UV : u53 * Rabs (val p + val (d k)) <= u53 * (501 / 100 * S)) by (apply Rmult_le_compat_l; lra).
    assert (ER : Rabs (val r' - (rho * t + c k)) <= eps + del + e k).
    { replace (val r' - (rho * t + c k)) with ((val r' - (val p + val (d k))) + ((val p - val r * val x) + (val r * (val x - t) + ((val r - rho) * t + (val (d k) - c k))))) by ring.
      apply Rle_trans with (1 := Rabs_triang _ _).
      assert (T1 := Rabs_triang (val p - val r * val x) (val r * (val x - t) + ((val r - rho) * t + (val (d k) - c k)))).
      assert (T2 := Rabs_triang (val r * (val x - t)) ((val r - rho) * t + (val (d k) - c k))).
      assert (T3 := Rabs_triang ((val r - rho) * t) (val (d k) - c k)).
      assert (T4 : Rabs (val r * (val x - t)) <= 2 * S * (kap * u53)) by (rewrite Rabs_mult; apply Rmult_le_compat; try apply Rabs_pos; lra).
      assert (T5 : Rabs ((val r - rho) * t) <= eps * 1) by (rewrite Rabs_mult; apply Rmult_le_compat; try apply Rabs_pos; lra).
      unfold del. lra. }
    destruct (IH r' (rho * t + c k) (eps + del + e k)) as (F & E); [intros i Hi; apply HC; lia|exact Fs|exact ER| |fold del in HE |- *; lra|].
    { apply Rle_trans with (2 := HA). assert (T := Rabs_triang (rho * t) (c k)). rewrite Rabs_mult in T. assert (Rabs rho * Rabs t <= Rabs rho * 1) by (apply Rmult_le_compat_l; lra). lra. }
    split; [exact F|]. replace (rho * t ^ Datatypes.S k + (bsum k (fun i => c i * t ^ i) + c k * t ^ k)) with ((rho * t + c k) * t ^ k + bsum k (fun i => c i * t ^ i)) by (cbn [pow]; ring).
    apply Rle_trans with (1 := E). fold del. lra.
Qed.

(** The whole polynomial. *)
Lemma horner_near (c : list f64) (x : f64) (t : R) (cr : nat -> R) (e : nat -> R) kap S : c <> [] -> is_finite x = true -> Rabs t <= 1 ->
  Rabs (val x - t) <= kap * u53 -> 0 <= kap -> mod9 S ->
  (forall i, (i < length c)%nat -> is_finite (nth i c (f64_ofZ 0)) = true /\ Rabs (val (nth i c (f64_ofZ 0)) - cr i) <= e i) ->
  bsum (length c) (fun i => Rabs (cr i)) <= S ->
  INR (length c - 1) * ((2 * kap + 9) * u53 * S) + bsum (length c) e <= S ->
  exists v, horner c x = Ok v /\ is_finite v = true /\
    Rabs (val v - bsum (length c) (fun i => cr i * t ^ i)) <= INR (length c - 1) * ((2 * kap + 9) * u53 * S) + bsum (length c) e.
Proof.
  intros Hc Fx Ht Hx Hk HS HC HA HE. destruct (length c) as [|n] eqn:EL; [destruct c; [congruence|discriminate]|].
  replace (Datatypes.S n - 1)%nat with n in * by lia. unfold horner. rewrite EL. replace (Datatypes.S n - 1)%nat with n by lia.
  rewrite (vat_lt _ _ (f64_ofZ 0)) by lia. cbn [bind]. rewrite horner_loop_h by lia. eexists. split; [reflexivity|].
  destruct (HC n ltac:(lia)) as (Fn & En). cbn [bsum] in *.
  destruct (hloop_near (fun i => nth i c (f64_ofZ 0)) x t cr e kap S Fx Ht Hx Hk HS n (nth n c (f64_ofZ 0)) (cr n) (e n)) as (F & E).
  - intros i Hi. apply HC. lia.
  - exact Fn.
  - exact En.
  - lra.
  - lra.
  - split; [exact F|]. rewrite (Rplus_comm (bsum n _)). apply Rle_trans with (1 := E). lra.
Qed.

Lemma bsum_abs n f : Rabs (bsum n f) <= bsum n (fun i => Rabs (f i)).
Proof. induction n as [|n IH]; cbn [bsum]; [rewrite Rabs_R0; lra|]. apply Rle_trans with (1 := Rabs_triang _ _). lra. Qed.
Lemma bsum_scal k n f : bsum n (fun i => k * f i) = k * bsum n f.
Proof. induction n as [|n IH]; cbn [bsum]; [ring|]. rewrite IH. ring. Qed.
Lemma bsum_const k n : bsum n (fun _ => k) = INR n * k.
Proof. induction n as [|n IH]; cbn [bsum]; [simpl; ring|]. rewrite IH, S_INR. ring. Qed.
Lemma bsum_plus n f g : bsum n (fun i => f i + g i) = bsum n f + bsum n g.
Proof. induction n as [|n IH]; cbn [bsum]; [ring|]. rewrite IH. ring. Qed.
Lemma bsum_single n f i : (i < n)%nat -> (forall j, 0 <= f j) -> f i <= bsum n f.
Proof.
  intros H P. induction n as [|n IH]; [lia|]. cbn [bsum]. assert (0 <= bsum n f) by (apply bsum_nonneg; auto). assert (Pn := P n).
  destruct (Nat.eq_dec i n) as [->|]; [lra|]. assert (f i <= bsum n f) by (apply IH; lia). lra.
Qed.
Lemma pow_abs_1 t k : Rabs t <= 1 -> Rabs (t ^ k) <= 1.
Proof. intros H. rewrite <- RPow_abs. replace 1 with (1 ^ k) by apply pow1. apply pow_incr. split; [apply Rabs_pos|exact H]. Qed.
Lemma poly_abs_le n c t : Rabs t <= 1 -> Rabs (bsum n (fun i => c i * t ^ i)) <= bsum n (fun i => Rabs (c i)).
Proof.
  intros H. apply Rle_trans with (1 := bsum_abs _ _). apply bsum_le. intros i _. rewrite Rabs_mult. rewrite <- (Rmult_1_r (Rabs (c i))) at 2.
  apply Rmult_le_compat_l; [apply Rabs_pos|]. apply pow_abs_1, H.
Qed.

(** Sums bounded by [huge], with the floor added, are in range. *)
Lemma mod9_floor S r : 0 <= S <= huge -> 1 <= r <= bpow radix2 200 -> mod9 (S + r * tiny).
Proof.
  intros HS Hr. assert (P := bpow_gt_0 radix2 (-900)). fold tiny in P. unfold mod9. fold tiny. split.
  - assert (1 * tiny <= r * tiny) by (apply Rmult_le_compat_r; lra). lra.
  - assert (T : r * tiny <= bpow radix2 200 * tiny) by (apply Rmult_le_compat_r; lra). unfold tiny in T at 2. rewrite <- bpow_plus in T.
    assert (bpow radix2 (200 + -900) <= huge) by (apply bpow_le; discriminate).
    apply Rle_trans with (2 * huge); [lra|]. change 900%Z with (100 + 800)%Z. rewrite bpow_plus. apply Rmult_le_compat_r; [apply bpow_ge_0|]. change 2 with (bpow radix2 1). apply bpow_le. discriminate.
Qed.
Lemma power_err_nonneg n k : 0 <= k -> 0 <= power_err n k.
Proof. intros H. unfold power_err. assert (U := u_tiny). change uround with u53. apply Rmult_le_pos; [apply Rmult_le_pos; [apply pos_INR|lra]|lra]. Qed.
Lemma one_b53 : 1 <= bpow radix2 53.
Proof. change 1 with (bpow radix2 0). apply bpow_le. discriminate. Qed.
Lemma u53_b53 : u53 * bpow radix2 53 = 1.
Proof. unfold u53. rewrite <- (IZR_Zpower radix2 53) by discriminate. replace (2 ^ 53) with (IZR (radix2 ^ 53)) by (rewrite pow_IZR; f_equal). field. apply IZR_neq. discriminate. Qed.
(** A number of roundings below 1/2 bounds the number of terms. *)
Lemma few_terms m k : 10 * m * u53 <= / 2 -> 0 <= m -> k = m + 1 -> k <= bpow radix2 53.
Proof.
  intros H M ->. assert (U := u_tiny). assert (E := u53_b53). assert (P := bpow_gt_0 radix2 53).
  assert (T : 10 * m * u53 * bpow radix2 53 <= / 2 * bpow radix2 53) by (apply Rmult_le_compat_r; lra).
  rewrite Rmult_assoc, E in T. assert (16 <= bpow radix2 53) by (change 16 with (bpow radix2 4); apply bpow_le; discriminate). lra.
Qed.
Lemma power_terms n k : 0 <= k -> (0 < n)%nat -> power_err n k <= / 2 -> 1 <= INR n <= bpow radix2 53.
Proof.
  intros K N H. split; [change 1 with (INR 1); apply le_INR; lia|]. assert (U := u_tiny). unfold power_err in H. change uround with u53 in H.
  apply (few_terms (INR (n - 1))); [|apply pos_INR|rewrite minus_INR by lia; simpl; ring].
  apply Rle_trans with (2 := H). apply Rmult_le_compat_r; [lra|]. rewrite Rmult_comm. apply Rmult_le_compat_l; [apply pos_INR|lra].
Qed.

(** ** PowerSeries1d *)
Lemma horner_floor (c : list f64) x t cr e kap F :
  c <> [] -> is_finite x = true -> Rabs t <= 1 -> Rabs (val x - t) <= kap * u53 -> 0 <= kap ->
  (forall i, (i < length c)%nat -> is_finite (nth i c (f64_ofZ 0)) = true /\ Rabs (val (nth i c (f64_ofZ 0)) - cr i) <= e i) ->
  mod9 F -> bsum (length c) (fun i => Rabs (cr i)) <= F -> power_err (length c) kap * F + bsum (length c) e <= F ->
  exists v, horner c x = Ok v /\ is_finite v = true /\
    Rabs (val v - bsum (length c) (fun i => cr i * t ^ i)) <= power_err (length c) kap * F + bsum (length c) e.
Proof.
  intros Hc Fx Ht Hx Hk HC HF HA HE. assert (U := u_tiny). destruct (moderate_big F HF) as (F0 & _).
  assert (LE : INR (length c - 1) * ((2 * kap + 9) * u53 * F) <= power_err (length c) kap * F).
  { unfold power_err. change uround with u53. rewrite !Rmult_assoc. apply Rmult_le_compat_l; [apply pos_INR|]. apply Rmult_le_compat_r; [apply Rmult_le_pos; lra|lra]. }
  destruct (horner_near c x t cr e kap F) as (v & E & Fv & Ev); auto; [lra|].
  exists v. split; [exact E|]. split; [exact Fv|]. lra.
Qed.

Lemma ps1_double_lemma : forall (a : axis f64) (b : list f64) (x : f64), usable a x -> b <> [] -> all_finite b -> vec_sum b <= huge ->
  let k := axis_cond (axis_values a) in k * uround <= / 2 -> power_err (length b) k <= / 2 ->
  exists v, ps1_evaluate (mkPS1 b a) x = Ok v /\ is_finite v = true /\
    Rabs (dvalue v - poly (dvalues b) (unit_of (axis_values a) (dvalue x))) <= power_err (length b) k * (vec_sum b + tiny).
Proof.
  intros a b x Hu Hb Fb HA k Hk HE. change uround with u53 in *. assert (U := u_tiny).
  destruct (unit_f a x Hu ltac:(fold k; lra)) as (Ft & Et & Ht & K0). fold k in Et, K0.
  assert (V0 : 0 <= vec_sum b) by (apply bsum_nonneg; intros; apply Rabs_pos).
  assert (HF := mod9_floor (vec_sum b) 1 ltac:(lra) ltac:(split; [lra|change 1 with (bpow radix2 0); apply bpow_le; discriminate])). rewrite Rmult_1_l in HF.
  destruct (moderate_big _ HF) as (F0 & _). assert (P9 := bpow_gt_0 radix2 (-900)). fold tiny in P9.
  assert (H2 : power_err (length b) k * (vec_sum b + tiny) <= / 2 * (vec_sum b + tiny)) by (apply Rmult_le_compat_r; lra).
  destruct (horner_floor b (to_unit a x) (unit_of (axis_values a) (val x)) (fun i => nth i (dvalues b) 0) (fun _ => 0) k (vec_sum b + tiny)) as (v & E & Fv & Ev); auto.
  - intros i Hi. split; [unfold all_finite in Fb; rewrite Forall_forall in Fb; apply Fb, nth_In, Hi|]. rewrite nth_map_val, Rminus_diag_eq, Rabs_R0 by reflexivity. lra.
  - unfold vec_sum. lra.
  - rewrite bsum_const. lra.
  - rewrite bsum_const in Ev. exists v. split; [exact E|]. split; [exact Fv|]. unfold poly, dvalues at 1. rewrite map_length.
    change (dvalue v) with (val v). change (dvalue x) with (val x). apply Rle_trans with (1 := Ev). lra.
Qed.

(** ** PowerSeries2d and PowerSeries3d *)
(** A list of results close to the reals [cr]. *)
Definition nears (q : list f64) (cr e : nat -> R) : Prop :=
  forall i, (i < length q)%nat -> is_finite (nth i q (f64_ofZ 0)) = true /\ Rabs (val (nth i q (f64_ofZ 0)) - cr i) <= e i.

Lemma mapM_near {A} (F : A -> outcome f64) (l : list A) (a0 : A) (cr e : nat -> R) :
  (forall i, (i < length l)%nat -> exists v, F (nth i l a0) = Ok v /\ is_finite v = true /\ Rabs (val v - cr i) <= e i) ->
  exists q, mapM F l = Ok q /\ length q = length l /\ nears q cr e.
Proof.
  revert cr e. induction l as [|x l IH]; intros cr e H.
  - exists []. split; [reflexivity|]. split; [reflexivity|]. intros i Hi. simpl in Hi. lia.
  - destruct (H 0%nat ltac:(simpl; lia)) as (v & E & Fv & Ev).
    destruct (IH (fun i => cr (S i)) (fun i => e (S i))) as (q & Eq & Lq & Nq).
    { intros i Hi. apply (H (S i)). simpl. lia. }
    exists (v :: q). cbn [mapM]. simpl in E. rewrite E. cbn [bind]. rewrite Eq. split; [reflexivity|]. split; [simpl; lia|].
    intros [|i] Hi; [split; assumption|]. apply Nq. simpl in Hi. lia.
Qed.

Lemma nth_seq_map {A} (f : nat -> A) n i d : (i < n)%nat -> nth i (map f (seq 0 n)) d = f i.
Proof. intros H. rewrite (nth_indep _ d (f 0%nat)) by (rewrite map_length, seq_length; exact H). rewrite map_nth, seq_nth by exact H. reflexivity. Qed.

(** One row. *)
Lemma row_near bm (A : mat f64) i y t k : (i < m_rows A)%nat -> (0 < m_cols A)%nat -> mat_finite A -> is_finite y = true -> Rabs t <= 1 ->
  Rabs (val y - t) <= k * u53 -> 0 <= k -> bsum (m_cols A) (fun j => Rabs (val (m_at A i j))) <= huge ->
  power_err (m_cols A) k <= / 2 ->
  exists v, (let* pj := mrow bm A i in horner pj y) = Ok v /\ is_finite v = true /\
    Rabs (val v - bsum (m_cols A) (fun j => val (m_at A i j) * t ^ j)) <=
      power_err (m_cols A) k * (bsum (m_cols A) (fun j => Rabs (val (m_at A i j))) + tiny).
Proof.
  intros Hi Hn FA Fy Ht Hy Hk HB HE. unfold mrow, eigen_check. replace (i <? m_rows A)%nat with true by (symmetry; apply Nat.ltb_lt, Hi). cbn [bind].
  set (row := map (m_at A i) (seq 0 (m_cols A))). assert (LR : length row = m_cols A) by (unfold row; rewrite map_length, seq_length; reflexivity).
  set (S := bsum (m_cols A) (fun j => Rabs (val (m_at A i j)))) in *.
  assert (B0 : 0 <= S) by (apply bsum_nonneg; intros; apply Rabs_pos).
  assert (HF := mod9_floor S 1 ltac:(lra) ltac:(split; [lra|change 1 with (bpow radix2 0); apply bpow_le; discriminate])). rewrite Rmult_1_l in HF.
  destruct (moderate_big _ HF) as (F0 & _). assert (P9 := bpow_gt_0 radix2 (-900)). fold tiny in P9.
  assert (H2 : power_err (m_cols A) k * (S + tiny) <= / 2 * (S + tiny)) by (apply Rmult_le_compat_r; lra).
  destruct (horner_floor row y t (fun j => val (m_at A i j)) (fun _ => 0) k (S + tiny)) as (v & E & Fv & Ev); auto.
  - intros E. rewrite E in LR. simpl in LR. lia.
  - rewrite LR. intros j Hj. unfold row. rewrite nth_seq_map by exact Hj. split; [apply FA; assumption|]. rewrite Rminus_diag_eq, Rabs_R0 by reflexivity. lra.
  - rewrite LR. unfold S in *. lra.
  - rewrite LR, bsum_const. lra.
  - exists v. split; [exact E|]. split; [exact Fv|]. rewrite LR, bsum_const in Ev. apply Rle_trans with (1 := Ev). lra.
Qed.

(** A whole matrix. *)
Lemma unit2_near bm (A : mat f64) x y tx ty kx ky : (0 < m_rows A)%nat -> (0 < m_cols A)%nat -> mat_finite A ->
  is_finite x = true -> Rabs tx <= 1 -> Rabs (val x - tx) <= kx * u53 -> 0 <= kx ->
  is_finite y = true -> Rabs ty <= 1 -> Rabs (val y - ty) <= ky * u53 -> 0 <= ky ->
  mat_sum A <= huge -> power_err (m_rows A) kx + power_err (m_cols A) ky <= / 2 ->
  exists v, unit2 bm A (m_rows A) x y = Ok v /\ is_finite v = true /\
    Rabs (val v - mat_poly A tx ty) <= (power_err (m_rows A) kx + power_err (m_cols A) ky) * (mat_sum A + INR (m_rows A) * tiny).
Proof.
  intros Hm Hn FA Fx Htx Hx Hkx Fy Hty Hy Hky HB HE.
  assert (PX := power_err_nonneg (m_rows A) kx Hkx). assert (PY := power_err_nonneg (m_cols A) ky Hky).
  set (Si := fun i => bsum (m_cols A) (fun j => Rabs (val (m_at A i j)))).
  assert (S0 : forall i, 0 <= Si i) by (intros; apply bsum_nonneg; intros; apply Rabs_pos).
  destruct (mapM_near (fun i => let* pj := mrow bm A i in horner pj y) (seq 0 (m_rows A)) 0%nat
     (fun i => bsum (m_cols A) (fun j => val (m_at A i j) * ty ^ j)) (fun i => power_err (m_cols A) ky * (Si i + tiny))) as (q & Eq & Lq & Nq).
  { intros i Hi. rewrite seq_length in Hi. rewrite seq_nth by exact Hi. apply row_near; auto; [|lra].
    apply Rle_trans with (2 := HB). apply (bsum_single (m_rows A) Si i Hi S0). }
  rewrite seq_length in Lq. unfold unit2, partial_sums. rewrite Eq. cbn [bind].
  assert (P9 := bpow_gt_0 radix2 (-900)). fold tiny in P9.
  set (S := mat_sum A + INR (m_rows A) * tiny).
  assert (MS0 : 0 <= mat_sum A) by (apply bsum_nonneg; intros; apply S0).
  assert (SF : bsum (m_rows A) (fun i => Si i + tiny) = S) by (rewrite bsum_plus, bsum_const; reflexivity).
  assert (U := u_tiny). assert (RB := power_terms (m_rows A) kx Hkx Hm ltac:(lra)).
  assert (HS : mod9 S).
  { apply mod9_floor; [lra|]. split; [lra|]. apply Rle_trans with (1 := proj2 RB). apply bpow_le. discriminate. }
  destruct (moderate_big S HS) as (SP & _).
  assert (BEq : bsum (m_rows A) (fun i => power_err (m_cols A) ky * (Si i + tiny)) = power_err (m_cols A) ky * S) by (rewrite bsum_scal, SF; reflexivity).
  assert (H2 : (power_err (m_rows A) kx + power_err (m_cols A) ky) * S <= / 2 * S) by (apply Rmult_le_compat_r; lra).
  destruct (horner_floor q x tx (fun i => bsum (m_cols A) (fun j => val (m_at A i j) * ty ^ j)) (fun i => power_err (m_cols A) ky * (Si i + tiny)) kx S) as (v & E & Fv & Ev); auto.
  - intros E. rewrite E in Lq. simpl in Lq. lia.
  - rewrite Lq. apply Rle_trans with (mat_sum A).
    + apply bsum_le. intros i _. apply poly_abs_le, Hty.
    + unfold S. assert (0 <= INR (m_rows A) * tiny) by (apply Rmult_le_pos; lra). lra.
  - rewrite Lq, BEq. lra.
  - rewrite Lq, BEq in Ev. exists v. split; [exact E|]. split; [exact Fv|]. unfold mat_poly. change dvalue with (@B2R 53 1024) in *. apply Rle_trans with (1 := Ev). fold S. lra.
Qed.

Lemma ps2_double_lemma : forall bm (ax ay : axis f64) (A : mat f64) (x y : f64), usable ax x -> usable ay y -> (0 < m_rows A)%nat -> (0 < m_cols A)%nat -> mat_finite A ->
  mat_sum A <= huge ->
  let kx := axis_cond (axis_values ax) in let ky := axis_cond (axis_values ay) in kx * uround <= / 2 -> ky * uround <= / 2 ->
  power_err (m_rows A) kx + power_err (m_cols A) ky <= / 2 ->
  exists v, ps2_evaluate bm (mkPS2 A ax ay) x y = Ok v /\ is_finite v = true /\
    Rabs (dvalue v - mat_poly A (unit_of (axis_values ax) (dvalue x)) (unit_of (axis_values ay) (dvalue y))) <=
      (power_err (m_rows A) kx + power_err (m_cols A) ky) * (mat_sum A + INR (m_rows A) * tiny).
Proof.
  intros bm ax ay A x y Hx Hy Hm Hn FA HA kx ky Hkx Hky HE. change uround with u53 in *.
  destruct (unit_f ax x Hx ltac:(fold kx; lra)) as (Fx & Ex & Tx & K0). destruct (unit_f ay y Hy ltac:(fold ky; lra)) as (Fy & Ey & Ty & K1). fold kx in Ex, K0. fold ky in Ey, K1.
  exact (unit2_near bm A (to_unit ax x) (to_unit ay y) (unit_of (axis_values ax) (val x)) (unit_of (axis_values ay) (val y)) kx ky Hm Hn FA Fx Tx Ex K0 Fy Ty Ey K1 HA HE).
Qed.

Lemma mat_poly_abs A tx ty : Rabs tx <= 1 -> Rabs ty <= 1 -> Rabs (mat_poly A tx ty) <= mat_sum A.
Proof.
  intros Hx Hy. unfold mat_poly, mat_sum. apply Rle_trans with (1 := poly_abs_le _ _ _ Hx). apply bsum_le. intros i _. apply poly_abs_le, Hy.
Qed.

Lemma ps3_double_lemma : forall bm (ax ay az : axis f64) (B : list (mat f64)) nx ny (s : ps3 f64) (x y z : f64), usable ax x -> usable ay y -> usable az z ->
  (0 < nx)%nat -> (0 < ny)%nat -> B <> [] -> box_ok nx ny B -> box_sum B <= huge -> ps3_make B ax ay az = Ok s ->
  let kx := axis_cond (axis_values ax) in let ky := axis_cond (axis_values ay) in let kz := axis_cond (axis_values az) in
  kx * uround <= / 2 -> ky * uround <= / 2 -> kz * uround <= / 2 ->
  let err := power_err nx kx + power_err ny ky + power_err (length B) kz in err <= / 2 ->
  exists v, ps3_evaluate bm s x y z = Ok v /\ is_finite v = true /\
    Rabs (dvalue v - box_poly B (unit_of (axis_values ax) (dvalue x)) (unit_of (axis_values ay) (dvalue y)) (unit_of (axis_values az) (dvalue z))) <=
      err * (box_sum B + INR (length B) * INR nx * tiny).
Proof.
  intros bm ax ay az B nx ny s x y z Hx Hy Hz Hm Hn HB FB HA HM kx ky kz Hkx Hky Hkz err HE. change uround with u53 in *.
  destruct (unit_f ax x Hx ltac:(fold kx; lra)) as (Fx & Ex & Tx & K0). destruct (unit_f ay y Hy ltac:(fold ky; lra)) as (Fy & Ey & Ty & K1).
  destruct (unit_f az z Hz ltac:(fold kz; lra)) as (Fz & Ez & Tz & K2). fold kx in Ex, K0. fold ky in Ey, K1. fold kz in Ez, K2.
  assert (LB : (0 < length B)%nat) by (destruct B; [congruence|simpl; lia]).
  assert (ES : s = mkPS3 B nx ny ax ay az).
  { destruct B as [|b B]; [congruence|]. unfold ps3_make in HM. cbn in HM. destruct (FB 0%nat LB) as (R1 & R2 & _). cbn [nth] in R1, R2. rewrite R1, R2 in HM. congruence. }
  subst s. clear HM. unfold ps3_evaluate, ps3_evaluate_unit, partial_sums3. cbn [p3_b p3_nx p3_ny p3_x p3_y p3_z].
  set (tx := unit_of (axis_values ax) (val x)) in *. set (ty := unit_of (axis_values ay) (val y)) in *. set (tz := unit_of (axis_values az) (val z)) in *.
  assert (PX := power_err_nonneg nx kx K0). assert (PY := power_err_nonneg ny ky K1). assert (PZ := power_err_nonneg (length B) kz K2).
  assert (MS0 : forall A, 0 <= mat_sum A) by (intros; apply bsum_nonneg; intros; apply bsum_nonneg; intros; apply Rabs_pos).
  unfold err in HE |- *. set (exy := power_err nx kx + power_err ny ky) in *.
  destruct (mapM_near (fun k => let* A := vat B k in let* qi := partial_sums bm horner A nx (to_unit ay y) in horner qi (to_unit ax x)) (seq 0 (length B)) 0%nat
     (fun k => mat_poly (nth k B no_mat) tx ty) (fun k => exy * (mat_sum (nth k B no_mat) + INR nx * tiny))) as (q & Eq & Lq & Nq).
  { intros k Hk. rewrite seq_length in Hk. rewrite seq_nth by exact Hk. cbn [Nat.add].
    assert (EV : vat B k = Ok (nth k B no_mat)) by (unfold vat; rewrite (nth_error_nth' _ no_mat Hk); reflexivity).
    rewrite EV. cbn [bind]. destruct (FB k Hk) as (R1 & R2 & FA).
    destruct (unit2_near bm (nth k B no_mat) (to_unit ax x) (to_unit ay y) tx ty kx ky) as (v & E & Fv & Ev); auto; try lia.
    - apply Rle_trans with (2 := HA). apply (bsum_single (length B) (fun k => mat_sum (nth k B no_mat)) k Hk). intros j. apply MS0.
    - rewrite R1, R2. fold exy. lra.
    - exists v. unfold unit2 in E. rewrite R1 in E. split; [exact E|]. split; [exact Fv|]. rewrite R1, R2 in Ev. exact Ev. }
  rewrite seq_length in Lq. rewrite Eq. cbn [bind].
  assert (P9 := bpow_gt_0 radix2 (-900)). fold tiny in P9.
  assert (BS0 : 0 <= box_sum B) by (apply bsum_nonneg; intros; apply MS0).
  set (S := box_sum B + INR (length B) * INR nx * tiny).
  assert (SF : bsum (length B) (fun k => mat_sum (nth k B no_mat) + INR nx * tiny) = S) by (rewrite bsum_plus, bsum_const; unfold S, box_sum; ring).
  assert (U := u_tiny). assert (EX0 : 0 <= exy) by (unfold exy; lra).
  assert (RB := power_terms nx kx K0 Hm ltac:(unfold exy in *; lra)). assert (RZ := power_terms (length B) kz K2 LB ltac:(lra)).
  assert (NN : 1 <= INR (length B) * INR nx <= bpow radix2 53 * bpow radix2 53).
  { split; [replace 1 with (1 * 1) by ring|]; apply Rmult_le_compat; lra. }
  assert (HS : mod9 S).
  { apply mod9_floor; [lra|]. split; [lra|]. apply Rle_trans with (1 := proj2 NN). rewrite <- bpow_plus. apply bpow_le. discriminate. }
  destruct (moderate_big S HS) as (SP & _).
  assert (BEq : bsum (length B) (fun k => exy * (mat_sum (nth k B no_mat) + INR nx * tiny)) = exy * S) by (rewrite bsum_scal, SF; reflexivity).
  assert (H2 : (exy + power_err (length B) kz) * S <= / 2 * S) by (apply Rmult_le_compat_r; lra).
  destruct (horner_floor q (to_unit az z) tz (fun k => mat_poly (nth k B no_mat) tx ty) (fun k => exy * (mat_sum (nth k B no_mat) + INR nx * tiny)) kz S) as (v & E & Fv & Ev); auto.
  - intros E. rewrite E in Lq. simpl in Lq. lia.
  - rewrite Lq. apply Rle_trans with (box_sum B).
    + apply bsum_le. intros k _. apply mat_poly_abs; assumption.
    + unfold S. assert (0 <= INR (length B) * INR nx * tiny) by (apply Rmult_le_pos; lra). lra.
  - rewrite Lq, BEq. lra.
  - rewrite Lq, BEq in Ev. exists v. split; [exact E|]. split; [exact Fv|]. apply Rle_trans with (1 := Ev). fold S. lra.
Qed.

(** ** Clenshaw's recurrence *)
Lemma cheb_abs n t : Rabs t <= 1 -> Rabs (cheb n t) <= 1.
Proof.
  intros H. assert (T : -1 <= t <= 1) by (revert H; rabs; lra). rewrite <- (cos_acos t T), cheb_cos.
  assert (B := COS_bound (INR n * acos t)). rabs; lra.
Qed.
Lemma chebu_abs n t : Rabs t <= 1 -> Rabs (chebu n t) <= INR (S n).
Proof.
  intros H. induction n as [|n IH]; [simpl; rewrite Rabs_R1; lra|].
  replace (chebu (S n) t) with (cheb (S n) t + t * chebu n t) by (rewrite cheb_chebu; ring).
  apply Rle_trans with (1 := Rabs_triang _ _). rewrite Rabs_mult. assert (C := cheb_abs (S n) t H). rewrite S_INR.
  assert (Rabs t * Rabs (chebu n t) <= 1 * INR (S n)) by (apply Rmult_le_compat; try apply Rabs_pos; assumption). lra.
Qed.
Definition usum (al : nat -> R) (m : nat) (t : R) : R := bsum m (fun i => al i * chebu i t).
Lemma usum_abs al m t : Rabs t <= 1 -> Rabs (usum al m t) <= INR m * bsum m (fun i => Rabs (al i)).
Proof.
  intros H. unfold usum. apply Rle_trans with (1 := bsum_abs _ _). rewrite <- bsum_scal. apply bsum_le. intros i Hi. rewrite Rabs_mult, Rmult_comm.
  apply Rmult_le_compat_r; [apply Rabs_pos|]. apply Rle_trans with (1 := chebu_abs i t H). apply le_INR. lia.
Qed.
Definition ncons (q : R) (al : nat -> R) (i : nat) : R := match i with O => q | S k => al k end.
Lemma usum_step q al m t : usum (ncons q al) (S m) t = 2 * t * usum al m t - usum (fun i => al (S i)) (m - 1) t + q.
Proof.
  induction m as [|m IH]; [unfold usum; cbn; ring|].
  change (usum (ncons q al) (S (S m)) t) with (usum (ncons q al) (S m) t + al m * chebu (S m) t). rewrite IH.
  change (usum al (S m) t) with (usum al m t + al m * chebu m t). destruct m as [|m]; [unfold usum; cbn; ring|].
  replace (S (S m) - 1)%nat with (S m) by lia. replace (S m - 1)%nat with m by lia.
  change (usum (fun i => al (S i)) (S m) t) with (usum (fun i => al (S i)) m t + al (S m) * chebu m t).
  change (chebu (S (S m)) t) with (2 * t * chebu (S m) t - chebu m t). ring.
Qed.
Lemma usum_last al m t : t * usum al m t - usum (fun i => al (S i)) (m - 1) t = bsum m (fun i => al i * cheb (S i) t).
Proof.
  induction m as [|m IH]; [unfold usum; cbn; ring|]. cbn [bsum]. rewrite <- IH.
  change (usum al (S m) t) with (usum al m t + al m * chebu m t). destruct m as [|m]; [unfold usum; cbn; ring|].
  replace (S (S m) - 1)%nat with (S m) by lia. replace (S m - 1)%nat with m by lia.
  change (usum (fun i => al (S i)) (S m) t) with (usum (fun i => al (S i)) m t + al (S m) * chebu m t).
  rewrite (cheb_chebu (S m) t). change (chebu (S (S m)) t) with (2 * t * chebu (S m) t - chebu m t). ring.
Qed.
Lemma bsum_ncons q al m (g : nat -> R) : bsum (S m) (fun i => ncons q al i * g i) = q * g 0%nat + bsum m (fun i => al i * g (S i)).
Proof. rewrite bsum_shift. cbn [ncons]. ring. Qed.

Lemma twice_half (q : f64) : is_finite q = true -> val ((nlit 1 2 : f64) *! q) = rnd64 (/ 2 * val q) -> forall r : f64, val q = 2 * val r -> val ((nlit 1 2 : f64) *! q) = val r.
Proof. intros Fq E r Hr. rewrite E, Hr. replace (/ 2 * (2 * val r)) with (val r) by field. apply rnd64_id, fmt64_val. Qed.

(** The loop: [al] are the perturbed coefficients of index [S j], ... already
    absorbed; [B] bounds every intermediate value. *)
Lemma cl_loop (c : list f64) x t ar e (q0 : f64) kap S N :
  let B := INR N * (2 * S) in let del := (2 * kap + 10) * u53 * B in
  is_finite x = true -> Rabs t <= 1 -> Rabs (val x - t) <= kap * u53 -> 0 <= kap -> kap * u53 <= / 8 -> 0 < S -> eta64 <= / 1000 * u53 * S -> 4 * B <= big -> (1 <= N)%nat ->
  is_finite (nth 0 c (f64_ofZ 0)) = true -> val (nth 0 c (f64_ofZ 0)) = 2 * val q0 -> Rabs (val q0 - ar 0%nat) <= e 0%nat ->
  forall j b1 b2 al m,
  (forall i, (i < j)%nat -> is_finite (nth (Datatypes.S i) c (f64_ofZ 0)) = true /\ Rabs (val (nth (Datatypes.S i) c (f64_ofZ 0)) - ar (Datatypes.S i)) <= e (Datatypes.S i)) ->
  is_finite b1 = true -> is_finite b2 = true -> val b1 = usum al m t -> val b2 = usum (fun i => al (Datatypes.S i)) (m - 1) t -> (m + j < N)%nat -> (1 <= m)%nat ->
  bsum m (fun i => Rabs (al i)) + bsum (Datatypes.S j) (fun i => Rabs (ar i)) + bsum (Datatypes.S j) e + INR (Datatypes.S j) * del <= 2 * S ->
  is_finite (clenshaw_loop c x j b1 b2) = true /\
  Rabs (val (clenshaw_loop c x j b1 b2) - (bsum m (fun i => al i * cheb (Datatypes.S j + i) t) + bsum (Datatypes.S j) (fun i => ar i * cheb i t)))
    <= bsum (Datatypes.S j) e + INR (Datatypes.S j) * del.
Proof.
  intros B del Fx Ht Hx Hk Hku S0 ES BB HN F0 V0 E0. assert (U := u_tiny). assert (PE := eta64_pos).
  assert (N1 : 1 <= INR N) by (change 1 with (INR 1); apply le_INR; exact HN).
  assert (SB : 2 * S <= B) by (unfold B; replace (2 * S) with (1 * (2 * S)) at 1 by ring; apply Rmult_le_compat_r; lra).
  assert (UB : 0 <= u53 * B) by (apply Rmult_le_pos; lra). assert (UB' : u53 * B <= / 1000 * B) by (apply Rmult_le_compat_r; lra).
  assert (D0 : 0 <= del) by (unfold del; apply Rmult_le_pos; [apply Rmult_le_pos; lra|lra]).
  assert (EB : eta64 <= / 1000 * u53 * B).
  { apply Rle_trans with (1 := ES). apply Rmult_le_compat_l; lra. }
  assert (XB : Rabs (val x) <= 9 / 8) by (replace (val x) with ((val x - t) + t) by ring; apply Rle_trans with (1 := Rabs_triang _ _); lra).
  assert (BP := big_pos).
  assert (USB : forall al m, (m <= N)%nat -> bsum m (fun i => Rabs (al i)) <= 2 * S -> Rabs (usum al m t) <= B).
  { intros al m Hm Hs. apply Rle_trans with (1 := usum_abs al m t Ht). unfold B. apply Rmult_le_compat; [apply pos_INR| |apply le_INR, Hm|exact Hs]. apply bsum_nonneg. intros; apply Rabs_pos. }
  induction j as [|j IH]; intros b1 b2 al m HC Fb1 Fb2 E1 E2 Hm Hm1 HA.
  - cbn [clenshaw_loop]. cbn [bsum] in HA |- *. change (INR 1) with 1 in *. rewrite Rmult_1_l in *.
    assert (A0 : 0 <= bsum m (fun i => Rabs (al i))) by (apply bsum_nonneg; intros; apply Rabs_pos). assert (R0 := Rabs_pos (ar 0%nat)).
    assert (e0 : 0 <= e 0%nat) by (apply Rle_trans with (1 := Rabs_pos _) (2 := E0)).
    assert (B1 : Rabs (val b1) <= B) by (rewrite E1; apply USB; [lia|lra]).
    assert (B2 : Rabs (val b2) <= B).
    { rewrite E2. apply USB; [lia|]. destruct m as [|m]; [lia|]. replace (Datatypes.S m - 1)%nat with m by lia. rewrite bsum_shift in HA. assert (P := Rabs_pos (al 0%nat)). lra. }
    assert (QB : Rabs (val q0) <= 2 * S) by (replace (val q0) with ((val q0 - ar 0%nat) + ar 0%nat) by ring; apply Rle_trans with (1 := Rabs_triang _ _); lra).
    destruct half64 as (Fh & Vh).
    destruct (mult_ok (nlit 1 2) (nth 0 c (f64_ofZ 0)) Fh F0) as (Fc & Vc).
    { rewrite Vh, V0. replace (/ 2 * (2 * val q0)) with (val q0) by field. apply big_over. lra. }
    rewrite Vh in Vc. assert (Ec := twice_half _ F0 Vc q0 V0). set (hc := (nlit 1 2 : f64) *! nth 0 c (f64_ofZ 0)) in *. clear Vc.
    assert (PB : Rabs (val x * val b1) <= 9 / 8 * B) by (rewrite Rabs_mult; apply Rmult_le_compat; try apply Rabs_pos; lra).
    destruct (mult_ok x b1 Fx Fb1) as (Fp & _); [apply big_over; lra|]. assert (Ep := mult_err x b1 Fp). set (p := x *! b1) in *.
    assert (UP : u53 * Rabs (val x * val b1) <= u53 * (9 / 8 * B)) by (apply Rmult_le_compat_l; lra).
    assert (PV : Rabs (val p) <= 9 / 8 * B + / 100 * B) by (replace (val p) with ((val p - val x * val b1) + val x * val b1) by ring; apply Rle_trans with (1 := Rabs_triang _ _); lra).
    assert (SV : Rabs (val p - val b2) <= 9 / 4 * B) by (unfold Rminus; apply Rle_trans with (1 := Rabs_triang _ _); rewrite Rabs_Ropp; lra).
    destruct (minus_ok p b2 Fp Fb2) as (Fs & _); [apply big_over; lra|]. assert (Es := minus_err p b2 Fs). set (d := p -! b2) in *.
    assert (UV : u53 * Rabs (val p - val b2) <= u53 * (9 / 4 * B)) by (apply Rmult_le_compat_l; lra).
    assert (DV : Rabs (val d) <= 9 / 4 * B + / 100 * B) by (replace (val d) with ((val d - (val p - val b2)) + (val p - val b2)) by ring; apply Rle_trans with (1 := Rabs_triang _ _); lra).
    assert (TV : Rabs (val d + val hc) <= 7 / 2 * B) by (apply Rle_trans with (1 := Rabs_triang _ _); rewrite Ec; lra).
    destruct (plus_ok d hc Fs Fc) as (Fr & _); [apply big_over; lra|]. assert (Er := plus_err d hc Fr).
    change (x * b1 - b2 + nlit 1 2 * nth 0 c (nofZ 0))%num with (d +! hc). set (r := d +! hc) in *.
    assert (UT : u53 * Rabs (val d + val hc) <= u53 * (7 / 2 * B)) by (apply Rmult_le_compat_l; lra).
    split; [exact Fr|]. rewrite Ec in Er, UT.
    rewrite (bsum_ext m (fun i => al i * cheb (1 + i) t) (fun i => al i * cheb (Datatypes.S i) t)) by (intros; reflexivity).
    rewrite <- usum_last, <- E1, <- E2. change (cheb 0 t) with 1.
    replace (val r - (t * val b1 - val b2 + (0 + ar 0%nat * 1))) with ((val r - (val d + val q0)) + ((val d - (val p - val b2)) + ((val p - val x * val b1) + ((val x - t) * val b1 + (val q0 - ar 0%nat))))) by ring.
    assert (T1 := Rabs_triang (val r - (val d + val q0)) ((val d - (val p - val b2)) + ((val p - val x * val b1) + ((val x - t) * val b1 + (val q0 - ar 0%nat))))).
    assert (T2 := Rabs_triang (val d - (val p - val b2)) ((val p - val x * val b1) + ((val x - t) * val b1 + (val q0 - ar 0%nat)))).
    assert (T3 := Rabs_triang (val p - val x * val b1) ((val x - t) * val b1 + (val q0 - ar 0%nat))).
    assert (T4 := Rabs_triang ((val x - t) * val b1) (val q0 - ar 0%nat)).
    assert (T5 : Rabs ((val x - t) * val b1) <= kap * u53 * B) by (rewrite Rabs_mult; apply Rmult_le_compat; try apply Rabs_pos; lra).
    assert (KB : 0 <= kap * u53 * B) by (apply Rmult_le_pos; [apply Rmult_le_pos|]; lra).
    unfold del. lra.
  - cbn [clenshaw_loop]. destruct (HC j ltac:(lia)) as (Fc & Ec). set (cj := nth (Datatypes.S j) c (f64_ofZ 0)) in *.
    set (J := Datatypes.S j) in *. cbn [bsum] in HA. fold J in HA. cbn [bsum]. change (bsum J e + e J) with (bsum J e + e J). rewrite (S_INR J) in HA |- *.
    assert (A0 : 0 <= bsum m (fun i => Rabs (al i))) by (apply bsum_nonneg; intros; apply Rabs_pos). assert (R0 := Rabs_pos (ar J)).
    assert (A1 : 0 <= bsum J (fun i => Rabs (ar i))) by (apply bsum_nonneg; intros; apply Rabs_pos).
    assert (A2 : 0 <= bsum J e).
    { apply bsum_nonneg. intros [|i] Hi; [apply Rle_trans with (1 := Rabs_pos _) (2 := E0)|]. apply Rle_trans with (1 := Rabs_pos (val (nth (Datatypes.S i) c (f64_ofZ 0)) - ar (Datatypes.S i))). apply HC. unfold J in Hi. lia. }
    assert (eJ : 0 <= e J) by (apply Rle_trans with (1 := Rabs_pos _) (2 := Ec)).
    assert (KD : 0 <= INR J * del) by (apply Rmult_le_pos; [apply pos_INR|exact D0]).
    assert (B1 : Rabs (val b1) <= B) by (rewrite E1; apply USB; [lia|lra]).
    assert (B2 : Rabs (val b2) <= B).
    { rewrite E2. apply USB; [lia|]. destruct m as [|m]; [lia|]. replace (Datatypes.S m - 1)%nat with m by lia. rewrite bsum_shift in HA. rewrite bsum_shift in A0. assert (P := Rabs_pos (al 0%nat)). lra. }
    assert (QB : Rabs (val cj) <= 2 * S) by (replace (val cj) with ((val cj - ar J) + ar J) by ring; apply Rle_trans with (1 := Rabs_triang _ _); lra).
    destruct (double_exact x Fx) as ((F2x & V2x) & _); [assert (2 * S <= big) by lra; assert (1 <= big) by (unfold big; change 1 with (bpow radix2 0); apply bpow_le; discriminate); lra|].
    set (x2 := (nofZ 2 : f64) *! x) in *.
    assert (PB : Rabs (val x2 * val b1) <= 9 / 4 * B) by (rewrite Rabs_mult; apply Rmult_le_compat; try apply Rabs_pos; [rewrite V2x, Rabs_mult, (Rabs_pos_eq 2) by lra; lra|lra]).
    destruct (mult_ok x2 b1 F2x Fb1) as (Fp & _); [apply big_over; lra|]. assert (Ep := mult_err x2 b1 Fp). set (p := x2 *! b1) in *.
    assert (UP : u53 * Rabs (val x2 * val b1) <= u53 * (9 / 4 * B)) by (apply Rmult_le_compat_l; lra).
    assert (PV : Rabs (val p) <= 9 / 4 * B + / 100 * B) by (replace (val p) with ((val p - val x2 * val b1) + val x2 * val b1) by ring; apply Rle_trans with (1 := Rabs_triang _ _); lra).
    assert (SV : Rabs (val p - val b2) <= 327 / 100 * B) by (unfold Rminus; apply Rle_trans with (1 := Rabs_triang _ _); rewrite Rabs_Ropp; lra).
    destruct (minus_ok p b2 Fp Fb2) as (Fs & _); [apply big_over; lra|]. assert (Es := minus_err p b2 Fs). set (d := p -! b2) in *.
    assert (UV : u53 * Rabs (val p - val b2) <= u53 * (327 / 100 * B)) by (apply Rmult_le_compat_l; lra).
    assert (DV : Rabs (val d) <= 328 / 100 * B) by (replace (val d) with ((val d - (val p - val b2)) + (val p - val b2)) by ring; apply Rle_trans with (1 := Rabs_triang _ _); lra).
    assert (TV : Rabs (val d + val cj) <= 43 / 10 * B) by (apply Rle_trans with (1 := Rabs_triang _ _); lra).
    destruct (plus_ok d cj Fs Fc) as (Fr & _); [apply big_over; lra|]. assert (Er := plus_err d cj Fr).
    change (nofZ 2 * x * b1 - b2 + nth J c (nofZ 0))%num with (d +! cj). set (r := d +! cj) in *.
    assert (UT : u53 * Rabs (val d + val cj) <= u53 * (43 / 10 * B)) by (apply Rmult_le_compat_l; lra).
    set (a' := val r - (2 * t * val b1 - val b2)).
    assert (EA : Rabs (a' - ar J) <= e J + del).
    { replace (a' - ar J) with ((val r - (val d + val cj)) + ((val d - (val p - val b2)) + ((val p - val x2 * val b1) + (2 * ((val x - t) * val b1) + (val cj - ar J))))) by (unfold a'; rewrite V2x; ring).
      assert (T1 := Rabs_triang (val r - (val d + val cj)) ((val d - (val p - val b2)) + ((val p - val x2 * val b1) + (2 * ((val x - t) * val b1) + (val cj - ar J))))).
      assert (T2 := Rabs_triang (val d - (val p - val b2)) ((val p - val x2 * val b1) + (2 * ((val x - t) * val b1) + (val cj - ar J)))).
      assert (T3 := Rabs_triang (val p - val x2 * val b1) (2 * ((val x - t) * val b1) + (val cj - ar J))).
      assert (T4 := Rabs_triang (2 * ((val x - t) * val b1)) (val cj - ar J)).
      assert (T5 : Rabs (2 * ((val x - t) * val b1)) <= 2 * (kap * u53 * B)).
      { rewrite Rabs_mult, (Rabs_pos_eq 2) by lra. apply Rmult_le_compat_l; [lra|]. rewrite Rabs_mult. apply Rmult_le_compat; try apply Rabs_pos; lra. }
      unfold del. lra. }
    assert (AB : Rabs a' <= Rabs (ar J) + e J + del) by (replace a' with ((a' - ar J) + ar J) by ring; apply Rle_trans with (1 := Rabs_triang _ _); lra).
    destruct (IH r b1 (ncons a' al) (Datatypes.S m)) as (F & E).
    + intros i Hi. apply HC. lia.
    + exact Fr.
    + exact Fb1.
    + rewrite usum_step, <- E1, <- E2. unfold a'. ring.
    + replace (Datatypes.S m - 1)%nat with m by lia. exact E1.
    + unfold J in Hm. lia.
    + lia.
    + fold J. rewrite bsum_shift. cbn [ncons]. lra.
    + fold J in E. split; [exact F|]. rewrite bsum_ncons in E. rewrite Nat.add_0_r in E.
      rewrite (bsum_ext m (fun i => al i * cheb (J + Datatypes.S i) t) (fun i => al i * cheb (Datatypes.S J + i) t)) in E by (intros i _; replace (J + Datatypes.S i)%nat with (Datatypes.S J + i)%nat by lia; reflexivity).
      set (R := val (clenshaw_loop c x j r b1)) in *.
      set (X := bsum m (fun i => al i * cheb (Datatypes.S J + i) t)) in *. set (Y := bsum J (fun i => ar i * cheb i t)) in *.
      replace (R - (X + (Y + ar J * cheb J t))) with ((R - (a' * cheb J t + X + Y)) + (a' - ar J) * cheb J t) by ring.
      assert (T := Rabs_triang (R - (a' * cheb J t + X + Y)) ((a' - ar J) * cheb J t)).
      assert (T2 : Rabs ((a' - ar J) * cheb J t) <= (e J + del) * 1) by (rewrite Rabs_mult; apply Rmult_le_compat; try apply Rabs_pos; [exact EA|apply cheb_abs, Ht]). lra.
Qed.

Lemma dfirst_nth (a : nat -> f64) n : let c := double_first (map a (seq 0 (n + 1))) in
  length c = (n + 1)%nat /\ nth 0 c (f64_ofZ 0) = a 0%nat *! (nofZ 2 : f64) /\ (forall i, (i < n)%nat -> nth (S i) c (f64_ofZ 0) = a (S i)).
Proof.
  cbv zeta. rewrite Nat.add_1_r. cbn [seq map double_first length nth]. rewrite map_length, seq_length. split; [reflexivity|]. split; [reflexivity|].
  intros i Hi. rewrite <- seq_shift, map_map. apply (nth_seq_map (fun k => a (S k)) n i _ Hi).
Qed.

Lemma cheb_err_nonneg n k : 0 <= k -> 0 <= cheb_err n k.
Proof. intros H. unfold cheb_err. assert (U := u_tiny). change uround with u53. apply Rmult_le_pos; [apply Rmult_le_pos; [apply Rmult_le_pos; apply pos_INR|lra]|lra]. Qed.

Lemma cl_near n (a : nat -> f64) x t ar e kap S :
  is_finite x = true -> Rabs t <= 1 -> Rabs (val x - t) <= kap * u53 -> 0 <= kap -> mod9 S ->
  (forall i, (i <= n)%nat -> is_finite (a i) = true /\ Rabs (val (a i) - ar i) <= e i) ->
  bsum (n + 1) (fun i => Rabs (ar i)) <= S -> cheb_err n kap * S + bsum (n + 1) e <= S ->
  is_finite (clenshaw_sum n a x) = true /\
  Rabs (val (clenshaw_sum n a x) - bsum (n + 1) (fun i => ar i * cheb i t)) <= cheb_err n kap * S + bsum (n + 1) e.
Proof.
  intros Fx Ht Hx Hk HS HC HA HE. assert (U := u_tiny). destruct (moderate_big S HS) as (S0 & SB). assert (ES := moderate_eta S HS). assert (PE := eta64_pos). assert (BP := big_pos).
  assert (CE := cheb_err_nonneg n kap Hk). assert (CS : 0 <= cheb_err n kap * S) by (apply Rmult_le_pos; lra).
  assert (E0 : forall i, (i <= n)%nat -> 0 <= e i) by (intros i Hi; apply Rle_trans with (1 := Rabs_pos _) (2 := proj2 (HC i Hi))).
  assert (AB : forall i, (i <= n)%nat -> Rabs (val (a i)) <= 2 * S).
  { intros i Hi. replace (val (a i)) with ((val (a i) - ar i) + ar i) by ring. apply Rle_trans with (1 := Rabs_triang _ _).
    assert (H1 := proj2 (HC i Hi)).
    assert (H2 : Rabs (ar i) <= bsum (n + 1) (fun i => Rabs (ar i))) by (apply (bsum_single (n + 1) (fun i => Rabs (ar i))); [lia|intros; apply Rabs_pos]).
    assert (H3 : Rmax 0 (e i) <= bsum (n + 1) (fun i => Rmax 0 (e i))) by (apply (bsum_single (n + 1) (fun i => Rmax 0 (e i))); [lia|intros; apply Rmax_l]).
    rewrite (bsum_ext (n + 1) (fun i => Rmax 0 (e i)) e) in H3 by (intros j Hj; apply Rmax_right, E0; lia). rewrite Rmax_right in H3 by (apply E0, Hi). lra. }
  destruct (dfirst_nth a n) as (LC & N0 & NS). unfold clenshaw_sum, clenshaw. rewrite LC. set (c := double_first (map a (seq 0 (n + 1)))) in *.
  destruct (HC 0%nat ltac:(lia)) as (F0 & H0). destruct (double_exact (a 0%nat) F0) as (_ & Fd & Vd); [assert (X := AB 0%nat ltac:(lia)); lra|]. rewrite <- N0 in Fd, Vd.
  destruct n as [|n].
  - cbn [Nat.add]. destruct two_ok as (F2 & V2). cbn [bsum] in *. unfold cheb_err. change (INR 0) with 0. rewrite !Rmult_0_l.
    destruct (div_ok (nth 0 c (f64_ofZ 0)) (nofZ 2) Fd F2) as (F & V); [rewrite V2; lra|rewrite V2, Vd; replace (2 * val (a 0%nat) / 2) with (val (a 0%nat)) by field; apply big_over; assert (X := AB 0%nat ltac:(lia)); lra|].
    rewrite V2, Vd in V. replace (2 * val (a 0%nat) / 2) with (val (a 0%nat)) in V by field. rewrite rnd64_id in V by apply fmt64_val.
    split; [exact F|]. change (nth 0 c (nofZ 0) / nofZ 2)%num with (nth 0 c (f64_ofZ 0) /! (nofZ 2 : f64)). rewrite V. simpl (cheb 0 t).
    replace (val (a 0%nat) - (0 + ar 0%nat * 1)) with (val (a 0%nat) - ar 0%nat) by ring. lra.
  - assert (EN : (Datatypes.S n + 1 = Datatypes.S (Datatypes.S n))%nat) by lia. rewrite EN in *.
    assert (CK : cheb_err (Datatypes.S n) kap <= 1).
    { apply Rmult_le_reg_r with S; [exact S0|]. assert (0 <= bsum (Datatypes.S (Datatypes.S n)) e) by (apply bsum_nonneg; intros i Hi; apply E0; lia). lra. }
    set (N := Datatypes.S (Datatypes.S n)) in *. set (B := INR N * (2 * S)). set (del := (2 * kap + 10) * u53 * B).
    assert (DE : INR (Datatypes.S n) * del = cheb_err (Datatypes.S n) kap * S).
    { unfold del, B, cheb_err. rewrite EN. change uround with u53. ring. }
    assert (N1 : 1 <= INR (Datatypes.S n)) by (change 1 with (INR 1); apply le_INR; lia).
    assert (N2 : 2 <= INR N) by (change 2 with (INR 2); apply le_INR; unfold N; lia).
    assert (CK2 : INR N * (4 * kap + 20) * u53 <= 1).
    { apply Rle_trans with (2 := CK). unfold cheb_err. rewrite EN. change uround with u53. rewrite !Rmult_assoc. rewrite <- (Rmult_1_l (INR N * ((4 * kap + 20) * u53))) at 1.
      apply Rmult_le_compat_r; [|exact N1]. apply Rmult_le_pos; [lra|]. apply Rmult_le_pos; lra. }
    assert (KU : kap * u53 <= / 8).
    { assert (X : 2 * ((4 * kap + 20) * u53) <= INR N * ((4 * kap + 20) * u53)) by (apply Rmult_le_compat_r; [apply Rmult_le_pos; lra|lra]). lra. }
    assert (NB : INR N <= bpow radix2 53).
    { assert (X : INR N * 20 * u53 <= 1).
      { apply Rle_trans with (2 := CK2). apply Rmult_le_compat_r; [lra|]. apply Rmult_le_compat_l; lra. }
      assert (E := u53_b53). assert (P := bpow_gt_0 radix2 53). assert (Y : INR N * 20 * u53 * bpow radix2 53 <= 1 * bpow radix2 53) by (apply Rmult_le_compat_r; lra).
      rewrite Rmult_assoc, E in Y. lra. }
    assert (BB : 4 * B <= big).
    { unfold B. apply Rle_trans with (8 * (bpow radix2 53 * bpow radix2 900)).
      - replace (4 * (INR N * (2 * S))) with (8 * (INR N * S)) by ring. apply Rmult_le_compat_l; [lra|]. apply Rmult_le_compat; try lra. apply HS.
      - rewrite <- bpow_plus. change 8 with (bpow radix2 3). rewrite <- bpow_plus. apply bpow_le. discriminate. }
    destruct (HC (Datatypes.S n) ltac:(lia)) as (Fn & Hn).
    assert (ENn : nth (Datatypes.S n) c (f64_ofZ 0) = a (Datatypes.S n)) by (apply NS; lia).
    change (nth (Datatypes.S n) c (nofZ 0)) with (nth (Datatypes.S n) c (f64_ofZ 0)). rewrite ENn.
    destruct (ofZ_ok 0 ltac:(reflexivity)) as (Fz & Vz).
    assert (AN : Rabs (val (a (Datatypes.S n))) <= Rabs (ar (Datatypes.S n)) + e (Datatypes.S n)) by (replace (val (a (Datatypes.S n))) with ((val (a (Datatypes.S n)) - ar (Datatypes.S n)) + ar (Datatypes.S n)) by ring; apply Rle_trans with (1 := Rabs_triang _ _); lra).
    unfold N in HA, HE. cbn [bsum] in HA, HE.
    destruct (cl_loop c x t ar e (a 0%nat) kap S N Fx Ht Hx Hk KU S0 ES BB ltac:(unfold N; lia) Fd Vd H0 n (a (Datatypes.S n)) (nofZ 0) (fun _ => val (a (Datatypes.S n))) 1) as (F & E).
    + intros i Hi. rewrite NS by lia. apply HC. lia.
    + exact Fn.
    + exact Fz.
    + unfold usum. cbn. ring.
    + cbn. exact Vz.
    + unfold N. lia.
    + lia.
    + fold B. fold del. rewrite DE. cbn [bsum]. change (bsum 1 (fun _ => Rabs (val (a (Datatypes.S n))))) with (0 + Rabs (val (a (Datatypes.S n)))).
      lra.
    + fold B in E. fold del in E. rewrite DE in E. split; [exact F|].
      set (R := val (clenshaw_loop c x n (a (Datatypes.S n)) (nofZ 0))) in *. change (bsum 1 (fun i => val (a (Datatypes.S n)) * cheb (Datatypes.S n + i) t)) with (0 + val (a (Datatypes.S n)) * cheb (Datatypes.S n + 0) t) in E.
      rewrite Nat.add_0_r in E. change (bsum N (fun i => ar i * cheb i t)) with (bsum (Datatypes.S n) (fun i => ar i * cheb i t) + ar (Datatypes.S n) * cheb (Datatypes.S n) t).
      change (bsum N e) with (bsum (Datatypes.S n) e + e (Datatypes.S n)). cbn [bsum] in E |- *.
      set (X := bsum n (fun i => ar i * cheb i t) + ar n * cheb n t) in *. set (C := cheb (Datatypes.S n) t) in *.
      replace (R - (X + ar (Datatypes.S n) * C)) with ((R - (0 + val (a (Datatypes.S n)) * C + X)) + (val (a (Datatypes.S n)) - ar (Datatypes.S n)) * C) by ring.
      assert (T := Rabs_triang (R - (0 + val (a (Datatypes.S n)) * C + X)) ((val (a (Datatypes.S n)) - ar (Datatypes.S n)) * C)).
      assert (T2 : Rabs ((val (a (Datatypes.S n)) - ar (Datatypes.S n)) * C) <= e (Datatypes.S n) * 1) by (rewrite Rabs_mult; apply Rmult_le_compat; try apply Rabs_pos; [exact Hn|apply cheb_abs, Ht]). lra.
Qed.

Lemma cheb_terms n k : 0 <= k -> cheb_err n k <= / 2 -> 1 <= INR (n + 1) <= bpow radix2 53.
Proof.
  intros K H. split; [change 1 with (INR 1); apply le_INR; lia|]. assert (U := u_tiny). unfold cheb_err in H. change uround with u53 in H.
  apply (few_terms (INR n)); [|apply pos_INR|rewrite plus_INR; simpl; ring].
  apply Rle_trans with (2 := H). apply Rmult_le_compat_r; [lra|]. rewrite (Rmult_comm 10), (Rmult_assoc (INR n)). apply Rmult_le_compat_l; [apply pos_INR|].
  assert (1 <= INR (n + 1)) by (change 1 with (INR 1); apply le_INR; lia).
  apply Rle_trans with (1 * 10); [lra|]. apply Rmult_le_compat; lra.
Qed.
Lemma cheb_sum_abs n c t : Rabs t <= 1 -> Rabs (bsum n (fun i => c i * cheb i t)) <= bsum n (fun i => Rabs (c i)).
Proof.
  intros H. apply Rle_trans with (1 := bsum_abs _ _). apply bsum_le. intros i _. rewrite Rabs_mult. rewrite <- (Rmult_1_r (Rabs (c i))) at 2.
  apply Rmult_le_compat_l; [apply Rabs_pos|]. apply cheb_abs, H.
Qed.

(** One vector of coefficients. *)
Lemma cl1_near n (a : nat -> f64) x t kap : is_finite x = true -> Rabs t <= 1 -> Rabs (val x - t) <= kap * u53 -> 0 <= kap ->
  (forall i, (i <= n)%nat -> is_finite (a i) = true) -> bsum (n + 1) (fun i => Rabs (val (a i))) <= huge -> cheb_err n kap <= / 2 ->
  is_finite (clenshaw_sum n a x) = true /\
  Rabs (val (clenshaw_sum n a x) - bsum (n + 1) (fun i => val (a i) * cheb i t)) <= cheb_err n kap * (bsum (n + 1) (fun i => Rabs (val (a i))) + tiny).
Proof.
  intros Fx Ht Hx Hk Fa HB HE. set (S := bsum (n + 1) (fun i => Rabs (val (a i)))) in *.
  assert (B0 : 0 <= S) by (apply bsum_nonneg; intros; apply Rabs_pos).
  assert (HF := mod9_floor S 1 ltac:(lra) ltac:(split; [lra|change 1 with (bpow radix2 0); apply bpow_le; discriminate])). rewrite Rmult_1_l in HF.
  destruct (moderate_big _ HF) as (F0 & _). assert (P9 := bpow_gt_0 radix2 (-900)). fold tiny in P9.
  assert (H2 : cheb_err n kap * (S + tiny) <= / 2 * (S + tiny)) by (apply Rmult_le_compat_r; lra).
  destruct (cl_near n a x t (fun i => val (a i)) (fun _ => 0) kap (S + tiny)) as (F & E); auto.
  - intros i Hi. split; [apply Fa, Hi|]. rewrite Rminus_diag_eq, Rabs_R0 by reflexivity. lra.
  - fold S. lra.
  - rewrite bsum_const. lra.
  - rewrite bsum_const in E. split; [exact F|]. lra.
Qed.

(** A matrix of coefficients. *)
Lemma cl2_near m n (a : nat -> nat -> f64) x y tx ty kx ky : is_finite x = true -> Rabs tx <= 1 -> Rabs (val x - tx) <= kx * u53 -> 0 <= kx ->
  is_finite y = true -> Rabs ty <= 1 -> Rabs (val y - ty) <= ky * u53 -> 0 <= ky ->
  (forall i j, (i <= m)%nat -> (j <= n)%nat -> is_finite (a i j) = true) ->
  let S := bsum (m + 1) (fun i => bsum (n + 1) (fun j => Rabs (val (a i j)))) in S <= huge -> cheb_err m kx + cheb_err n ky <= / 2 ->
  let v := clenshaw_sum m (fun i => clenshaw_sum n (a i) y) x in
  is_finite v = true /\
  Rabs (val v - bsum (m + 1) (fun i => bsum (n + 1) (fun j => val (a i j) * cheb j ty) * cheb i tx)) <= (cheb_err m kx + cheb_err n ky) * (S + INR (m + 1) * tiny).
Proof.
  intros Fx Htx Hx Hkx Fy Hty Hy Hky Fa S HB HE v.
  assert (PX := cheb_err_nonneg m kx Hkx). assert (PY := cheb_err_nonneg n ky Hky).
  set (Si := fun i => bsum (n + 1) (fun j => Rabs (val (a i j)))) in *.
  assert (S0 : forall i, 0 <= Si i) by (intros; apply bsum_nonneg; intros; apply Rabs_pos).
  assert (B0 : 0 <= S) by (apply bsum_nonneg; intros; apply S0).
  assert (RB := cheb_terms m kx Hkx ltac:(lra)). assert (P9 := bpow_gt_0 radix2 (-900)). fold tiny in P9.
  set (F := S + INR (m + 1) * tiny).
  assert (HF : mod9 F) by (apply mod9_floor; [lra|]; split; [lra|]; apply Rle_trans with (1 := proj2 RB); apply bpow_le; discriminate).
  destruct (moderate_big _ HF) as (F0 & _).
  assert (SF : bsum (m + 1) (fun i => Si i + tiny) = F) by (rewrite bsum_plus, bsum_const; reflexivity).
  assert (BEq : bsum (m + 1) (fun i => cheb_err n ky * (Si i + tiny)) = cheb_err n ky * F) by (rewrite bsum_scal, SF; reflexivity).
  assert (H2 : (cheb_err m kx + cheb_err n ky) * F <= / 2 * F) by (apply Rmult_le_compat_r; lra).
  destruct (cl_near m (fun i => clenshaw_sum n (a i) y) x tx (fun i => bsum (n + 1) (fun j => val (a i j) * cheb j ty)) (fun i => cheb_err n ky * (Si i + tiny)) kx F) as (Fv & Ev); auto.
  - intros i Hi. apply cl1_near; auto; [|lra]. apply Rle_trans with (2 := HB). apply (bsum_single (m + 1) Si i); [lia|exact S0].
  - apply Rle_trans with S; [apply bsum_le; intros i _; apply cheb_sum_abs, Hty|]. unfold F. assert (0 <= INR (m + 1) * tiny) by (apply Rmult_le_pos; lra). lra.
  - rewrite BEq. lra.
  - rewrite BEq in Ev. split; [exact Fv|]. apply Rle_trans with (1 := Ev). lra.
Qed.

Lemma cs1_double_lemma : forall f (ax : axis f64) n (a : nat -> f64) x, usable ax x -> (forall i, (i <= n)%nat -> is_finite (a i) = true) ->
  let S := bsum (n + 1) (fun i => Rabs (dvalue (a i))) in S <= huge ->
  let k := axis_cond (axis_values ax) in k * uround <= / 2 -> cheb_err n k <= / 2 ->
  let v := cs1_evaluate (mkCS1 f ax n a) x in
  is_finite v = true /\
  Rabs (dvalue v - bsum (n + 1) (fun i => dvalue (a i) * cheb i (unit_of (axis_values ax) (dvalue x)))) <= cheb_err n k * (S + tiny).
Proof.
  intros f ax n a x Hu Fa S HS k Hk HE v. change uround with u53 in *.
  destruct (unit_f ax x Hu ltac:(fold k; lra)) as (Ft & Et & Ht & K0). fold k in Et, K0.
  exact (cl1_near n a (to_unit ax x) (unit_of (axis_values ax) (val x)) k Ft Ht Et K0 Fa HS HE).
Qed.

Lemma cs2_double_lemma : forall f (ax ay : axis f64) m n (a : nat -> nat -> f64) x y, usable ax x -> usable ay y ->
  (forall i j, (i <= m)%nat -> (j <= n)%nat -> is_finite (a i j) = true) ->
  let S := bsum (m + 1) (fun i => bsum (n + 1) (fun j => Rabs (dvalue (a i j)))) in S <= huge ->
  let kx := axis_cond (axis_values ax) in let ky := axis_cond (axis_values ay) in kx * uround <= / 2 -> ky * uround <= / 2 ->
  cheb_err m kx + cheb_err n ky <= / 2 ->
  let v := cs2_evaluate (mkCS2 f ax ay m n a) x y in let u := unit_of (axis_values ax) (dvalue x) in let w := unit_of (axis_values ay) (dvalue y) in
  is_finite v = true /\
  Rabs (dvalue v - bsum (m + 1) (fun i => bsum (n + 1) (fun j => dvalue (a i j) * cheb j w) * cheb i u)) <= (cheb_err m kx + cheb_err n ky) * (S + INR (m + 1) * tiny).
Proof.
  intros f ax ay m n a x y Hx Hy Fa S HS kx ky Hkx Hky HE v u w. change uround with u53 in *.
  destruct (unit_f ax x Hx ltac:(fold kx; lra)) as (Fx & Ex & Tx & K0). destruct (unit_f ay y Hy ltac:(fold ky; lra)) as (Fy & Ey & Ty & K1). fold kx in Ex, K0. fold ky in Ey, K1.
  exact (cl2_near m n a (to_unit ax x) (to_unit ay y) u w kx ky Fx Tx Ex K0 Fy Ty Ey K1 Fa HS HE).
Qed.

Lemma cs3_double_lemma : forall f (ax ay az : axis f64) m n p (a : nat -> nat -> nat -> f64) x y z, usable ax x -> usable ay y -> usable az z ->
  (forall k i j, (k <= p)%nat -> (i <= m)%nat -> (j <= n)%nat -> is_finite (a k i j) = true) ->
  let S := bsum (m + 1) (fun i => bsum (n + 1) (fun j => bsum (p + 1) (fun k => Rabs (dvalue (a k i j))))) in S <= huge ->
  let kx := axis_cond (axis_values ax) in let ky := axis_cond (axis_values ay) in let kz := axis_cond (axis_values az) in
  kx * uround <= / 2 -> ky * uround <= / 2 -> kz * uround <= / 2 ->
  let err := cheb_err m kx + cheb_err n ky + cheb_err p kz in err <= / 2 ->
  let v := cs3_evaluate (mkCS3 f ax ay az m n p a) x y z in
  let u := unit_of (axis_values ax) (dvalue x) in let w := unit_of (axis_values ay) (dvalue y) in let q := unit_of (axis_values az) (dvalue z) in
  is_finite v = true /\
  Rabs (dvalue v - bsum (m + 1) (fun i => bsum (n + 1) (fun j => bsum (p + 1) (fun k => dvalue (a k i j) * cheb k q) * cheb j w) * cheb i u)) <=
    err * (S + INR (m + 1) * INR (n + 1) * tiny).
Proof.
  intros f ax ay az m n p a x y z Hx Hy Hz Fa S HS kx ky kz Hkx Hky Hkz err HE v u w q. change uround with u53 in *.
  destruct (unit_f ax x Hx ltac:(fold kx; lra)) as (Fx & Ex & Tx & K0). destruct (unit_f ay y Hy ltac:(fold ky; lra)) as (Fy & Ey & Ty & K1).
  destruct (unit_f az z Hz ltac:(fold kz; lra)) as (Fz & Ez & Tz & K2). fold kx in Ex, K0. fold ky in Ey, K1. fold kz in Ez, K2.
  change (dvalue x) with (val x) in *. fold u in Ex, Tx. change (val y) with (dvalue y) in Ey, Ty. fold w in Ey, Ty. change (val z) with (dvalue z) in Ez, Tz. fold q in Ez, Tz.
  assert (PX := cheb_err_nonneg m kx K0). assert (PY := cheb_err_nonneg n ky K1). assert (PZ := cheb_err_nonneg p kz K2).
  set (Si := fun i => bsum (n + 1) (fun j => bsum (p + 1) (fun k => Rabs (dvalue (a k i j))))) in *.
  assert (S0 : forall i, 0 <= Si i) by (intros; apply bsum_nonneg; intros; apply bsum_nonneg; intros; apply Rabs_pos).
  assert (B0 : 0 <= S) by (apply bsum_nonneg; intros; apply S0).
  unfold err in HE |- *. assert (RB := cheb_terms m kx K0 ltac:(lra)). assert (RN := cheb_terms n ky K1 ltac:(lra)). assert (P9 := bpow_gt_0 radix2 (-900)). fold tiny in P9.
  assert (NN : 1 <= INR (m + 1) * INR (n + 1) <= bpow radix2 53 * bpow radix2 53) by (split; [replace 1 with (1 * 1) by ring|]; apply Rmult_le_compat; lra).
  set (F := S + INR (m + 1) * INR (n + 1) * tiny).
  assert (HF : mod9 F) by (apply mod9_floor; [lra|]; split; [lra|]; apply Rle_trans with (1 := proj2 NN); rewrite <- bpow_plus; apply bpow_le; discriminate).
  destruct (moderate_big _ HF) as (F0 & _).
  set (eyz := cheb_err n ky + cheb_err p kz). assert (EY0 : 0 <= eyz) by (unfold eyz; lra).
  assert (SF : bsum (m + 1) (fun i => Si i + INR (n + 1) * tiny) = F) by (rewrite bsum_plus, bsum_const; unfold F, S; ring).
  assert (BEq : bsum (m + 1) (fun i => eyz * (Si i + INR (n + 1) * tiny)) = eyz * F) by (rewrite bsum_scal, SF; reflexivity).
  assert (H2 : (cheb_err m kx + eyz) * F <= / 2 * F) by (apply Rmult_le_compat_r; [lra|]; unfold eyz; lra).
  destruct (cl_near m (fun i => clenshaw_sum n (fun j => clenshaw_sum p (fun k => a k i j) (to_unit az z)) (to_unit ay y)) (to_unit ax x) u
     (fun i => bsum (n + 1) (fun j => bsum (p + 1) (fun k => dvalue (a k i j) * cheb k q) * cheb j w)) (fun i => eyz * (Si i + INR (n + 1) * tiny)) kx F) as (Fv & Ev); auto.
  - intros i Hi. apply (cl2_near n p (fun j k => a k i j)); auto; [|unfold eyz in *; lra].
    apply Rle_trans with (2 := HS). apply (bsum_single (m + 1) Si i); [lia|exact S0].
  - apply Rle_trans with S; [|unfold F; assert (0 <= INR (m + 1) * INR (n + 1) * tiny) by (apply Rmult_le_pos; lra); lra].
    apply bsum_le. intros i _. apply Rle_trans with (1 := cheb_sum_abs _ _ _ Ty). apply bsum_le. intros j _. apply cheb_sum_abs, Tz.
  - rewrite BEq. lra.
  - rewrite BEq in Ev. split; [exact Fv|]. apply Rle_trans with (1 := Ev). unfold eyz. fold F. lra.
Qed.

(** ** Concrete cases *)
Ltac vz := repeat match goal with |- context [dvalue (f64_ofZ ?z)] => change (dvalue (f64_ofZ z)) with (val (f64_ofZ z)); rewrite (proj2 (ofZ_ok z ltac:(reflexivity))) end.
Lemma fin_ofZ z : (Z.abs z < 2 ^ 53)%Z -> is_finite (f64_ofZ z) = true.
Proof. intros H. exact (proj1 (ofZ_ok z H)). Qed.
Lemma one_huge : 1000 <= huge.
Proof. apply Rle_trans with (bpow radix2 10); [simpl; lra|apply bpow_le; discriminate]. Qed.
Lemma tiny_small : tiny <= 1.
Proof. unfold tiny. change 1 with (bpow radix2 0). apply bpow_le. discriminate. Qed.
Lemma ex_axis_cond : axis_cond (axis_values (Closed (f64_ofZ 1) (f64_ofZ 5))) = 41 / 4.
Proof. cbn [axis_values axis_cond]. vz. rewrite (Rabs_pos_eq 1), (Rabs_pos_eq 5), Rmax_right by lra. field. Qed.
Lemma ex_usable : usable (Closed (f64_ofZ 1) (f64_ofZ 5)) (f64_ofZ 4).
Proof.
  unfold usable. cbn [axis_finite axis_values on_axis axis_moderate]. vz. rewrite !fin_ofZ by reflexivity. rewrite (Rabs_pos_eq 1), (Rabs_pos_eq 5), Rmax_right by lra.
  split; [split; reflexivity|]. split; [reflexivity|]. split; [lra|]. split.
  - apply Rle_trans with (bpow radix2 3); [simpl; lra|apply bpow_le; discriminate].
  - apply Rle_trans with (bpow radix2 0); [apply bpow_le; discriminate|simpl; lra].
Qed.
Lemma ex_unit : unit_of (axis_values (Closed (f64_ofZ 1) (f64_ofZ 5))) (dvalue (f64_ofZ 4)) = / 2.
Proof. cbn [axis_values unit_of]. vz. unfold segment_unit. field. Qed.

Lemma ex_power1 : exists v, ps1_evaluate (mkPS1 (map f64_ofZ [1; 2; 3]%Z) (Closed (f64_ofZ 1) (f64_ofZ 5))) (f64_ofZ 4) = Ok v /\
  Rabs (dvalue v - 11 / 4) <= / 1000000000000.
Proof.
  assert (U := u_tiny). assert (H := one_huge). assert (T := tiny_small).
  assert (VS : vec_sum (map f64_ofZ [1; 2; 3]%Z) = 6).
  { unfold vec_sum, dvalues. cbn [length map bsum nth]. vz. rewrite !Rabs_pos_eq by lra. ring. }
  assert (PE : power_err 3 (41 / 4) = 61 * u53) by (unfold power_err; change uround with u53; simpl; field).
  destruct (ps1_double_lemma (Closed (f64_ofZ 1) (f64_ofZ 5)) (map f64_ofZ [1; 2; 3]%Z) (f64_ofZ 4) ex_usable) as (v & E & _ & Ev).
  - discriminate.
  - unfold all_finite. cbn [map]. repeat constructor; apply fin_ofZ; reflexivity.
  - rewrite VS. lra.
  - rewrite ex_axis_cond. change uround with u53. lra.
  - rewrite ex_axis_cond. cbn [map length]. rewrite PE. lra.
  - exists v. split; [exact E|]. rewrite ex_axis_cond, VS, ex_unit in Ev. cbn [map length] in Ev. rewrite PE in Ev.
    replace (poly (dvalues [f64_ofZ 1; f64_ofZ 2; f64_ofZ 3]) (/ 2)) with (11 / 4) in Ev; [|unfold poly, dvalues; cbn [length map bsum nth]; vz; simpl; field].
    apply Rle_trans with (1 := Ev). assert (0 < tiny) by apply bpow_gt_0. apply Rle_trans with (61 * u53 * 7); [apply Rmult_le_compat_l; lra|]. lra.
Qed.

Lemma ex_cheb1 : forall f,
  Rabs (dvalue (cs1_evaluate (mkCS1 f (Closed (f64_ofZ 1) (f64_ofZ 5)) 2 (fun i => f64_ofZ (Z.of_nat i + 1))) (f64_ofZ 4)) - / 2) <= / 100000000000.
Proof.
  intros f. assert (U := u_tiny). assert (H := one_huge). assert (T := tiny_small). set (a := fun i : nat => f64_ofZ (Z.of_nat i + 1)).
  assert (VS : bsum (2 + 1) (fun i => Rabs (dvalue (a i))) = 6).
  { unfold a. cbn [Nat.add bsum Z.of_nat Pos.of_succ_nat Pos.succ Z.add Pos.add]. vz. rewrite !Rabs_pos_eq by lra. ring. }
  assert (PE : cheb_err 2 (41 / 4) = 366 * u53) by (unfold cheb_err; change uround with u53; simpl; field).
  destruct (cs1_double_lemma f (Closed (f64_ofZ 1) (f64_ofZ 5)) 2 a (f64_ofZ 4) ex_usable) as (_ & Ev).
  - intros i Hi. unfold a. apply fin_ofZ. lia.
  - rewrite VS. lra.
  - rewrite ex_axis_cond. change uround with u53. lra.
  - rewrite ex_axis_cond, PE. lra.
  - rewrite ex_axis_cond, VS, ex_unit, PE in Ev.
    replace (bsum (2 + 1) (fun i => dvalue (a i) * cheb i (/ 2))) with (/ 2) in Ev;
      [|unfold a; cbn [Nat.add bsum Z.of_nat Pos.of_succ_nat Pos.succ Z.add Pos.add]; vz; simpl; field].
    apply Rle_trans with (1 := Ev). assert (0 < tiny) by apply bpow_gt_0. apply Rle_trans with (366 * u53 * 7); [apply Rmult_le_compat_l; lra|]. lra.
Qed.

Lemma ex_usable_o : usable (Opened (f64_ofZ 1)) (f64_ofZ 4).
Proof.
  unfold usable. cbn [axis_finite axis_values on_axis axis_moderate]. vz. rewrite !fin_ofZ by reflexivity.
  split; [reflexivity|]. split; [reflexivity|]. split; [lra|exact I].
Qed.
Lemma ex_power2 : exists v,
  ps2_evaluate Release (mkPS2 (mkMat 2 2 (fun i j => f64_ofZ (Z.of_nat (2 * i + j)))) (Closed (f64_ofZ 1) (f64_ofZ 5)) (Opened (f64_ofZ 1))) (f64_ofZ 4) (f64_ofZ 4) = Ok v /\
  Rabs (dvalue v - 9 / 4) <= / 1000000000000.
Proof.
  assert (U := u_tiny). assert (H := one_huge). assert (T := tiny_small). set (A := mkMat 2 2 (fun i j => f64_ofZ (Z.of_nat (2 * i + j)))).
  assert (VS : mat_sum A = 6).
  { unfold mat_sum, A. cbn [m_rows m_cols m_at bsum]. simpl Z.of_nat. vz. rewrite !Rabs_pos_eq by lra. ring. }
  assert (P1 : power_err 2 (41 / 4) = 61 / 2 * u53) by (unfold power_err; change uround with u53; simpl; field).
  assert (P2 : power_err 2 4 = 18 * u53) by (unfold power_err; change uround with u53; simpl; field).
  destruct (ps2_double_lemma Release (Closed (f64_ofZ 1) (f64_ofZ 5)) (Opened (f64_ofZ 1)) A (f64_ofZ 4) (f64_ofZ 4) ex_usable ex_usable_o) as (v & E & _ & Ev).
  - cbn. lia.
  - cbn. lia.
  - intros i j Hi Hj. cbn [A m_at m_rows m_cols] in *. apply fin_ofZ. lia.
  - rewrite VS. lra.
  - rewrite ex_axis_cond. change uround with u53. lra.
  - cbn [axis_values axis_cond]. change uround with u53. lra.
  - rewrite ex_axis_cond. cbn [axis_values axis_cond m_rows m_cols A]. rewrite P1, P2. lra.
  - exists v. split; [exact E|]. rewrite ex_axis_cond, VS, ex_unit in Ev. cbn [axis_values axis_cond] in Ev. change (m_rows A) with 2%nat in Ev. change (m_cols A) with 2%nat in Ev. rewrite P1, P2 in Ev.
    replace (mat_poly A (/ 2) (unit_of (Opened (dvalue (f64_ofZ 1))) (dvalue (f64_ofZ 4)))) with (9 / 4) in Ev.
    + apply Rle_trans with (1 := Ev). assert (0 < tiny) by apply bpow_gt_0. change (INR 2) with 2. apply Rle_trans with ((61 / 2 * u53 + 18 * u53) * 8); [apply Rmult_le_compat_l; lra|]. lra.
    + cbn [unit_of]. vz. unfold halfline_unit, mat_poly, A. cbn [m_rows m_cols m_at bsum]. simpl Z.of_nat. vz. simpl. field.
Qed.

Lemma short_refuted_pf : exists (a : axis f64) (b : list f64) x v, usable a x /\ all_finite b /\ vec_sum b = 1 /\
  ps1_evaluate (mkPS1 b a) x = Ok v /\ dvalue v = 0 /\ poly (dvalues b) (unit_of (axis_values a) (dvalue x)) = -1.
Proof.
  set (lo := f64_ofZ 4503599627370496). set (hi := f64_ofZ 4503599627370497).
  assert (VL : dvalue lo = 4503599627370496) by exact (proj2 (ofZ_ok 4503599627370496 ltac:(reflexivity))).
  assert (VH : dvalue hi = 4503599627370497) by exact (proj2 (ofZ_ok 4503599627370497 ltac:(reflexivity))).
  exists (Closed lo hi), [f64_ofZ 0; f64_ofZ 1], lo.
  destruct (ps1_evaluate (mkPS1 [f64_ofZ 0; f64_ofZ 1] (Closed lo hi)) lo) as [v| | | |] eqn:E; try (vm_compute in E; discriminate).
  exists v. split; [|split; [|split; [|split; [reflexivity|split]]]].
  - unfold usable. cbn [axis_finite axis_values on_axis axis_moderate]. rewrite VL, VH. unfold lo, hi. rewrite !fin_ofZ by reflexivity.
    rewrite !Rabs_pos_eq, Rmax_right by lra. split; [split; reflexivity|]. split; [reflexivity|]. split; [lra|]. split.
    + apply Rle_trans with (bpow radix2 60); [simpl; lra|apply bpow_le; discriminate].
    + apply Rle_trans with (bpow radix2 0); [apply bpow_le; discriminate|simpl; lra].
  - unfold all_finite. repeat constructor; apply fin_ofZ; reflexivity.
  - unfold vec_sum, dvalues. cbn [length map bsum nth]. vz. rewrite !Rabs_pos_eq by lra. ring.
  - assert (Z : match ps1_evaluate (mkPS1 [f64_ofZ 0; f64_ofZ 1] (Closed lo hi)) lo with Ok w => B2SF w = SpecFloat.S754_zero false | _ => False end) by (vm_compute; reflexivity).
    rewrite E in Z. unfold dvalue. rewrite <- SF2R_B2SF, Z. reflexivity.
  - cbn [axis_values unit_of]. rewrite VL, VH. unfold segment_unit, poly, dvalues. cbn [length map bsum nth]. vz. simpl. field.
Qed.

Lemma ex_axis_cond_o : axis_cond (axis_values (Opened (f64_ofZ 1))) = 4.
Proof. reflexivity. Qed.
Lemma ex_unit_o : unit_of (axis_values (Opened (f64_ofZ 1))) (dvalue (f64_ofZ 4)) = / 2.
Proof. cbn [axis_values unit_of]. vz. unfold halfline_unit. field. Qed.

Lemma ex_power3 : exists s v,
  ps3_make [mkMat 2 2 (fun i j => f64_ofZ (Z.of_nat (2 * i + j))); mkMat 2 2 (fun i j => f64_ofZ (Z.of_nat (i + j)))]
    (Closed (f64_ofZ 1) (f64_ofZ 5)) (Opened (f64_ofZ 1)) (Opened (f64_ofZ 1)) = Ok s /\
  ps3_evaluate Release s (f64_ofZ 4) (f64_ofZ 4) (f64_ofZ 4) = Ok v /\
  Rabs (dvalue v - 3) <= / 1000000000000.
Proof.
  assert (U := u_tiny). assert (H := one_huge). assert (T := tiny_small).
  set (A := mkMat 2 2 (fun i j => f64_ofZ (Z.of_nat (2 * i + j)))). set (A' := mkMat 2 2 (fun i j => f64_ofZ (Z.of_nat (i + j)))).
  assert (VS : box_sum [A; A'] = 10).
  { unfold box_sum, mat_sum, A, A'. cbn [length nth m_rows m_cols m_at bsum]. simpl Z.of_nat. vz. rewrite !Rabs_pos_eq by lra. ring. }
  assert (P1 : power_err 2 (41 / 4) = 61 / 2 * u53) by (unfold power_err; change uround with u53; simpl; field).
  assert (P2 : power_err 2 4 = 18 * u53) by (unfold power_err; change uround with u53; simpl; field).
  set (s := mkPS3 [A; A'] 2 2 (Closed (f64_ofZ 1) (f64_ofZ 5)) (Opened (f64_ofZ 1)) (Opened (f64_ofZ 1))).
  destruct (ps3_double_lemma Release (Closed (f64_ofZ 1) (f64_ofZ 5)) (Opened (f64_ofZ 1)) (Opened (f64_ofZ 1)) [A; A'] 2 2 s (f64_ofZ 4) (f64_ofZ 4) (f64_ofZ 4) ex_usable ex_usable_o ex_usable_o) as (v & E & _ & Ev).
  - lia.
  - lia.
  - discriminate.
  - intros [|[|k]] Hk; [| |simpl in Hk; lia]; cbn [nth]; (split; [reflexivity|split; [reflexivity|]]); intros i j Hi Hj; cbn [A A' m_at m_rows m_cols] in *; apply fin_ofZ; lia.
  - rewrite VS. lra.
  - reflexivity.
  - rewrite ex_axis_cond. change uround with u53. lra.
  - rewrite ex_axis_cond_o. change uround with u53. lra.
  - rewrite ex_axis_cond_o. change uround with u53. lra.
  - rewrite ex_axis_cond, ex_axis_cond_o. cbn [length]. rewrite P1, P2. lra.
  - exists s, v. split; [reflexivity|]. split; [exact E|]. rewrite ex_axis_cond, ex_axis_cond_o, VS, ex_unit, ex_unit_o in Ev. cbn [length] in Ev. rewrite P1, P2 in Ev.
    replace (box_poly [A; A'] (/ 2) (/ 2) (/ 2)) with 3 in Ev.
    + apply Rle_trans with (1 := Ev). assert (0 < tiny) by apply bpow_gt_0. change (INR 2) with 2. apply Rle_trans with ((61 / 2 * u53 + 18 * u53 + 18 * u53) * 14); [apply Rmult_le_compat_l; lra|]. lra.
    + unfold box_poly, mat_poly, A, A'. cbn [length nth m_rows m_cols m_at bsum]. simpl Z.of_nat. vz. simpl. field.
Qed.

Lemma ex_cheb2 : forall f,
  Rabs (dvalue (cs2_evaluate (mkCS2 f (Closed (f64_ofZ 1) (f64_ofZ 5)) (Opened (f64_ofZ 1)) 1 2 (fun i j => f64_ofZ (Z.of_nat (2 * i + j)))) (f64_ofZ 4) (f64_ofZ 4)) - / 4) <= / 100000000000.
Proof.
  intros f. assert (U := u_tiny). assert (H := one_huge). assert (T := tiny_small). set (a := fun i j : nat => f64_ofZ (Z.of_nat (2 * i + j))).
  assert (VS : bsum (1 + 1) (fun i => bsum (2 + 1) (fun j => Rabs (dvalue (a i j)))) = 12).
  { unfold a. cbn [Nat.add bsum]. simpl Z.of_nat. vz. rewrite !Rabs_pos_eq by lra. ring. }
  assert (P1 : cheb_err 1 (41 / 4) = 122 * u53) by (unfold cheb_err; change uround with u53; simpl; field).
  assert (P2 : cheb_err 2 4 = 216 * u53) by (unfold cheb_err; change uround with u53; simpl; field).
  destruct (cs2_double_lemma f (Closed (f64_ofZ 1) (f64_ofZ 5)) (Opened (f64_ofZ 1)) 1 2 a (f64_ofZ 4) (f64_ofZ 4) ex_usable ex_usable_o) as (_ & Ev).
  - intros i j Hi Hj. unfold a. apply fin_ofZ. lia.
  - rewrite VS. lra.
  - rewrite ex_axis_cond. change uround with u53. lra.
  - rewrite ex_axis_cond_o. change uround with u53. lra.
  - rewrite ex_axis_cond, ex_axis_cond_o, P1, P2. lra.
  - rewrite ex_axis_cond, ex_axis_cond_o, VS, ex_unit, ex_unit_o, P1, P2 in Ev.
    replace (bsum (1 + 1) (fun i => bsum (2 + 1) (fun j => dvalue (a i j) * cheb j (/ 2)) * cheb i (/ 2))) with (/ 4) in Ev.
    + apply Rle_trans with (1 := Ev). assert (0 < tiny) by apply bpow_gt_0. change (INR (1 + 1)) with 2. apply Rle_trans with ((122 * u53 + 216 * u53) * 14); [apply Rmult_le_compat_l; lra|]. lra.
    + unfold a. cbn [Nat.add bsum]. simpl Z.of_nat. vz. simpl. field.
Qed.

Lemma ex_cheb3 : forall f,
  Rabs (dvalue (cs3_evaluate (mkCS3 f (Closed (f64_ofZ 1) (f64_ofZ 5)) (Opened (f64_ofZ 1)) (Opened (f64_ofZ 1)) 1 1 1 (fun k i j => f64_ofZ (Z.of_nat (2 * i + j + k * i)))) (f64_ofZ 4) (f64_ofZ 4) (f64_ofZ 4)) - 15 / 4) <= / 100000000000.
Proof.
  intros f. assert (U := u_tiny). assert (H := one_huge). assert (T := tiny_small). set (a := fun k i j : nat => f64_ofZ (Z.of_nat (2 * i + j + k * i))).
  assert (VS : bsum (1 + 1) (fun i => bsum (1 + 1) (fun j => bsum (1 + 1) (fun k => Rabs (dvalue (a k i j))))) = 14).
  { unfold a. cbn [Nat.add bsum]. simpl Z.of_nat. vz. rewrite !Rabs_pos_eq by lra. ring. }
  assert (P1 : cheb_err 1 (41 / 4) = 122 * u53) by (unfold cheb_err; change uround with u53; simpl; field).
  assert (P2 : cheb_err 1 4 = 72 * u53) by (unfold cheb_err; change uround with u53; simpl; field).
  destruct (cs3_double_lemma f (Closed (f64_ofZ 1) (f64_ofZ 5)) (Opened (f64_ofZ 1)) (Opened (f64_ofZ 1)) 1 1 1 a (f64_ofZ 4) (f64_ofZ 4) (f64_ofZ 4) ex_usable ex_usable_o ex_usable_o) as (_ & Ev).
  - intros k i j Hk Hi Hj. unfold a. apply fin_ofZ. assert (k * i <= 1)%nat by nia. lia.
  - rewrite VS. lra.
  - rewrite ex_axis_cond. change uround with u53. lra.
  - rewrite ex_axis_cond_o. change uround with u53. lra.
  - rewrite ex_axis_cond_o. change uround with u53. lra.
  - rewrite ex_axis_cond, ex_axis_cond_o, P1, P2. lra.
  - rewrite ex_axis_cond, ex_axis_cond_o, VS, ex_unit, ex_unit_o, P1, P2 in Ev.
    replace (bsum (1 + 1) (fun i => bsum (1 + 1) (fun j => bsum (1 + 1) (fun k => dvalue (a k i j) * cheb k (/ 2)) * cheb j (/ 2)) * cheb i (/ 2))) with (15 / 4) in Ev.
    + apply Rle_trans with (1 := Ev). assert (0 < tiny) by apply bpow_gt_0. change (INR (1 + 1)) with 2. apply Rle_trans with ((122 * u53 + 72 * u53 + 72 * u53) * 18); [apply Rmult_le_compat_l; lra|]. lra.
    + unfold a. cbn [Nat.add bsum]. simpl Z.of_nat. vz. simpl. field.
Qed.
