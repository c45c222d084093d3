(** The 1D interpolation in binary64. *)
From Coq Require Import List Arith ZArith Reals Bool Lia Lra Psatz.
From Flocq Require Import Core.Core IEEE754.BinarySingleNaN.
From Verif Require Import Outcome Num NumFun F64 L_F64 L_Linspace64 L_F64Err StdAlgo M_Interp1d S_Interp1d L_Search L_Interp1d
  S_Angles S_Double L_Series64.
Import ListNotations.
Local Open Scope R_scope.

Notation f0 := (f64_ofZ 0).
Notation "x -! y" := (Bminus mode_NE x y) (at level 50, left associativity).
Notation "x +! y" := (Bplus mode_NE x y) (at level 50, left associativity).
Notation "x *! y" := (Bmult mode_NE x y) (at level 40, left associativity).
Notation "x /! y" := (Bdiv mode_NE x y) (at level 40, left associativity).

(** ** One cell *)
Definition chordv (x0 y0 x1 y1 x : R) : R := y0 + (y1 - y0) * ((x - x0) / (x1 - x0)).

Section Cell.
Context (x0 y0 x1 y1 x : f64).
Let D := val x1 - val x0.
Let Y := Rabs (val y0) + Rabs (val y1).
Let M := Rmax (Rabs (val x0)) (Rabs (val x1)).
Let fa := (y1 -! y0) /! (x1 -! x0).
Let fb := ((y0 *! x1) -! (x0 *! y1)) /! (x1 -! x0).
Let v := fa *! x +! fb.
Hypothesis Fx0 : is_finite x0 = true.
Hypothesis Fx1 : is_finite x1 = true.
Hypothesis HD : 0 < D <= fmax64.
Hypothesis Hx : val x0 <= val x <= val x1.

Lemma u_small : 0 < u53 <= / 1000000.
Proof. unfold u53. split; [apply Rinv_0_lt_compat, pow_lt; lra|]. apply Rinv_le_contravar; [lra|]. simpl. lra. Qed.

Lemma cY : 0 <= Y.
Proof. unfold Y. assert (A := Rabs_pos (val y0)). assert (B := Rabs_pos (val y1)). lra. Qed.
Lemma cM0 : Rabs (val x0) <= M. Proof. apply Rmax_l. Qed.
Lemma cM1 : Rabs (val x1) <= M. Proof. apply Rmax_r. Qed.
Lemma cMx : Rabs (val x) <= M.
Proof.
  assert (A := cM0). assert (B := cM1). apply Rabs_le_inv in A. apply Rabs_le_inv in B. apply Rabs_le. lra.
Qed.
Lemma cDM : D <= 2 * M.
Proof. assert (A := cM0). assert (B := cM1). apply Rabs_le_inv in A. apply Rabs_le_inv in B. unfold D. lra. Qed.
Lemma cM : 0 < M.
Proof. assert (A := cDM). lra. Qed.

Lemma cD : is_finite (x1 -! x0) = true /\ D * (1 - u53) <= val (x1 -! x0) <= D * (1 + u53).
Proof.
  assert (P := bpow_gt_0 radix2 969).
  destruct (minus_ok x1 x0 Fx1 Fx0) as [F E].
  { fold D. rewrite Rabs_pos_eq by lra. lra. }
  split; auto. assert (G := minus_err x1 x0 F). fold D in G. rewrite (Rabs_pos_eq D) in G by lra.
  apply Rabs_le_inv in G. lra.
Qed.

(** Dividing by the rounded width. *)
Lemma quot_err (n' n e : R) (N : R) : Rabs (n' - n) <= e -> Rabs n <= N ->
  Rabs (n' / val (x1 -! x0) - n / D) <= (e + u53 * N) / (D * (1 - u53)).
Proof.
  intros He HN. destruct cD as [_ HD']. set (d := val (x1 -! x0)) in *. assert (U := u_small).
  assert (Hd0 : 0 < D * (1 - u53)) by (apply Rmult_lt_0_compat; lra).
  assert (Hd : 0 < d) by lra.
  replace (n' / d - n / D) with (((n' - n) + n * ((D - d) / D)) / d) by (field; lra).
  unfold Rdiv at 1. rewrite Rabs_mult, (Rabs_pos_eq (/ d)) by (left; apply Rinv_0_lt_compat; lra).
  apply Rmult_le_compat; [apply Rabs_pos|left; apply Rinv_0_lt_compat; lra| |apply Rinv_le_contravar; lra].
  eapply Rle_trans; [apply Rabs_triang|]. apply Rplus_le_compat; [auto|].
  rewrite Rabs_mult, Rmult_comm. apply Rmult_le_compat; [apply Rabs_pos|apply Rabs_pos| |auto].
  unfold Rdiv. rewrite Rabs_mult, (Rabs_pos_eq (/ D)) by (left; apply Rinv_0_lt_compat; lra).
  apply Rmult_le_reg_r with D; [lra|]. rewrite Rmult_assoc, Rinv_l, Rmult_1_r by lra. apply Rabs_le. lra.
Qed.

Lemma over_D a b k : 0 <= k -> a <= b * (1 - u53) -> a / (D * (1 - u53)) <= b / D.
Proof.
  intros _ H. assert (U := u_small). apply Rmult_le_reg_r with (D * (1 - u53)); [apply Rmult_lt_0_compat; lra|].
  replace (a / (D * (1 - u53)) * (D * (1 - u53))) with a by (field; lra).
  replace (b / D * (D * (1 - u53))) with (b * (1 - u53)) by (field; lra). exact H.
Qed.

Lemma chord_coef : chordv (val x0) (val y0) (val x1) (val y1) (val x) =
  (val y1 - val y0) / D * val x + (val y0 * val x1 - val x0 * val y1) / D.
Proof. unfold chordv, D. field. fold D. lra. Qed.

Lemma chord_bound : Rabs (chordv (val x0) (val y0) (val x1) (val y1) (val x)) <= Y.
Proof.
  unfold chordv. fold D. set (t := (val x - val x0) / D).
  assert (T : 0 <= t <= 1).
  { unfold t. split; apply Rmult_le_reg_r with D; try lra.
    - unfold Rdiv. rewrite Rmult_assoc, Rinv_l by lra. lra.
    - unfold Rdiv. rewrite Rmult_assoc, Rinv_l by lra. unfold D. lra. }
  replace (val y0 + (val y1 - val y0) * t) with ((1 - t) * val y0 + t * val y1) by ring.
  eapply Rle_trans; [apply Rabs_triang|]. rewrite !Rabs_mult, (Rabs_pos_eq t), (Rabs_pos_eq (1 - t)) by lra.
  unfold Y. assert (A := Rabs_pos (val y0)). assert (B := Rabs_pos (val y1)). nra.
Qed.

(** The exact numerators and the errors of the computed ones. *)
Lemma num_a : is_finite (y1 -! y0) = true ->
  Rabs (val (y1 -! y0) - (val y1 - val y0)) <= u53 * Y /\ Rabs (val y1 - val y0) <= Y.
Proof.
  intros F. assert (E := minus_err y1 y0 F). assert (U := u_small).
  assert (B : Rabs (val y1 - val y0) <= Y).
  { unfold Y. rewrite Rplus_comm, <- (Rabs_Ropp (val y0)). apply Rabs_triang. }
  split; auto. eapply Rle_trans; [exact E|]. apply Rmult_le_compat_l; lra.
Qed.

Lemma num_b : is_finite (y0 *! x1 -! x0 *! y1) = true ->
  Rabs (val (y0 *! x1 -! x0 *! y1) - (val y0 * val x1 - val x0 * val y1)) <= 201 / 100 * u53 * (Y * M) + 3 * eta64 /\
  Rabs (val y0 * val x1 - val x0 * val y1) <= Y * M.
Proof.
  intros F. assert (U := u_small). assert (Q := eta64_pos). assert (HY := cY). assert (HM := cM).
  assert (E := minus_err _ _ F). destruct (fin_minus _ _ F) as (F1 & F2 & _).
  assert (E1 := mult_err _ _ F1). assert (E2 := mult_err _ _ F2).
  set (p := val (y0 *! x1)) in *. set (q := val (x0 *! y1)) in *. set (w := val (_ -! _)) in *.
  set (p' := val y0 * val x1) in *. set (q' := val x0 * val y1) in *.
  assert (P1 : Rabs p' <= Rabs (val y0) * M).
  { unfold p'. rewrite Rabs_mult. apply Rmult_le_compat_l; [apply Rabs_pos|apply cM1]. }
  assert (P2 : Rabs q' <= Rabs (val y1) * M).
  { unfold q'. rewrite Rabs_mult, Rmult_comm. apply Rmult_le_compat_l; [apply Rabs_pos|apply cM0]. }
  assert (P3 : Rabs p' + Rabs q' <= Y * M) by (unfold Y; lra).
  assert (B : Rabs (p' - q') <= Y * M).
  { eapply Rle_trans; [apply Rabs_triang|]. rewrite Rabs_Ropp. lra. }
  split; auto.
  assert (YM : 0 <= Y * M) by (apply Rmult_le_pos; lra).
  assert (T1 : Rabs ((p - q) - (p' - q')) <= u53 * (Y * M) + 2 * eta64).
  { replace ((p - q) - (p' - q')) with ((p - p') + - (q - q')) by ring.
    eapply Rle_trans; [apply Rabs_triang|]. rewrite Rabs_Ropp. 
    assert (u53 * (Rabs p' + Rabs q') <= u53 * (Y * M)) by (apply Rmult_le_compat_l; lra). lra. }
  assert (T2 : Rabs (p - q) <= (1 + u53) * (Y * M) + 2 * eta64).
  { replace (p - q) with (((p - q) - (p' - q')) + (p' - q')) by ring. eapply Rle_trans; [apply Rabs_triang|]. lra. }
  replace (w - (p' - q')) with ((w - (p - q)) + ((p - q) - (p' - q'))) by ring.
  eapply Rle_trans; [apply Rabs_triang|].
  assert (u53 * Rabs (p - q) <= u53 * ((1 + u53) * (Y * M) + 2 * eta64)) by (apply Rmult_le_compat_l; lra).
  assert (u53 * eta64 <= / 1000000 * eta64) by (apply Rmult_le_compat_r; lra).
  assert (u53 * (u53 * (Y * M)) <= / 1000000 * (u53 * (Y * M))).
  { apply Rmult_le_compat_r; [|lra]. apply Rmult_le_pos; lra. }
  assert (0 <= u53 * (Y * M)) by (apply Rmult_le_pos; lra). lra.
Qed.

Lemma coef_a_err : is_finite fa = true ->
  Rabs (val fa - (val y1 - val y0) / D) <= 301 / 100 * u53 * (Y / D) + eta64 /\
  Rabs (val fa) <= 101 / 100 * (Y / D) + eta64.
Proof.
  intros F. destruct cD as [Fd Hd]. assert (E := div_err _ _ Fd F). destruct (fin_div _ _ Fd F) as (Fn & _ & _).
  fold fa in E. destruct (num_a Fn) as [N1 N2]. assert (U := u_small). assert (Q := eta64_pos). assert (HY := cY).
  assert (K := quot_err _ _ _ _ N1 N2). set (q := val (y1 -! y0) / val (x1 -! x0)) in *. set (a := (val y1 - val y0) / D) in *.
  assert (YD : 0 <= Y / D) by (apply Rmult_le_pos; [lra|left; apply Rinv_0_lt_compat; lra]).
  assert (K' : Rabs (q - a) <= 2001 / 1000 * u53 * (Y / D)).
  { eapply Rle_trans; [exact K|]. replace (2001 / 1000 * u53 * (Y / D)) with ((2001 / 1000 * u53 * Y) / D) by (field; lra).
    apply over_D with 0; [lra|]. assert (0 <= u53 * Y) by (apply Rmult_le_pos; lra). nra. }
  assert (A : Rabs a <= Y / D).
  { unfold a, Rdiv. rewrite Rabs_mult, (Rabs_pos_eq (/ D)) by (left; apply Rinv_0_lt_compat; lra).
    apply Rmult_le_compat_r; [left; apply Rinv_0_lt_compat; lra|auto]. }
  assert (QB : Rabs q <= (1 + 2001 / 1000 * u53) * (Y / D)).
  { replace q with ((q - a) + a) by ring. eapply Rle_trans; [apply Rabs_triang|]. lra. }
  assert (UQ : u53 * Rabs q <= 1001 / 1000 * u53 * (Y / D)).
  { eapply Rle_trans; [apply Rmult_le_compat_l; [lra|exact QB]|]. 
    replace (1001 / 1000 * u53 * (Y / D)) with (u53 * (1001 / 1000 * (Y / D))) by ring.
    apply Rmult_le_compat_l; [lra|]. apply Rmult_le_compat_r; lra. }
  assert (UY : u53 * (Y / D) <= / 1000000 * (Y / D)) by (apply Rmult_le_compat_r; lra).
  assert (UY0 : 0 <= u53 * (Y / D)) by (apply Rmult_le_pos; lra).
  assert (T1 : Rabs (val fa - a) <= 301 / 100 * u53 * (Y / D) + eta64).
  { replace (val fa - a) with ((val fa - q) + (q - a)) by ring. eapply Rle_trans; [apply Rabs_triang|]. lra. }
  split; auto. replace (val fa) with ((val fa - a) + a) by ring. eapply Rle_trans; [apply Rabs_triang|]. lra.
Qed.

Lemma coef_b_err : is_finite fb = true ->
  Rabs (val fb - (val y0 * val x1 - val x0 * val y1) / D) <= 403 / 100 * u53 * (Y * M / D) + 302 / 100 * (eta64 / D) + eta64.
Proof.
  intros F. destruct cD as [Fd Hd]. assert (E := div_err _ _ Fd F). destruct (fin_div _ _ Fd F) as (Fn & _ & _).
  fold fb in E. destruct (num_b Fn) as [N1 N2]. assert (U := u_small). assert (Q := eta64_pos). assert (HY := cY). assert (HM := cM).
  assert (K := quot_err _ _ _ _ N1 N2). set (q := val (y0 *! x1 -! x0 *! y1) / val (x1 -! x0)) in *.
  set (b := (val y0 * val x1 - val x0 * val y1) / D) in *.
  assert (ID : 0 < / D) by (apply Rinv_0_lt_compat; lra).
  assert (YM : 0 <= Y * M) by (apply Rmult_le_pos; lra).
  assert (YD : 0 <= Y * M / D) by (apply Rmult_le_pos; lra).
  assert (QD : 0 <= eta64 / D) by (apply Rmult_le_pos; lra).
  assert (K' : Rabs (q - b) <= 302 / 100 * u53 * (Y * M / D) + 301 / 100 * (eta64 / D)).
  { eapply Rle_trans; [exact K|].
    replace (302 / 100 * u53 * (Y * M / D) + 301 / 100 * (eta64 / D)) with ((302 / 100 * u53 * (Y * M) + 301 / 100 * eta64) / D) by (field; lra).
    apply over_D with 0; [lra|]. assert (0 <= u53 * (Y * M)) by (apply Rmult_le_pos; lra). nra. }
  assert (B : Rabs b <= Y * M / D).
  { unfold b, Rdiv. rewrite Rabs_mult, (Rabs_pos_eq (/ D)) by lra. apply Rmult_le_compat_r; [lra|auto]. }
  assert (QB : Rabs q <= 1001 / 1000 * (Y * M / D) + 301 / 100 * (eta64 / D)).
  { replace q with ((q - b) + b) by ring. eapply Rle_trans; [apply Rabs_triang|].
    assert (u53 * (Y * M / D) <= / 1000000 * (Y * M / D)) by (apply Rmult_le_compat_r; lra). lra. }
  assert (UQ : u53 * Rabs q <= u53 * (1001 / 1000 * (Y * M / D) + 301 / 100 * (eta64 / D))) by (apply Rmult_le_compat_l; lra).
  assert (u53 * (eta64 / D) <= / 1000000 * (eta64 / D)) by (apply Rmult_le_compat_r; lra).
  replace (val fb - b) with ((val fb - q) + (q - b)) by ring. eapply Rle_trans; [apply Rabs_triang|].
  assert (0 <= u53 * (Y * M / D)) by (apply Rmult_le_pos; lra). lra.
Qed.

Lemma cell_err : is_finite v = true ->
  Rabs (val v - chordv (val x0) (val y0) (val x1) (val y1) (val x)) <=
  11 * u53 * (Y * M / D) + 4 * eta64 * (1 + M + / D).
Proof.
  intros F. assert (E := plus_err _ _ F). destruct (fin_plus _ _ F) as (Fp & Fb & _).
  assert (Ep := mult_err _ _ Fp). destruct (fin_mult _ _ Fp) as (Fa & Fx & _).
  destruct (coef_a_err Fa) as [A1 A2]. assert (B := coef_b_err Fb).
  assert (U := u_small). assert (Q := eta64_pos). assert (HY := cY). assert (HM := cM). assert (CB := chord_bound).
  rewrite chord_coef in *. fold v in E.
  set (a := (val y1 - val y0) / D) in *. set (b := (val y0 * val x1 - val x0 * val y1) / D) in *.
  assert (ID : 0 < / D) by (apply Rinv_0_lt_compat; lra).
  assert (YD : 0 <= Y / D) by (apply Rmult_le_pos; lra).
  set (S := Y * M / D) in *. assert (HS : 0 <= S) by (unfold S; apply Rmult_le_pos; [apply Rmult_le_pos|]; lra).
  assert (SM : Y / D * M = S) by (unfold S; field; lra).
  assert (HYS : Y <= 2 * S).
  { unfold S. apply Rmult_le_reg_r with D; [lra|]. replace (2 * (Y * M / D) * D) with (Y * (2 * M)) by (field; lra).
    apply Rmult_le_compat_l; [auto|apply cDM]. }
  assert (Mx := cMx).
  set (p := val (fa *! x)) in *.
  assert (P1 : Rabs (val fa * val x) <= 101 / 100 * S + eta64 * M).
  { rewrite Rabs_mult. eapply Rle_trans; [apply Rmult_le_compat; [apply Rabs_pos|apply Rabs_pos|exact A2|exact Mx]|]. rewrite <- SM. lra. }
  assert (P2 : Rabs (val fa * val x - a * val x) <= 301 / 100 * u53 * S + eta64 * M).
  { rewrite <- Rmult_minus_distr_r, Rabs_mult.
    eapply Rle_trans; [apply Rmult_le_compat; [apply Rabs_pos|apply Rabs_pos|exact A1|exact Mx]|]. rewrite <- SM. lra. }
  assert (EM : 0 <= eta64 * M) by (apply Rmult_le_pos; lra).
  assert (UE : u53 * (eta64 * M) <= / 1000000 * (eta64 * M)) by (apply Rmult_le_compat_r; lra).
  assert (US : 0 <= u53 * S) by (apply Rmult_le_pos; lra).
  assert (P3 : Rabs (p - a * val x) <= 403 / 100 * u53 * S + 101 / 100 * (eta64 * M) + eta64).
  { replace (p - a * val x) with ((p - val fa * val x) + (val fa * val x - a * val x)) by ring.
    eapply Rle_trans; [apply Rabs_triang|].
    assert (u53 * Rabs (val fa * val x) <= u53 * (101 / 100 * S + eta64 * M)) by (apply Rmult_le_compat_l; lra). lra. }
  change (eta64 / D) with (eta64 * / D) in *.
  assert (EDp : 0 <= eta64 * / D) by (apply Rmult_le_pos; lra).
  assert (T : Rabs (p + val fb - (a * val x + b)) <= 806 / 100 * u53 * S + 101 / 100 * (eta64 * M) + 302 / 100 * (eta64 * / D) + 2 * eta64).
  { replace (p + val fb - (a * val x + b)) with ((p - a * val x) + (val fb - b)) by ring.
    eapply Rle_trans; [apply Rabs_triang|]. lra. }
  assert (T2 : Rabs (p + val fb) <= 2 * S + (806 / 100 * u53 * S + 101 / 100 * (eta64 * M) + 302 / 100 * (eta64 * / D) + 2 * eta64)).
  { replace (p + val fb) with ((p + val fb - (a * val x + b)) + (a * val x + b)) by ring.
    eapply Rle_trans; [apply Rabs_triang|]. lra. }
  assert (T3 : u53 * Rabs (p + val fb) <= u53 * (2 * S) + / 1000000 * (806 / 100 * u53 * S + 101 / 100 * (eta64 * M) + 302 / 100 * (eta64 * / D) + 2 * eta64)).
  { eapply Rle_trans; [apply Rmult_le_compat_l; [lra|exact T2]|]. rewrite Rmult_plus_distr_l. apply Rplus_le_compat_l.
    apply Rmult_le_compat_r; lra. }
  replace (val v - (a * val x + b)) with ((val v - (p + val fb)) + (p + val fb - (a * val x + b))) by ring.
  eapply Rle_trans; [apply Rabs_triang|]. lra.
Qed.

(** No overflow. *)
Hypothesis Fy0 : is_finite y0 = true.
Hypothesis Fy1 : is_finite y1 = true.
Hypothesis Fx : is_finite x = true.

Lemma rnd_bound z : Rabs (rnd64 z) <= 2 * Rabs z + 1.
Proof.
  assert (E := rnd_err z). assert (U := u_small). assert (Q : eta64 <= 1).
  { unfold eta64. assert (bpow radix2 (-1074) <= bpow radix2 0) by (apply bpow_le; lia). simpl (bpow radix2 0) in *. lra. }
  assert (A := Rabs_pos z).
  assert (u53 * Rabs z <= / 1000000 * Rabs z) by (apply Rmult_le_compat_r; lra).
  replace (rnd64 z) with ((rnd64 z - z) + z) by ring. eapply Rle_trans; [apply Rabs_triang|]. lra.
Qed.

Lemma cell_finite : Y * (1 + M) * (1 + / D) <= 2 ^ 1000 -> is_finite v = true.
Proof.
  intros H. assert (U := u_small). assert (HY := cY). assert (HM := cM).
  assert (ID : 0 < / D) by (apply Rinv_0_lt_compat; lra).
  set (B := bpow radix2 1000) in *.
  assert (HB : 2 ^ 1000 = B) by (unfold B; rewrite bpow_powerRZ; reflexivity). rewrite HB in H.
  assert (Big : 1000 * B <= fmax64).
  { apply Rle_trans with (bpow radix2 1010).
    - change 1010%Z with (10 + 1000)%Z. rewrite bpow_plus. fold B. apply Rmult_le_compat_r; [apply bpow_ge_0|]. simpl. lra.
    - cbv [fmax64 F2R Fnum Fexp]. change 1010%Z with (39 + 971)%Z. rewrite bpow_plus.
      apply Rmult_le_compat_r; [apply bpow_ge_0|]. simpl. lra. }
  assert (OV : forall z, Rabs z <= 1000 * B -> Rabs z <= fmax64 + bpow radix2 969).
  { intros z Hz. assert (P := bpow_gt_0 radix2 969). lra. }
  assert (B1 : 1 <= B) by (change 1 with (bpow radix2 0); apply bpow_le; lia).
  assert (H1 : Y <= B).
  { eapply Rle_trans; [|exact H]. rewrite Rmult_assoc. rewrite <- (Rmult_1_r Y) at 1. apply Rmult_le_compat_l; [lra|]. nra. }
  assert (H2 : Y * M <= B).
  { eapply Rle_trans; [|exact H]. rewrite Rmult_assoc. apply Rmult_le_compat_l; [lra|]. nra. }
  assert (H3 : Y / D <= B).
  { eapply Rle_trans; [|exact H]. rewrite Rmult_assoc. apply Rmult_le_compat_l; [lra|]. nra. }
  assert (H4 : Y * M / D <= B).
  { eapply Rle_trans; [|exact H]. unfold Rdiv. rewrite !Rmult_assoc. apply Rmult_le_compat_l; [lra|]. nra. }
  destruct cD as [Fd Hd].
  assert (Hd0 : 0 < val (x1 -! x0)) by nra.
  assert (Dlow : forall n, Rabs (n / val (x1 -! x0)) <= 2 * (Rabs n / D)).
  { intros n. unfold Rdiv. rewrite Rabs_mult, (Rabs_pos_eq (/ _)) by (left; apply Rinv_0_lt_compat; lra).
    replace (2 * (Rabs n * / D)) with (Rabs n * (/ (D / 2))) by (field; lra).
    apply Rmult_le_compat_l; [apply Rabs_pos|]. apply Rinv_le_contravar; [lra|]. nra. }
  (* a *)
  assert (A0 : Rabs (val y1 - val y0) <= Y).
  { unfold Y. rewrite Rplus_comm, <- (Rabs_Ropp (val y0)). apply Rabs_triang. }
  destruct (minus_ok y1 y0 Fy1 Fy0) as [Fa1 _]; [apply OV; lra|].
  destruct (num_a Fa1) as [N1 N2].
  assert (N3 : Rabs (val (y1 -! y0)) <= 2 * Y).
  { replace (val (y1 -! y0)) with ((val (y1 -! y0) - (val y1 - val y0)) + (val y1 - val y0)) by ring.
    eapply Rle_trans; [apply Rabs_triang|]. assert (u53 * Y <= / 1000000 * Y) by (apply Rmult_le_compat_r; lra). lra. }
  assert (N4 : Rabs (val (y1 -! y0)) / D <= 2 * (Y / D)).
  { unfold Rdiv. rewrite <- Rmult_assoc. apply Rmult_le_compat_r; lra. }
  destruct (div_ok (y1 -! y0) (x1 -! x0) Fa1 Fd) as [Fa _]; [lra|apply OV; eapply Rle_trans; [apply Dlow|lra]|].
  fold fa in Fa. destruct (coef_a_err Fa) as [_ A2].
  assert (SM : Y / D * M = Y * M / D) by (field; lra).
  assert (Qs : eta64 * M <= B).
  { assert (Q := eta64_pos).
    assert (M <= bpow radix2 1024).
    { unfold M. apply Rmax_lub; left; apply abs_B2R_lt_emax. }
    apply Rle_trans with (bpow radix2 (-1074) * bpow radix2 1024).
    - apply Rmult_le_compat; try lra. unfold eta64. assert (P := bpow_gt_0 radix2 (-1074)). lra.
    - rewrite <- bpow_plus. apply bpow_le. lia. }
  assert (P1 : Rabs (val fa * val x) <= 3 * B).
  { rewrite Rabs_mult. eapply Rle_trans; [apply Rmult_le_compat; [apply Rabs_pos|apply Rabs_pos|exact A2|exact cMx]|]. lra. }
  destruct (mult_ok fa x Fa Fx) as [Fp Ep]; [apply OV; lra|].
  assert (P2 : Rabs (val (fa *! x)) <= 7 * B) by (rewrite Ep; eapply Rle_trans; [apply rnd_bound|]; lra).
  (* b *)
  assert (M1 : Rabs (val y0 * val x1) <= Y * M).
  { rewrite Rabs_mult. apply Rmult_le_compat; [apply Rabs_pos|apply Rabs_pos| |apply cM1]. unfold Y. assert (Z := Rabs_pos (val y1)). lra. }
  assert (M2 : Rabs (val x0 * val y1) <= Y * M).
  { rewrite Rabs_mult, Rmult_comm. apply Rmult_le_compat; [apply Rabs_pos|apply Rabs_pos| |apply cM0]. unfold Y. assert (Z := Rabs_pos (val y0)). lra. }
  destruct (mult_ok y0 x1 Fy0 Fx1) as [F1 E1]; [apply OV; lra|].
  destruct (mult_ok x0 y1 Fx0 Fy1) as [F2 E2]; [apply OV; lra|].
  assert (R1 := rnd_bound (val y0 * val x1)). rewrite <- E1 in R1.
  assert (R2 := rnd_bound (val x0 * val y1)). rewrite <- E2 in R2.
  assert (R3 : Rabs (val (y0 *! x1) - val (x0 *! y1)) <= 6 * B).
  { eapply Rle_trans; [apply Rabs_triang|]. rewrite Rabs_Ropp. lra. }
  destruct (minus_ok (y0 *! x1) (x0 *! y1) F1 F2) as [F3 E3]; [apply OV; lra|].
  destruct (num_b F3) as [N5 N6].
  assert (Q := eta64_pos).
  assert (YM0 : 0 <= Y * M) by (apply Rmult_le_pos; lra).
  assert (N7 : Rabs (val (y0 *! x1 -! x0 *! y1)) <= 2 * (Y * M) + 3 * eta64).
  { match goal with |- Rabs ?w <= _ => replace w with ((w - (val y0 * val x1 - val x0 * val y1)) + (val y0 * val x1 - val x0 * val y1)) by ring end.
    eapply Rle_trans; [apply Rabs_triang|]. assert (u53 * (Y * M) <= / 1000000 * (Y * M)) by (apply Rmult_le_compat_r; lra). lra. }
  (* eta64 / D <= 1 : D is a positive double difference *)
  assert (DE : eta64 <= D).
  { destruct (Rle_or_lt eta64 D) as [|Hlt]; auto. exfalso.
    (* x1 - x0 would round to at most ... but it is a multiple of 2^-1074 *)
    assert (Hm : bpow radix2 (-1074) <= D).
    { assert (X0 : exists z, val x0 = IZR z * bpow radix2 (-1074)).
      { assert (FI : generic_format radix2 (FIX_exp (-1074)) (val x0)).
        { apply generic_inclusion_mag with (fexp1 := fexp64); [|apply fmt64_val].
          intros _. unfold FIX_exp, SpecFloat.fexp, SpecFloat.emin. lia. }
        apply FIX_format_generic in FI. destruct FI as [[z e] Hz He]. simpl in He. subst e. exists z. exact Hz. }
      assert (X1 : exists z, val x1 = IZR z * bpow radix2 (-1074)).
      { assert (FI : generic_format radix2 (FIX_exp (-1074)) (val x1)).
        { apply generic_inclusion_mag with (fexp1 := fexp64); [|apply fmt64_val].
          intros _. unfold FIX_exp, SpecFloat.fexp, SpecFloat.emin. lia. }
        apply FIX_format_generic in FI. destruct FI as [[z e] Hz He]. simpl in He. subst e. exists z. exact Hz. }
      destruct X0 as [z0 Z0]. destruct X1 as [z1 Z1]. set (h := bpow radix2 (-1074)) in *.
      assert (P : 0 < h) by apply bpow_gt_0.
      assert (EqD : D = IZR (z1 - z0) * h) by (unfold D; rewrite Z0, Z1, minus_IZR; ring).
      rewrite EqD in *. assert (0 < z1 - z0)%Z.
      { apply lt_IZR. apply Rmult_lt_reg_r with h; auto. rewrite Rmult_0_l. lra. }
      rewrite <- (Rmult_1_l h) at 1. apply Rmult_le_compat_r; [lra|]. apply IZR_le. lia. }
    unfold eta64 in *. assert (P := bpow_gt_0 radix2 (-1074)). lra. }
  assert (ED : eta64 / D <= 1).
  { apply Rmult_le_reg_r with D; [lra|]. unfold Rdiv. rewrite Rmult_assoc, Rinv_l by lra. lra. }
  assert (N8 : Rabs (val (y0 *! x1 -! x0 *! y1)) / D <= 2 * (Y * M / D) + 3 * (eta64 / D)).
  { replace (2 * (Y * M / D) + 3 * (eta64 / D)) with ((2 * (Y * M) + 3 * eta64) / D) by (field; lra).
    apply Rmult_le_compat_r; [lra|auto]. }
  destruct (div_ok (y0 *! x1 -! x0 *! y1) (x1 -! x0) F3 Fd) as [Fb Eb]; [lra|apply OV; eapply Rle_trans; [apply Dlow|lra]|].
  fold fb in Fb, Eb.
  assert (P3 : Rabs (val fb) <= 25 * B).
  { rewrite Eb. eapply Rle_trans; [apply rnd_bound|].
    assert (K := Dlow (val (y0 *! x1 -! x0 *! y1))). lra. }
  destruct (plus_ok (fa *! x) fb Fp Fb) as [Fv _]; auto.
  apply OV. eapply Rle_trans; [apply Rabs_triang|]. lra.
Qed.
End Cell.

(** ** The table *)
Definition fca (xs ys : list f64) (i : nat) : f64 :=
  (nth i ys f0 -! nth (i - 1) ys f0) /! (nth i xs f0 -! nth (i - 1) xs f0).
Definition fcb (xs ys : list f64) (i : nat) : f64 :=
  (nth (i - 1) ys f0 *! nth i xs f0 -! nth (i - 1) xs f0 *! nth i ys f0) /! (nth i xs f0 -! nth (i - 1) xs f0).
Definition fcoefs_a xs ys := map (fca xs ys) (seq 1 (length xs - 1)).
Definition fcoefs_b xs ys := map (fcb xs ys) (seq 1 (length xs - 1)).
Definition fobj (k : lin_kind) (xs ys : list f64) : interp1d f64 f64 :=
  mkI1 k (Some xs) (Some ys) (length xs) (Some (nth 0 xs f0)) (Some (nth (length xs - 1) xs f0))
    (fcoefs_a xs ys) (fcoefs_b xs ys).

Lemma coef_loop_f xs ys n : forall k a b,
  (length xs <= length ys)%nat -> (1 <= k)%nat -> (k + n <= length xs)%nat ->
  coef_loop xs ys (seq k n) a b =
    ((a ++ map (fca xs ys) (seq k n), b ++ map (fcb xs ys) (seq k n)), Ok tt).
Proof.
  induction n as [|n IH]; intros k a b Hl Hk Hkn; cbn [seq map coef_loop].
  - rewrite !app_nil_r. reflexivity.
  - rewrite !(vat_lt _ _ f0) by lia. cbn [bind].
    rewrite IH by lia. rewrite <- !app_assoc. reflexivity.
Qed.

Lemma new1d_f bm m k xs ys : linear_kind m = Some k ->
  (bm = Debug -> is_sorted xs = true) -> (1 <= length xs)%nat -> length ys = length xs ->
  new1d bm m xs ys = Ok (fobj k xs ys).
Proof.
  intros Hm Hs Hl Hy. unfold new1d.
  assert (I : forall o, i_a o = [] -> i_b o = [] -> init1d bm o (Some xs) (Some ys) = (fobj (i_kind o) xs ys, Ok tt)).
  { intros o Ha Hb. unfold init1d, init_base.
    assert (Hc : bind (cassert bm (length xs =? length ys)%nat) (fun _ => cassert bm (is_sorted xs)) = Ok tt).
    { destruct bm; simpl; auto. rewrite Hy, Nat.eqb_refl. simpl. rewrite Hs; reflexivity. }
    rewrite Hc. rewrite !(vat_lt xs _ f0) by lia. cbn [i_x i_y i_ndata i_a i_b i_kind i_xmin i_xmax].
    rewrite coef_loop_f, Ha, Hb by lia. reflexivity. }
  destruct m; simpl in Hm; inversion Hm; subst; cbn [make1d bind]; rewrite I by reflexivity; reflexivity.
Qed.

Lemma nlt_val (a b : f64) : is_finite a = true -> is_finite b = true -> nlt a b = Rltb (val a) (val b).
Proof.
  intros A B. cbn [nlt F64Num]. rewrite Bltb_correct by auto. unfold Rltb.
  destruct (Rlt_dec (val a) (val b)) as [H|H].
  - apply Rlt_bool_true; auto.
  - apply Rlt_bool_false. lra.
Qed.

Lemma nth_dvalues l i : nth i (dvalues l) 0 = val (nth i l f0).
Proof. exact (nth_map_val l i). Qed.

Lemma finite_nth l i : all_finite l -> is_finite (nth i l f0) = true.
Proof.
  intros H. destruct (Nat.lt_ge_cases i (length l)) as [L|L].
  - unfold all_finite in H. rewrite Forall_forall in H. apply H, nth_In, L.
  - rewrite nth_overflow by auto. reflexivity.
Qed.

Lemma is_sorted_f xs : all_finite xs -> is_sorted xs = is_sorted (dvalues xs).
Proof.
  intros H. induction H as [|a l Ha Hl IH]; auto. destruct l as [|b l]; auto.
  inversion Hl; subst. cbn [is_sorted dvalues map]. rewrite nlt_val by auto.
  change (nlt (dvalue b) (dvalue a)) with (Rltb (val b) (val a)).
  destruct (Rltb (val b) (val a)); auto.
Qed.

Lemma lower_bound_f xs x : all_finite xs -> is_finite x = true ->
  lower_bound xs x = lower_bound (dvalues xs) (dvalue x).
Proof.
  intros H Fx. unfold lower_bound. unfold dvalues at 2. rewrite map_length.
  apply bsearch_ext. intros i Hi.
  rewrite (nth_indep xs x f0) by auto. rewrite nlt_val by (auto using finite_nth).
  rewrite (nth_indep (dvalues xs) (dvalue x) 0) by (unfold dvalues; rewrite map_length; auto).
  rewrite nth_dvalues. reflexivity.
Qed.

Lemma fcoefs_nth xs ys j : (S j < length xs)%nat ->
  nth j (fcoefs_a xs ys) f0 = fca xs ys (S j) /\ nth j (fcoefs_b xs ys) f0 = fcb xs ys (S j).
Proof.
  intros H. unfold fcoefs_a, fcoefs_b.
  rewrite (nth_indep (map (fca xs ys) _) f0 (fca xs ys 0)) by (rewrite map_length, seq_length; lia).
  rewrite (nth_indep (map (fcb xs ys) _) f0 (fcb xs ys 0)) by (rewrite map_length, seq_length; lia).
  rewrite !map_nth, seq_nth by lia. auto.
Qed.

(** The value computed in cell [j]. *)
Definition fcell (xs ys : list f64) (j : nat) (x : f64) : f64 :=
  (nth (S j) ys f0 -! nth j ys f0) /! (nth (S j) xs f0 -! nth j xs f0) *! x +!
  (nth j ys f0 *! nth (S j) xs f0 -! nth j xs f0 *! nth (S j) ys f0) /! (nth (S j) xs f0 -! nth j xs f0).

Lemma eval_base_f k xs ys x j : (max 1 (lower_bound xs x) - 1)%nat = j -> (S j < length xs)%nat ->
  eval_base (fobj k xs ys) x = Ok (fcell xs ys j x).
Proof.
  intros Hj Hl. unfold eval_base. cbn [i_x i_a i_b fobj].
  replace (if (lower_bound xs x =? 0)%nat then 1%nat else lower_bound xs x) with (max 1 (lower_bound xs x))
    by (destruct (lower_bound xs x) as [|[|n]]; reflexivity).
  rewrite Hj. rewrite !(vat_lt _ _ f0) by (unfold fcoefs_a, fcoefs_b; rewrite map_length, seq_length; lia).
  destruct (fcoefs_nth xs ys j Hl) as [-> ->]. cbn [bind]. unfold fca, fcb, fcell.
  replace (S j - 1)%nat with j by lia. reflexivity.
Qed.

(** [i] is the cell of [x]: open on the left except for the first. *)
Lemma eval_cell bm m xs ys x i : is_linear m -> all_finite xs -> is_finite x = true ->
  increasing (dvalues xs) -> length ys = length xs -> (S i < length xs)%nat ->
  (val (nth i xs f0) < val x <= val (nth (S i) xs f0) \/ i = 0%nat /\ val x = val (nth 0 xs f0)) ->
  exists o, new1d bm m xs ys = Ok o /\ eval1d o x = Ok (fcell xs ys i x).
Proof.
  intros Hm Hx Fx Hi Hy Hl Hc.
  assert (LD : length (dvalues xs) = length xs) by (unfold dvalues; apply map_length).
  assert (Hk : exists k, linear_kind m = Some k).
  { destruct Hm as [->|[->| ->]]; eexists; reflexivity. }
  destruct Hk as [k Hk].
  assert (Hin : val (nth 0 xs f0) <= val x <= val (nth (length xs - 1) xs f0)).
  { assert (A := increasing_le (dvalues xs) 0 i Hi ltac:(lia)). assert (B := increasing_le (dvalues xs) (S i) (length xs - 1) Hi ltac:(lia)).
    assert (C := Hi i (S i) ltac:(lia)). rewrite !nth_dvalues in *. destruct Hc as [Hc|[-> Hc]]; lra. }
  exists (fobj k xs ys). split.
  - apply new1d_f; auto; [|lia]. intros _. rewrite is_sorted_f by auto. apply increasing_is_sorted; auto.
  - assert (E : eval_base (fobj k xs ys) x = Ok (fcell xs ys i x)).
    { apply eval_base_f; auto. rewrite lower_bound_f by auto.
      destruct Hc as [Hc|[-> Hc]].
      - rewrite (lower_bound_cell (dvalues xs) (dvalue x) i); auto; [lia|lia|]. rewrite !nth_dvalues. exact Hc.
      - rewrite lower_bound_first; auto. rewrite nth_dvalues. change (dvalue x) with (val x). lra. }
    unfold eval1d. cbn [i_kind i_xmin i_xmax fobj].
    rewrite !nlt_val by (auto using finite_nth).
    rewrite (proj2 (Rltb_false (val x) _)), (proj2 (Rltb_false _ (val x))) by lra.
    destruct k; exact E.
Qed.

Lemma dmax_fmax : dmax = fmax64.
Proof. cbv [fmax64 F2R Fnum Fexp dmax]. f_equal. symmetry. apply (bpow_powerRZ radix2 971). Qed.

Lemma interp_double_lemma : forall bm m xs ys x i, is_linear m -> all_finite xs -> is_finite x = true ->
  increasing (dvalues xs) -> length ys = length xs -> (S i < length xs)%nat ->
  let x0 := nth i (dvalues xs) 0 in let x1 := nth (S i) (dvalues xs) 0 in
  let y0 := nth i (dvalues ys) 0 in let y1 := nth (S i) (dvalues ys) 0 in
  let Y := Rabs y0 + Rabs y1 in let M := Rmax (Rabs x0) (Rabs x1) in let D := x1 - x0 in
  x0 < dvalue x <= x1 \/ i = 0%nat /\ dvalue x = x0 -> D <= dmax ->
  exists o v, new1d bm m xs ys = Ok o /\ eval1d o x = Ok v /\
    (is_finite v = true -> forall e, on_line x0 y0 x1 y1 (dvalue x) e ->
       Rabs (dvalue v - e) <= 11 * uround * (Y * M / D) + 4 * uflow * (1 + M + / D)) /\
    (all_finite ys -> Y * (1 + M) * (1 + / D) <= 2 ^ 1000 -> is_finite v = true).
Proof.
  intros bm m xs ys x i Hm Hx Fx Hi Hy Hl x0 x1 y0 y1 Y M D Hc HD.
  assert (LD : length (dvalues xs) = length xs) by (unfold dvalues; apply map_length).
  assert (D0 : x0 < x1) by (apply Hi; lia).
  unfold x0, x1, y0, y1 in *. clear x0 x1 y0 y1. unfold Y, M, D in *. clear Y M D. rewrite !nth_dvalues in *.
  destruct (eval_cell bm m xs ys x i Hm Hx Fx Hi Hy Hl) as (o & Ho & He).
  { destruct Hc as [Hc|[-> Hc]]; auto. }
  exists o, (fcell xs ys i x). split; auto. split; auto.
  assert (F0 := finite_nth xs i Hx). assert (F1 := finite_nth xs (S i) Hx).
  assert (HD' : 0 < val (nth (S i) xs f0) - val (nth i xs f0) <= fmax64) by (rewrite <- dmax_fmax; lra).
  assert (Hx' : val (nth i xs f0) <= val x <= val (nth (S i) xs f0)).
  { change (dvalue x) with (val x) in Hc. destruct Hc as [Hc|[-> Hc]]; lra. }
  split.
  - intros F e He'.
    assert (Ee : e = chordv (val (nth i xs f0)) (val (nth i ys f0)) (val (nth (S i) xs f0)) (val (nth (S i) ys f0)) (val x)).
    { eapply on_line_unique; [exact D0|exact He'|]. unfold on_line, chordv. change (dvalue x) with (val x). field. lra. }
    rewrite Ee. assert (K := cell_err _ (nth i ys f0) _ (nth (S i) ys f0) x F0 F1 HD' Hx' F).
    rewrite <- uround_u53, <- uflow_eta in K. exact K.
  - intros Hfy Hb. apply (cell_finite _ (nth i ys f0) _ (nth (S i) ys f0) x F0 F1 HD' Hx'); auto using finite_nth.
Qed.

(** ** Exact cells: integers and a power-of-two width *)
Lemma fmt64_scaled n k : (Z.abs n <= 2 ^ 53)%Z -> (0 <= k <= 53)%Z -> fmt64 (IZR n / IZR (2 ^ k)).
Proof.
  intros Hn Hk.
  assert (E : IZR n / IZR (2 ^ k) = IZR n * bpow radix2 (- k)).
  { rewrite bpow_opp, <- IZR_Zpower by lia. reflexivity. }
  rewrite E. destruct (Z.eq_dec (Z.abs n) (2 ^ 53)) as [A|A].
  - assert (P : fmt64 (IZR (2 ^ 53) * bpow radix2 (- k))).
    { change (2 ^ 53)%Z with (Zpower radix2 53). rewrite IZR_Zpower, <- bpow_plus by lia. apply fmt64_bpow. lia. }
    destruct (Z.abs_eq_or_opp n) as [B|B]; rewrite B in A.
    + rewrite A. exact P.
    + replace n with (- 2 ^ 53)%Z by lia. rewrite opp_IZR, Ropp_mult_distr_l_reverse. apply generic_format_opp, P.
  - apply (fmt64_F2R n (- k)); lia.
Qed.

Lemma scaled_no_overflow n k : (Z.abs n <= 2 ^ 53)%Z -> (0 <= k)%Z -> Rabs (IZR n / IZR (2 ^ k)) <= fmax64 + bpow radix2 969.
Proof.
  intros Hn Hk. eapply Rle_trans; [|apply (int_no_overflow n Hn)].
  assert (1 <= 2 ^ k)%Z by (assert (0 < 2 ^ k)%Z by (apply Z.pow_pos_nonneg; lia); lia).
  assert (P : 1 <= IZR (2 ^ k)) by (apply IZR_le; auto).
  unfold Rdiv. rewrite Rabs_mult, (Rabs_pos_eq (/ _)) by (left; apply Rinv_0_lt_compat; lra).
  rewrite <- (Rmult_1_r (Rabs (IZR n))) at 2. apply Rmult_le_compat_l; [apply Rabs_pos|].
  rewrite <- Rinv_1. apply Rinv_le_contravar; lra.
Qed.

Lemma cell_exact (x0 y0 x1 y1 x : f64) (X0 Y0 X1 Y1 X k : Z) :
  is_finite x0 = true -> is_finite x1 = true -> is_finite y0 = true -> is_finite y1 = true -> is_finite x = true ->
  val x0 = IZR X0 -> val x1 = IZR X1 -> val y0 = IZR Y0 -> val y1 = IZR Y1 -> val x = IZR X ->
  (0 <= k <= 53)%Z -> (X1 - X0 = 2 ^ k)%Z -> (X0 <= X <= X1)%Z ->
  ((Z.abs Y0 + Z.abs Y1) * Z.max (Z.abs X0) (Z.abs X1) <= 2 ^ 52)%Z ->
  let v := (y1 -! y0) /! (x1 -! x0) *! x +! (y0 *! x1 -! x0 *! y1) /! (x1 -! x0) in
  is_finite v = true /\ val v = IZR ((Y1 - Y0) * X + (Y0 * X1 - X0 * Y1)) / IZR (2 ^ k).
Proof.
  intros F0 F1 G0 G1 Fx V0 V1 W0 W1 Vx Hk HD HX HB v.
  set (Y := (Z.abs Y0 + Z.abs Y1)%Z) in *. set (M := Z.max (Z.abs X0) (Z.abs X1)) in *.
  assert (K1 : (1 <= 2 ^ k <= 2 ^ 53)%Z).
  { split; [|apply Z.pow_le_mono_r; lia]. assert (0 < 2 ^ k)%Z by (apply Z.pow_pos_nonneg; lia). lia. }
  assert (KR : 1 <= IZR (2 ^ k)) by (apply IZR_le; lia).
  assert (M1 : (1 <= M)%Z) by lia.
  assert (HY : (0 <= Y <= Y * M)%Z) by nia.
  assert (Q1 : (Z.abs ((Y1 - Y0) * X) <= Y * M)%Z) by (rewrite Z.abs_mul; apply Z.mul_le_mono_nonneg; lia).
  assert (Q2 : (Z.abs (Y0 * X1) <= Z.abs Y0 * M)%Z) by (rewrite Z.abs_mul; apply Z.mul_le_mono_nonneg_l; lia).
  assert (Q3 : (Z.abs (X0 * Y1) <= Z.abs Y1 * M)%Z) by (rewrite Z.abs_mul, Z.mul_comm; apply Z.mul_le_mono_nonneg_l; lia).
  assert (Q4 : (Z.abs Y0 * M + Z.abs Y1 * M = Y * M)%Z) by (unfold Y; ring).
  assert (Y0M : (0 <= Z.abs Y0 * M)%Z) by (apply Z.mul_nonneg_nonneg; lia).
  assert (Y1M : (0 <= Z.abs Y1 * M)%Z) by (apply Z.mul_nonneg_nonneg; lia).
  assert (D : is_finite (x1 -! x0) = true /\ val (x1 -! x0) = IZR (2 ^ k)).
  { destruct (minus_ok x1 x0 F1 F0) as [A B].
    - rewrite V0, V1, <- minus_IZR. apply int_no_overflow. lia.
    - split; auto. rewrite B, V0, V1, <- minus_IZR, HD. apply rnd64_id, fmt64_int. lia. }
  destruct D as [FD VD].
  assert (N : is_finite (y1 -! y0) = true /\ val (y1 -! y0) = IZR (Y1 - Y0)).
  { destruct (minus_ok y1 y0 G1 G0) as [A B].
    - rewrite W0, W1, <- minus_IZR. apply int_no_overflow. lia.
    - split; auto. rewrite B, W0, W1, <- minus_IZR. apply rnd64_id, fmt64_int. lia. }
  destruct N as [FN VN].
  assert (A : is_finite ((y1 -! y0) /! (x1 -! x0)) = true /\ val ((y1 -! y0) /! (x1 -! x0)) = IZR (Y1 - Y0) / IZR (2 ^ k)).
  { destruct (div_ok (y1 -! y0) (x1 -! x0) FN FD) as [A B].
    - rewrite VD. lra.
    - rewrite VN, VD. apply scaled_no_overflow; lia.
    - split; auto. rewrite B, VN, VD. apply rnd64_id, fmt64_scaled; lia. }
  destruct A as [FA VA].
  assert (P : is_finite ((y1 -! y0) /! (x1 -! x0) *! x) = true /\
              val ((y1 -! y0) /! (x1 -! x0) *! x) = IZR ((Y1 - Y0) * X) / IZR (2 ^ k)).
  { assert (E : IZR (Y1 - Y0) / IZR (2 ^ k) * IZR X = IZR ((Y1 - Y0) * X) / IZR (2 ^ k)) by (rewrite mult_IZR; field; lra).
    destruct (mult_ok _ x FA Fx) as [A B].
    - rewrite VA, Vx, E. apply scaled_no_overflow; lia.
    - split; auto. rewrite B, VA, Vx, E. apply rnd64_id, fmt64_scaled; lia. }
  destruct P as [FP VP].
  destruct (mult_ok y0 x1 G0 F1) as [FM1 VM1]; [rewrite W0, V1, <- mult_IZR; apply int_no_overflow; lia|].
  rewrite W0, V1, <- mult_IZR, rnd64_id in VM1 by (apply fmt64_int; lia).
  destruct (mult_ok x0 y1 F0 G1) as [FM2 VM2]; [rewrite V0, W1, <- mult_IZR; apply int_no_overflow; lia|].
  rewrite V0, W1, <- mult_IZR, rnd64_id in VM2 by (apply fmt64_int; lia).
  destruct (minus_ok _ _ FM1 FM2) as [FS VS]; [rewrite VM1, VM2, <- minus_IZR; apply int_no_overflow; lia|].
  rewrite VM1, VM2, <- minus_IZR, rnd64_id in VS by (apply fmt64_int; lia).
  destruct (div_ok _ (x1 -! x0) FS FD) as [FB VB].
  { rewrite VD. lra. }
  { rewrite VS, VD. apply scaled_no_overflow; lia. }
  rewrite VS, VD, rnd64_id in VB by (apply fmt64_scaled; lia).
  assert (E : IZR ((Y1 - Y0) * X) / IZR (2 ^ k) + IZR (Y0 * X1 - X0 * Y1) / IZR (2 ^ k) =
              IZR ((Y1 - Y0) * X + (Y0 * X1 - X0 * Y1)) / IZR (2 ^ k)) by (rewrite plus_IZR; field; lra).
  destruct (plus_ok _ _ FP FB) as [FV VV].
  { rewrite VP, VB, E. apply scaled_no_overflow; lia. }
  unfold v. split; auto. rewrite VV, VP, VB, E. apply rnd64_id, fmt64_scaled; lia.
Qed.

Lemma interp_exact_lemma : forall bm m xs ys x i X0 X1 Y0 Y1 X k, is_linear m ->
  all_finite xs -> all_finite ys -> is_finite x = true ->
  increasing (dvalues xs) -> length ys = length xs -> (S i < length xs)%nat ->
  nth i (dvalues xs) 0 = IZR X0 -> nth (S i) (dvalues xs) 0 = IZR X1 ->
  nth i (dvalues ys) 0 = IZR Y0 -> nth (S i) (dvalues ys) 0 = IZR Y1 -> dvalue x = IZR X ->
  (0 <= k <= 53)%Z -> (X1 - X0 = 2 ^ k)%Z -> (X0 < X <= X1)%Z \/ i = 0%nat /\ X = X0 ->
  ((Z.abs Y0 + Z.abs Y1) * Z.max (Z.abs X0) (Z.abs X1) <= 2 ^ 52)%Z ->
  exists o v, new1d bm m xs ys = Ok o /\ eval1d o x = Ok v /\ is_finite v = true /\
    on_line (IZR X0) (IZR Y0) (IZR X1) (IZR Y1) (IZR X) (dvalue v).
Proof.
  intros bm m xs ys x i X0 X1 Y0 Y1 X k Hm Hx Hy Fx Hi Hyl Hl V0 V1 W0 W1 Vx Hk HD HX HB.
  assert (LD : length (dvalues xs) = length xs) by (unfold dvalues; apply map_length).
  assert (D0 := Hi i (S i) ltac:(lia)). rewrite V0, V1 in D0. apply lt_IZR in D0.
  rewrite !nth_dvalues in *.
  destruct (eval_cell bm m xs ys x i Hm Hx Fx Hi Hyl Hl) as (o & Ho & He).
  { change (dvalue x) with (val x) in Vx. destruct HX as [HX|[-> HX]].
    - left. rewrite V0, V1, Vx. split; [apply IZR_lt|apply IZR_le]; lia.
    - right. split; auto. rewrite V0, Vx, HX. reflexivity. }
  destruct (cell_exact (nth i xs f0) (nth i ys f0) (nth (S i) xs f0) (nth (S i) ys f0) x X0 Y0 X1 Y1 X k) as [FV VV];
    auto using finite_nth; [lia|].
  exists o, (fcell xs ys i x). split; [auto|]. split; [auto|]. split; [auto|].
  change (dvalue (fcell xs ys i x)) with (val (fcell xs ys i x)). unfold fcell. rewrite VV, <- HD.
  assert (IZR (X1 - X0) <> 0) by (apply not_0_IZR; lia). rewrite minus_IZR in *.
  unfold on_line. rewrite !plus_IZR, !minus_IZR, !mult_IZR, !minus_IZR. field. auto.
Qed.

(** ** Queries and abscissae that are not numbers *)
Lemma plus_nan_l (b : f64) : B754_nan +! b = B754_nan.
Proof. destruct b; reflexivity. Qed.
Lemma mult_nan_r (a : f64) : a *! B754_nan = B754_nan.
Proof. destruct a; reflexivity. Qed.
Lemma nlt_nan_r (a : f64) : nlt a B754_nan = false.
Proof. destruct a as [[]|[]| |[]]; reflexivity. Qed.
Lemma nlt_nan_l (a : f64) : nlt B754_nan a = false.
Proof. destruct a as [[]|[]| |[]]; reflexivity. Qed.

Lemma bsearch_false n : bsearch (fun _ => false) n = 0%nat.
Proof.
  destruct (bsearch_loop_spec (fun _ => false) n 0 n (le_n _)) as (_ & H & _). fold (bsearch (fun _ => false) n) in H.
  destruct (bsearch (fun _ => false) n); auto. discriminate (H ltac:(lia)).
Qed.

Lemma interp_nan_lemma : forall bm m xs ys, is_linear m -> (bm = Debug -> is_sorted xs = true) ->
  (2 <= length xs)%nat -> length ys = length xs ->
  exists o, new1d bm m xs ys = Ok o /\ eval1d o B754_nan = Ok B754_nan.
Proof.
  intros bm m xs ys Hm Hs Hl Hy.
  assert (Hk : exists k, linear_kind m = Some k).
  { destruct Hm as [->|[->| ->]]; eexists; reflexivity. }
  destruct Hk as [k Hk]. exists (fobj k xs ys). split; [apply new1d_f; auto; lia|].
  assert (E : eval_base (fobj k xs ys) B754_nan = Ok B754_nan).
  { rewrite (eval_base_f k xs ys B754_nan 0); [|..|lia].
    - unfold fcell. rewrite mult_nan_r, plus_nan_l. reflexivity.
    - assert (lower_bound xs B754_nan = 0%nat) as ->; auto.
      unfold lower_bound. rewrite <- (bsearch_false (length xs)). apply bsearch_ext. intros i _. apply nlt_nan_r. }
  unfold eval1d. cbn [i_kind i_xmin i_xmax fobj]. rewrite nlt_nan_l, nlt_nan_r. destruct k; exact E.
Qed.

(** ** Witnesses *)
Definition increasing2 (a b : f64) : val a < val b -> increasing (dvalues [a; b]).
Proof.
  intros H i j Hij. simpl in Hij. destruct i as [|[|i]]; destruct j as [|[|j]]; simpl; try lia; exact H.
Qed.

Lemma val_SF (x : f64) s : B2SF x = s -> val x = SF2R radix2 s.
Proof. intros <-. symmetry. apply SF2R_B2SF. Qed.

Lemma val_pos (x : f64) m k : B2SF x = SpecFloat.S754_finite false m (Zneg k) ->
  val x = IZR (Zpos m) / IZR (2 ^ Zpos k).
Proof.
  intros H. rewrite (val_SF _ _ H). unfold SF2R, F2R, cond_Zopp, Fnum, Fexp. reflexivity.
Qed.

Lemma node_refuted_pf : exists xs ys, all_finite xs /\ all_finite ys /\ increasing (dvalues xs) /\ length ys = length xs /\
  forall bm m, is_linear m -> exists o v, new1d bm m xs ys = Ok o /\ eval1d o (nth 0 xs f0) = Ok v /\
    dvalue v <> nth 0 (dvalues ys) 0 /\ dvalue (nth 0 xs f0) = 1 /\ nth 0 (dvalues ys) 0 = 1 /\ dvalue v = 1 + / 2 ^ 52.
Proof.
  set (xs := [f64_ofZ 1; f64_ofZ 4]). set (ys := [f64_ofZ 1; f64_ofZ 8]). exists xs, ys.
  destruct (ofZ_ok 1 ltac:(lia)) as [A1 B1]. destruct (ofZ_ok 4 ltac:(lia)) as [A4 B4].
  assert (Hi : increasing (dvalues xs)) by (apply increasing2; lra).
  assert (Hx : all_finite xs) by (repeat constructor).
  split; auto. split; [repeat constructor|]. split; auto. split; auto.
  intros bm m Hm. destruct (eval_cell bm m xs ys (nth 0 xs f0) 0 Hm Hx A1 Hi eq_refl) as (o & Ho & He); [simpl; lia|right; auto|].
  exists o, (fcell xs ys 0 (nth 0 xs f0)). split; [auto|]. split; [auto|].
  assert (V : dvalue (fcell xs ys 0 (nth 0 xs f0)) = 1 + / 2 ^ 52).
  { change (val (fcell xs ys 0 (nth 0 xs f0)) = 1 + / 2 ^ 52).
    rewrite (val_pos _ 4503599627370497 52) by (vm_compute; reflexivity).
    change (2 ^ 52)%Z with 4503599627370496%Z. rewrite pow_IZR. change (2 ^ Z.of_nat 52)%Z with 4503599627370496%Z. lra. }
  assert (P : 0 < / 2 ^ 52) by (apply Rinv_0_lt_compat, pow_lt; lra).
  rewrite nth_dvalues. change (nth 0 ys f0) with (f64_ofZ 1). change (nth 0 xs f0) with (f64_ofZ 1) in *.
  change (dvalue (f64_ofZ 1)) with (val (f64_ofZ 1)). rewrite V, B1. repeat split; lra.
Qed.

Lemma constant_refuted_pf : exists xs ys x c, all_finite xs /\ all_finite ys /\ is_finite x = true /\
  increasing (dvalues xs) /\ ys = [c; c] /\ length xs = 2%nat /\ In x xs /\ 1 / 10 <= dvalue c <= 1001 / 10000 /\
  forall bm m, is_linear m -> exists o v, new1d bm m xs ys = Ok o /\ eval1d o x = Ok v /\ dvalue v = 1 / 8.
Proof.
  set (a := f64_ofZ (2 ^ 53 - 2)). set (b := f64_ofZ (2 ^ 53 - 1)). set (c := f64_ofZ 1 /! f64_ofZ 10).
  exists [a; b], [c; c], a, c.
  destruct (ofZ_ok (2 ^ 53 - 2) ltac:(lia)) as [A1 B1]. destruct (ofZ_ok (2 ^ 53 - 1) ltac:(lia)) as [A4 B4].
  assert (Hi : increasing (dvalues [a; b])) by (apply increasing2; unfold a, b; rewrite B1, B4; apply IZR_lt; lia).
  assert (Fc : is_finite c = true) by (vm_compute; reflexivity).
  assert (Hx : all_finite [a; b]) by (repeat constructor; auto).
  split; auto. split; [repeat constructor; auto|]. split; auto. split; auto. split; auto. split; auto.
  split; [left; auto|]. split.
  { change (dvalue c) with (val c). rewrite (val_pos c 7205759403792794 56) by (vm_compute; reflexivity).
    change (2 ^ 56)%Z with 72057594037927936%Z. lra. }
  intros bm m Hm. destruct (eval_cell bm m [a; b] [c; c] a 0 Hm Hx A1 Hi eq_refl) as (o & Ho & He); [simpl; lia|right; auto|].
  exists o, (fcell [a; b] [c; c] 0 a). split; [auto|]. split; [auto|].
  change (val (fcell [a; b] [c; c] 0 a) = 1 / 8).
  rewrite (val_pos _ 4503599627370496 55) by (vm_compute; reflexivity).
  change (2 ^ 55)%Z with 36028797018963968%Z. lra.
Qed.

(** 3*2^1022 = 1.35e308 *)
Definition huge : f64 := binary_normalize 53 1024 _ _ mode_NE 3 1022 false.

Lemma overflow_refuted_pf : exists xs ys, all_finite xs /\ all_finite ys /\
  increasing (dvalues xs) /\ length xs = 2%nat /\ dvalues ys = [0; 1] /\
  forall bm m, is_linear m -> exists o v, new1d bm m xs ys = Ok o /\ eval1d o (nth 1 xs f0) = Ok v /\ dvalue v = 0 /\ is_finite v = true.
Proof.
  exists [Bopp huge; huge], [f64_ofZ 0; f64_ofZ 1].
  assert (Fh : is_finite huge = true) by (vm_compute; reflexivity).
  assert (Vh : 0 < val huge).
  { rewrite (val_SF _ (SpecFloat.S754_finite false (3 * 2 ^ 51)%positive 971)) by (vm_compute; reflexivity).
    unfold SF2R, F2R, cond_Zopp, Fnum, Fexp. apply Rmult_lt_0_compat; [apply IZR_lt; reflexivity|apply bpow_gt_0]. }
  assert (Vo : val (Bopp huge) = - val huge) by apply B2R_Bopp.
  assert (Hi : increasing (dvalues [Bopp huge; huge])) by (apply increasing2; lra).
  assert (Hx : all_finite [Bopp huge; huge]) by (repeat constructor; auto).
  destruct (ofZ_ok 0 ltac:(lia)) as [A0 B0]. destruct (ofZ_ok 1 ltac:(lia)) as [A1 B1].
  split; auto. split; [repeat constructor|]. split; auto. split; auto. split.
  { cbn [dvalues map]. change (dvalue (f64_ofZ 0)) with (val (f64_ofZ 0)). change (dvalue (f64_ofZ 1)) with (val (f64_ofZ 1)).
    rewrite B0, B1. reflexivity. }
  intros bm m Hm. destruct (eval_cell bm m [Bopp huge; huge] [f64_ofZ 0; f64_ofZ 1] huge 0 Hm Hx Fh Hi eq_refl) as (o & Ho & He).
  { simpl; lia. } { left. cbn [nth]. rewrite Vo. lra. }
  exists o. eexists. split; [exact Ho|]. split; [exact He|].
  match goal with |- dvalue ?v = 0 /\ _ => change (dvalue v) with (val v); assert (E : B2SF v = SpecFloat.S754_zero false) by (vm_compute; reflexivity) end.
  split; [rewrite (val_SF _ _ E); reflexivity|]. vm_compute. reflexivity.
Qed.

(** A NaN among the abscissae passes the debug checks. *)
Lemma nan_table_pf : exists o, new1d Debug LINEAR [f64_ofZ 0; B754_nan; f64_ofZ 1] [f64_ofZ 0; f64_ofZ 5; f64_ofZ 1] = Ok o /\
  eval1d o (f64_ofZ 1) = Ok B754_nan.
Proof.
  exists (fobj KLinear [f64_ofZ 0; B754_nan; f64_ofZ 1] [f64_ofZ 0; f64_ofZ 5; f64_ofZ 1]).
  split; [apply new1d_f; [reflexivity|intros _; vm_compute; reflexivity|simpl; lia|reflexivity]|]. vm_compute. reflexivity.
Qed.

Lemma nan_table_refuted_pf : exists xs ys x o, ~ all_finite xs /\ is_finite x = true /\
  new1d Debug LINEAR xs ys = Ok o /\ eval1d o x = Ok B754_nan.
Proof.
  exists [f64_ofZ 0; B754_nan; f64_ofZ 1], [f64_ofZ 0; f64_ofZ 5; f64_ofZ 1], (f64_ofZ 1).
  destruct nan_table_pf as (o & H1 & H2). exists o. split; [|split; [reflexivity|split; [exact H1|exact H2]]].
  intros H. inversion H as [|a l _ H' E]. inversion H' as [|b l' H'' _ E']. discriminate.
Qed.
