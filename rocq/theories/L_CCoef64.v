(** Coefficients of Chebyshev series in binary64. *)
From Coq Require Import List Arith ZArith Reals Bool Lia Lra Psatz.
From Flocq Require Import Core.Core IEEE754.BinarySingleNaN.
From Verif Require Import Outcome Num NumFun F64 L_F64 L_Linspace64 L_F64Err M_Series S_Series L_Series S_Angles S_Double S_Rot64 L_Series64
  L_Interp64 L_Special64 L_Apx M_Cheb S_Cheb L_Cheb L_Cheb2 L_Cheb3 S_Ser64 L_Ser64 L_E1d S_Der64 L_Der64 S_DCheb64 L_DCheb64 S_CCoef64.
From Verif Require L_Units64 L_Rot64 L_Gen64.
Import ListNotations.
Local Open Scope R_scope.

(** ** Orders *)
Lemma coef_err_nonneg kappa n : 0 <= kappa -> 0 <= coef_err kappa n.
Proof.
  intros H. unfold coef_err. rewrite uround_u53. assert (U := u_tiny). assert (P := pos_INR (n + 1)).
  apply Rmult_le_pos; [|lra]. apply Rmult_le_pos; [apply Rmult_le_pos; lra|lra].
Qed.
Lemma one_np n : 1 <= INR (n + 1).
Proof. change 1 with (INR 1). apply le_INR. lia. Qed.
Lemma order_small kappa n : 0 <= kappa -> coef_err kappa n <= / 10 -> INR (n + 1) <= bpow radix2 26.
Proof.
  intros H E. destruct (Rle_or_lt (INR (n + 1)) (bpow radix2 26)) as [L|G]; [exact L|]. exfalso.
  unfold coef_err in E. rewrite uround_u53 in E. assert (B := bpow_gt_0 radix2 26). assert (U := u_tiny).
  assert (S : bpow radix2 26 * bpow radix2 26 <= INR (n + 1) * INR (n + 1)) by (apply Rmult_le_compat; lra).
  assert (X : bpow radix2 26 * bpow radix2 26 * 100 <= INR (n + 1) * INR (n + 1) * (4 * kappa + 100)) by (apply Rmult_le_compat; try lra; apply Rmult_le_pos; lra).
  assert (Y : bpow radix2 26 * bpow radix2 26 * 100 * u53 <= INR (n + 1) * INR (n + 1) * (4 * kappa + 100) * u53) by (apply Rmult_le_compat_r; lra).
  replace (bpow radix2 26 * bpow radix2 26 * 100 * u53) with 50 in Y; [lra|].
  rewrite <- bpow_plus. unfold u53. rewrite bpow_powerRZ. change (IZR radix2) with 2. change (26 + 26)%Z with (Z.of_nat 52). rewrite <- pow_powerRZ.
  replace (2 ^ 53) with (2 ^ 52 * 2) by (simpl; ring). field.
Qed.
Lemma order_Z n : INR (n + 1) <= bpow radix2 26 -> (Z.of_nat n + 1 <= 2 ^ 26)%Z.
Proof.
  intros H. rewrite INR_IZR_INZ in H. change (bpow radix2 26) with (IZR (2 ^ 26)) in H. apply le_IZR in H. lia.
Qed.
Lemma count_apx n : INR (n + 1) <= bpow radix2 26 -> L_Units64.apx 0 26 ((nofZ (Z.of_nat n) : f64) +! nofZ 1) (INR (n + 1)).
Proof.
  intros H. assert (Z := order_Z n H). destruct (ofZ_ok (Z.of_nat n) ltac:(lia)) as (F & V). destruct one_ok as (F1 & V1).
  assert (D := dya_plus (nofZ (Z.of_nat n)) (nofZ 1) (Z.of_nat n) 1 0 (dya_int _ _ F V ltac:(lia)) (dya_int _ _ F1 V1 ltac:(lia)) ltac:(lia)).
  destruct D as (FD & VD & _). rewrite plus_INR, INR_IZR_INZ. change (INR 1) with 1. apply L_Units64.apx_exact; [exact FD| |].
  - rewrite VD, plus_IZR. simpl (2 ^ 0)%Z. field.
  - rewrite <- INR_IZR_INZ. change 1 with (INR 1). rewrite <- plus_INR. assert (P := one_np n). rewrite Rabs_pos_eq by lra. split; [|exact H].
    apply Rle_trans with (2 := P). change 1 with (bpow radix2 0). apply bpow_le. lia.
Qed.

(** ** Nodes *)
Lemma lip_PI t that : Rabs (that - t) <= 5 * u53 * Rabs t -> 0 < t < PI -> Rabs (cos that - cos t) <= 16 * u53.
Proof.
  intros H B. apply Rle_trans with (1 := L_Rot64.cos_lip that t). apply Rle_trans with (1 := H). assert (P := PI_4). assert (U := u_tiny).
  assert (P2 := L_Units64.pi_close). rewrite Rabs_pos_eq by lra. assert (u53 * t <= u53 * (32 / 10)) by (apply Rmult_le_compat_l; lra). lra.
Qed.
Lemma cnode_near kappa (TT : NumTr f64) n r : libm_near kappa TT -> INR (n + 1) <= bpow radix2 26 -> (r <= n)%nat ->
  is_finite (cheb_node (T := f64) n r) = true /\ Rabs (val (cheb_node (T := f64) n r) - node n r) <= (kappa + 16) * u53.
Proof.
  intros HL HN Hr. assert (Z := order_Z n HN).
  destruct (ofZ_ok (Z.of_nat r) ltac:(lia)) as (Fr & Vr). destruct one_ok as (F1 & V1). destruct two_ok as (F2 & V2).
  assert (D1 := dya_mult (nofZ 2) (nofZ (Z.of_nat r)) 2 (Z.of_nat r) 0 0 (dya_int _ _ F2 V2 ltac:(lia)) (dya_int _ _ Fr Vr ltac:(lia)) ltac:(lia) ltac:(lia)).
  assert (D2 := dya_plus _ (nofZ 1) _ 1 0 D1 (dya_int _ _ F1 V1 ltac:(lia)) ltac:(lia)). destruct D2 as (FD & VD & _).
  assert (AN := count_apx n HN).
  assert (AR : L_Units64.apx 0 27 ((nofZ 2 : f64) *! nofZ (Z.of_nat r) +! nofZ 1) (2 * INR r + 1)).
  { apply L_Units64.apx_exact; [exact FD| |].
    - rewrite VD, plus_IZR, mult_IZR, <- INR_IZR_INZ. simpl (2 ^ 0)%Z. field.
    - assert (P := pos_INR r). rewrite Rabs_pos_eq by lra. split.
      + apply Rle_trans with 1; [|lra]. change 1 with (bpow radix2 0). apply bpow_le. lia.
      + assert (INR r <= INR n) by (apply le_INR; exact Hr). rewrite plus_INR in HN. change (INR 1) with 1 in HN.
        change (bpow radix2 27) with (2 * bpow radix2 26). assert (1 <= bpow radix2 26) by (change 1 with (bpow radix2 0); apply bpow_le; lia). lra. }
  assert (AH : L_Units64.apx 0 1 (nlit 1 2 : f64) (1 / 2)).
  { destruct L_Gen64.half_ok as (FH & VH). apply L_Units64.apx_exact; [exact FH|exact VH|]. rewrite Rabs_pos_eq by lra. simpl. lra. }
  assert (A1 := L_Units64.apx_mult _ _ _ _ _ _ _ _ L_Units64.apx_pi AH ltac:(lia) ltac:(lia) ltac:(lia) ltac:(lia)).
  assert (A2 := L_Units64.apx_mult _ _ _ _ _ _ _ _ A1 AR ltac:(lia) ltac:(lia) ltac:(lia) ltac:(lia)).
  assert (A3 := L_Units64.apx_div _ _ _ _ _ _ _ _ A2 AN ltac:(lia) ltac:(lia) ltac:(lia) ltac:(lia)).
  apply L_Units64.apx_result in A3; [|lia]. destruct A3 as (FA & EA).
  assert (TB := theta_bounds n r ltac:(lia)).
  replace (PI * (1 / 2) * (2 * INR r + 1) / INR (n + 1)) with (theta n r) in EA
    by (unfold theta; rewrite plus_INR; change (INR 1) with 1; assert (P := pos_INR n); field; lra).
  unfold cheb_node. set (t := (npi * nlit 1 2 * (nofZ 2 * nofZ (Z.of_nat r) + nofZ 1) / (nofZ (Z.of_nat n) + nofZ 1))%num : f64).
  destruct (HL t FA) as (_ & _ & FC & EC). split; [exact FC|]. rewrite uround_u53 in EC. unfold dvalue in EC.
  assert (EL := lip_PI (theta n r) (val t)). change (node n r) with (cos (theta n r)).
  assert (EL' : Rabs (cos (val t) - cos (theta n r)) <= 16 * u53).
  { apply EL; [|exact TB]. apply Rle_trans with (1 := EA). rewrite INR_IZR_INZ. apply Req_le. reflexivity. }
  replace (val (ncos t) - cos (theta n r)) with ((val (ncos t) - cos (val t)) + (cos (val t) - cos (theta n r))) by ring.
  apply Rle_trans with (1 := Rabs_triang _ _). lra.
Qed.
Lemma node_abs n r : (r <= n)%nat -> Rabs (node n r) <= 1.
Proof. intros H. destruct (node_lt_1 n r ltac:(lia)). apply Rabs_le. lra. Qed.

(** 1 minus a node is not tiny. *)
Lemma node_gap n r : (r <= n)%nat -> / (2 * (INR (n + 1) * INR (n + 1))) <= 1 - node n r.
Proof.
  intros H. assert (TB := theta_bounds n r ltac:(lia)). set (t := theta n r) in *. change (node n r) with (cos t).
  replace (cos t) with (1 - 2 * sin (t / 2) * sin (t / 2)) by (rewrite <- cos_2a_sin; f_equal; field).
  assert (N := one_np n). set (N' := INR (n + 1)) in *.
  assert (TL : PI / (2 * N') <= t).
  { unfold t, theta. assert (R := pos_INR r). assert (P := PI_RGT_0). replace (INR n + 1) with N' by (unfold N'; rewrite plus_INR; reflexivity).
    unfold Rdiv. apply Rmult_le_compat_r; [left; apply Rinv_0_lt_compat; lra|]. replace PI with (PI * 1) at 1 by ring. apply Rmult_le_compat_l; lra. }
  assert (P := L_Units64.pi_close). set (y := PI / (4 * N')).
  assert (Y0 : 0 < y <= PI / 4).
  { unfold y. split; [apply Rdiv_lt_0_compat; lra|]. unfold Rdiv. apply Rmult_le_compat_l; [lra|]. apply Rinv_le_contravar; lra. }
  assert (SY : 69 / 100 * y <= sin y).
  { assert (K := L_Gen64.sin_minus_id y). rewrite (Rabs_pos_eq y) in K by lra. apply Rabs_le_inv in K.
    assert (y * y <= PI / 4 * (PI / 4)) by (apply Rmult_le_compat; lra). assert (PI / 4 * (PI / 4) <= 7854 / 10000 * (7854 / 10000)) by (apply Rmult_le_compat; lra).
    assert (y * (y * y / 2) <= y * (31 / 100)) by (apply Rmult_le_compat_l; lra). lra. }
  assert (L : / (2 * N') <= sin (t / 2)).
  { apply Rle_trans with (sin y).
    - apply Rle_trans with (2 := SY). unfold y. replace (69 / 100 * (PI / (4 * N'))) with (69 / 200 * PI * / (2 * N')) by (field; lra).
      assert (0 < / (2 * N')) by (apply Rinv_0_lt_compat; lra). rewrite <- (Rmult_1_l (/ (2 * N'))) at 1. apply Rmult_le_compat_r; lra.
    - apply sin_incr_1; try lra. unfold y. replace (PI / (4 * N')) with (PI / (2 * N') / 2) by (field; lra). lra. }
  assert (I : 0 < / (2 * N')) by (apply Rinv_0_lt_compat; lra).
  assert (Q : / (2 * N') * / (2 * N') <= sin (t / 2) * sin (t / 2)) by (apply Rmult_le_compat; lra).
  replace (/ (2 * (N' * N'))) with (2 * (/ (2 * N') * / (2 * N'))) by (field; lra). lra.
Qed.

Lemma half_apx : apx (nlit 1 2 : f64) (1 / 2) (1 / 2) 0.
Proof.
  destruct L_Gen64.half_ok as (FH & VH). split; [exact FH|]. split; [rewrite Rabs_pos_eq; lra|]. change (val (nlit 1 2 : f64)) with (val (Bdiv mode_NE (f64_ofZ 1) (f64_ofZ 2))).
  rewrite VH, Rminus_diag_eq, Rabs_R0 by reflexivity. lra.
Qed.
Lemma seg_near kappa (TT : NumTr f64) (a : axis f64) n r : libm_near kappa TT -> 0 <= kappa <= 1000 -> coef_err kappa n <= / 10 -> axis_usable a -> (r <= n)%nat ->
  near_node kappa a n r (to_segment a (cheb_node n r)).
Proof.
  intros HL HK HE (HF & HA) Hr. assert (HN := order_small kappa n (proj1 HK) HE). destruct (cnode_near kappa TT n r HL HN Hr) as (FU & EU).
  assert (NA := node_abs n r Hr). assert (U := u_tiny). set (xt := cheb_node n r : f64) in *. set (nd := node n r) in *. unfold near_node, within. destruct a as [lo hi|lo].
  - destruct HF as (Fl & Fh). cbn [axis_values to_segment node_point] in *. destruct HA as (HO & HM & HS). unfold dvalue in *. rewrite uround_u53.
    set (A := Rmax (Rabs (val lo)) (Rabs (val hi))) in *. assert (AL : Rabs (val lo) <= A) by apply Rmax_l. assert (AH : Rabs (val hi) <= A) by apply Rmax_r.
    assert (A9 : bpow radix2 (-901) <= A).
    { change (bpow radix2 (-901)) with (bpow radix2 (-1 + -900)). rewrite bpow_plus. change (bpow radix2 (-1)) with (/ 2). apply Rabs_le_inv in AL. apply Rabs_le_inv in AH. lra. }
    assert (B9 : 8 * bpow radix2 900 <= big) by (unfold big; change 8 with (bpow radix2 3); rewrite <- bpow_plus; apply bpow_le; lia).
    assert (T9 : tau <= bpow radix2 (-901)) by (unfold tau; apply bpow_le; lia).
    assert (P9 := bpow_gt_0 radix2 900). assert (Q9 := bpow_gt_0 radix2 (-901)).
    assert (zz : 0 <= 0 <= 0) by (split; apply Rle_refl).
    assert (bb : A + A <= big) by lra. assert (zk : 0 <= 1000000) by lra.
    assert (X1 := apx_minus hi lo _ _ A A 0 0 0 (apx_id hi A Fh AH) (apx_id lo A Fl AL) zz zz zk bb).
    assert (X2 := apx_plus hi lo _ _ A A 0 0 0 (apx_id hi A Fh AH) (apx_id lo A Fl AL) zz zz zk bb).
    assert (Y1 := apx_mult _ _ _ _ _ _ _ _ half_apx X1 ltac:(lra) ltac:(lra) ltac:(lra)).
    assert (Y2 := apx_mult _ _ _ _ _ _ _ _ half_apx X2 ltac:(lra) ltac:(lra) ltac:(lra)).
    assert (XU : apx xt nd 1 (kappa + 16)) by (split; [exact FU|]; split; [exact NA|]; rewrite Rmult_1_r; exact EU).
    assert (Z1 := apx_mult _ _ _ _ _ _ _ _ Y1 XU ltac:(lra) ltac:(lra) ltac:(lra)).
    assert (Z := apx_plus _ _ _ _ _ _ _ _ (kappa + 195 / 10) Z1 Y2 ltac:(lra) ltac:(lra) ltac:(lra) ltac:(lra)).
    destruct Z as (FZ & _ & EZ). split; [exact FZ|].
    fold nd. replace ((val hi - val lo) / 2 * nd + (val hi + val lo) / 2) with (1 / 2 * (val hi - val lo) * nd + 1 / 2 * (val hi + val lo)) by field.
    change (Rabs (val (nlit 1 2 *! (hi -! lo) *! xt +! nlit 1 2 *! (hi +! lo)) - (1 / 2 * (val hi - val lo) * nd + 1 / 2 * (val hi + val lo))) <= (2 * kappa + 42) * u53 * A).
    apply Rle_trans with (1 := EZ). assert (UA : 0 <= u53 * A) by (apply Rmult_le_pos; [lra|assert (X := bpow_gt_0 radix2 (-901)); lra]). replace (1 / 2 * (A + A) * 1 + 1 / 2 * (A + A)) with (2 * A) by field. assert (0 <= kappa * (u53 * A)) by (apply Rmult_le_pos; lra). lra.
  - cbn [axis_values to_segment node_point axis_finite] in *. unfold dvalue in *. set (l := val lo) in *. fold nd.
    assert (G := node_gap n r Hr). fold nd in G. assert (N1 := one_np n). set (N := INR (n + 1)) in *.
    assert (NN : 1 <= N * N) by (replace 1 with (1 * 1) by ring; apply Rmult_le_compat; lra).
    assert (I : 0 < / (2 * (N * N))) by (apply Rinv_0_lt_compat; lra).
    set (D := 1 - nd) in *. assert (D0 : 0 < D) by lra. assert (D2 : D <= 2) by (unfold D; apply Rabs_le_inv in NA; lra).
    destruct one_ok as (F1 & V1).
    assert (KU : 0 <= kappa * u53 <= / 1000000000000) by (split; [apply Rmult_le_pos; lra|]; assert (kappa * u53 <= 1000 * u53) by (apply Rmult_le_compat_r; lra); lra).
    assert (BU : Rabs (1 - val xt) <= D + (kappa + 16) * u53).
    { replace (1 - val xt) with (D + (nd - val xt)) by (unfold D; ring). apply Rle_trans with (1 := Rabs_triang _ _). rewrite (Rabs_pos_eq D) by lra. rewrite (Rabs_minus_sym nd). lra. }
    destruct (minus_ok (nofZ 1) xt F1 FU) as (FG & _); [rewrite V1; apply L_Gen64.small_big; assert (X := L_Gen64.big_2); assert (Y : 2 * bpow radix2 999 = bpow radix2 1000) by (change 2 with (bpow radix2 1); rewrite <- bpow_plus; reflexivity); assert (4 <= bpow radix2 999) by (change 4 with (bpow radix2 2); apply bpow_le; lia); lra|].
    assert (EG := minus_err (nofZ 1) xt FG). rewrite V1 in EG. set (g := val ((nofZ 1 : f64) -! xt)) in *.
    assert (DG : Rabs (g - D) <= (kappa + 19) * u53).
    { replace (g - D) with ((g - (1 - val xt)) + (nd - val xt)) by (unfold D; ring). apply Rle_trans with (1 := Rabs_triang _ _). rewrite (Rabs_minus_sym nd).
      assert (u53 * Rabs (1 - val xt) <= u53 * (2 + / 100)) by (apply Rmult_le_compat_l; lra). lra. }
    assert (CE : (kappa + 19) * u53 * (2 * (N * N)) <= / 2 * coef_err kappa n).
    { unfold coef_err. rewrite uround_u53. fold N. replace ((kappa + 19) * u53 * (2 * (N * N))) with (N * N * (2 * kappa + 38) * u53) by ring.
      replace (/ 2 * (N * N * (4 * kappa + 100) * u53)) with (N * N * (2 * kappa + 50) * u53) by field. apply Rmult_le_compat_r; [lra|]. apply Rmult_le_compat_l; lra. }
    assert (CU : 100 * u53 <= coef_err kappa n).
    { unfold coef_err. rewrite uround_u53. fold N. apply Rmult_le_compat_r; [lra|]. replace 100 with (1 * 100) by ring. apply Rmult_le_compat; lra. }
    set (E := coef_err kappa n) in *.
    assert (RH : Rabs (g - D) <= / 2 * E * D).
    { apply Rle_trans with (1 := DG). apply Rle_trans with ((kappa + 19) * u53 * (2 * (N * N)) * / (2 * (N * N))); [right; field; lra|].
      apply Rmult_le_compat; try lra. apply Rmult_le_pos; [apply Rmult_le_pos; lra|lra]. }
    assert (ED : / 2 * E * D <= / 20 * D) by (apply Rmult_le_compat_r; lra).
    assert (GL : 95 / 100 * D <= g) by (apply Rabs_le_inv in RH; lra). assert (G0 : 0 < g) by lra.
    assert (L0 : 0 < l) by (assert (X := bpow_gt_0 radix2 (-900)); lra).
    assert (Q0 : 0 < l / D) by (apply Rdiv_lt_0_compat; lra). set (q := l / D) in *.
    assert (QL : / 2 * bpow radix2 (-900) <= q).
    { unfold q, Rdiv. rewrite Rmult_comm. apply Rmult_le_compat; try lra; [left; apply bpow_gt_0|apply Rinv_le_contravar; lra]. }
    assert (QB : q <= bpow radix2 960).
    { unfold q. apply Rle_trans with (bpow radix2 900 * (2 * (N * N))).
      - unfold Rdiv. apply Rmult_le_compat; try lra; [left; apply Rinv_0_lt_compat; lra|]. rewrite <- (Rinv_inv (2 * (N * N))). apply Rinv_le_contravar; lra.
      - change (bpow radix2 960) with (bpow radix2 (900 + 60)). rewrite bpow_plus. apply Rmult_le_compat_l; [apply bpow_ge_0|].
        apply Rle_trans with (2 * (bpow radix2 26 * bpow radix2 26)); [apply Rmult_le_compat_l; [lra|]; apply Rmult_le_compat; lra|].
        rewrite <- bpow_plus. change 2 with (bpow radix2 1). rewrite <- bpow_plus. apply bpow_le. lia. }
    assert (LG : Rabs (l / g - q) <= 53 / 100 * E * q).
    { replace (l / g - q) with (q * ((D - g) / g)) by (unfold q; field; lra). rewrite Rabs_mult, (Rabs_pos_eq q), Rmult_comm by lra. apply Rmult_le_compat_r; [lra|].
      unfold Rdiv. rewrite Rabs_mult, Rabs_inv, (Rabs_pos_eq g), Rabs_minus_sym by lra.
      apply Rle_trans with (/ 2 * E * D * / (95 / 100 * D)).
      - apply Rmult_le_compat; [apply Rabs_pos|left; apply Rinv_0_lt_compat; lra|exact RH|apply Rinv_le_contravar; lra].
      - replace (/ 2 * E * D * / (95 / 100 * D)) with (50 / 95 * E) by (field; lra). lra. }
    assert (EQ : 53 / 100 * E * q <= 53 / 1000 * q) by (apply Rmult_le_compat_r; lra).
    assert (LB : Rabs (l / g) <= 106 / 100 * q) by (replace (l / g) with ((l / g - q) + q) by ring; apply Rle_trans with (1 := Rabs_triang _ _); rewrite (Rabs_pos_eq q) by lra; lra).
    assert (B6 : 4 * bpow radix2 960 <= bpow radix2 1000) by (change 4 with (bpow radix2 2); rewrite <- bpow_plus; apply bpow_le; lia).
    destruct (div_ok lo ((nofZ 1 : f64) -! xt) HF FG) as (FD & VD); [change (g <> 0); lra|fold l g; apply L_Gen64.small_big; lra|]. fold l g in VD.
    assert (RD := rnd_err (l / g)). rewrite <- VD in RD. set (w := lo /! ((nofZ 1 : f64) -! xt)) in *.
    assert (E9 := eta_900). assert (UL : u53 * Rabs (l / g) <= u53 * (106 / 100 * q)) by (apply Rmult_le_compat_l; lra).
    assert (UQ : / 1000 * u53 * bpow radix2 (-900) <= / 1000 * u53 * (2 * q)) by (apply Rmult_le_compat_l; lra).
    assert (UE : 100 * u53 * q <= E * q) by (apply Rmult_le_compat_r; lra).
    assert (UQ0 : 0 <= u53 * q) by (apply Rmult_le_pos; lra).
    assert (WQ : Rabs (val w - q) <= E * q).
    { replace (val w - q) with ((val w - l / g) + (l / g - q)) by ring. apply Rle_trans with (1 := Rabs_triang _ _). lra. }
    assert (EQ2 : E * q <= / 10 * q) by (apply Rmult_le_compat_r; lra).
    destruct (double_exact w FD) as ((FR & VR) & _).
    { unfold big. replace (val w) with ((val w - q) + q) by ring. apply Rle_trans with (1 := Rabs_triang _ _). rewrite (Rabs_pos_eq q) by lra. lra. }
    split; [exact FR|]. change (val (nofZ 2 * (lo / (nofZ 1 - xt)))%num) with (val ((nofZ 2 : f64) *! w)). rewrite VR.
    replace (2 * l / D) with (2 * q) by (unfold q; field; lra). replace (2 * val w - 2 * q) with (2 * (val w - q)) by ring.
    rewrite Rabs_mult, (Rabs_pos_eq 2) by lra. lra.
Qed.

(** ** Sums, normalisation *)
Lemma rerr_coef kappa n i : 0 <= kappa -> (i <= n)%nat -> 0 <= rerr i (kappa + 16) <= INR (n + 1) * INR (n + 1) * (3 * kappa + 60) * u53.
Proof.
  intros Hk Hi. assert (U := u_tiny). unfold rerr. assert (P := pos_INR i). assert (L : INR i <= INR (n + 1)) by (apply le_INR; lia).
  replace ((3 * (kappa + 16) + 12) * u53) with ((3 * kappa + 60) * u53) by ring. assert (K : 0 <= (3 * kappa + 60) * u53) by (apply Rmult_le_pos; lra). split.
  - apply Rmult_le_pos; [apply Rmult_le_pos; lra|exact K].
  - rewrite (Rmult_assoc (INR (n + 1) * INR (n + 1))). apply Rmult_le_compat_r; [exact K|]. apply Rmult_le_compat; lra.
Qed.
Lemma coef_split kappa n : coef_err kappa n = INR (n + 1) * INR (n + 1) * (3 * kappa + 60) * u53 + INR (n + 1) * INR (n + 1) * (kappa + 40) * u53.
Proof. unfold coef_err. rewrite uround_u53. ring. Qed.
Lemma sq_le n : 1 <= INR (n + 1) * INR (n + 1).
Proof. assert (H := one_np n). replace 1 with (1 * 1) by ring. apply Rmult_le_compat; lra. Qed.
(** The part of the error that pays for everything except the polynomials. *)
Lemma coef_rest kappa n : 0 <= kappa -> INR (n + 1) * INR (n + 1) * (kappa + 40) * u53 >= 40 * (INR (n + 1) * INR (n + 1) * u53) /\ u53 <= INR (n + 1) * INR (n + 1) * u53.
Proof.
  intros Hk. assert (U := u_tiny). assert (S := sq_le n). split.
  - apply Rle_ge. replace (40 * (INR (n + 1) * INR (n + 1) * u53)) with (INR (n + 1) * INR (n + 1) * 40 * u53) by ring. apply Rmult_le_compat_r; [lra|]. apply Rmult_le_compat_l; lra.
  - rewrite <- (Rmult_1_l u53) at 1. apply Rmult_le_compat_r; lra.
Qed.
Lemma t_node kappa (TT : NumTr f64) n r i : libm_near kappa TT -> 0 <= kappa <= 1000 -> coef_err kappa n <= / 10 -> (r <= n)%nat -> (i <= n)%nat ->
  let e := rerr i (kappa + 16) in
  is_finite (chebyshev_t i (cheb_node (T := f64) n r)) = true /\ Rabs (val (chebyshev_t i (cheb_node (T := f64) n r)) - cheb i (node n r)) <= e * 1 /\ Rabs (cheb i (node n r)) <= 1 /\ 0 <= e <= / 10.
Proof.
  intros HL HK HE Hr Hi e. assert (U := u_tiny). destruct (cnode_near kappa TT n r HL (order_small kappa n (proj1 HK) HE) Hr) as (F & E).
  assert (A := node_abs n r Hr). assert (R := rerr_coef kappa n i (proj1 HK) Hi). fold e in R. assert (S := coef_split kappa n). assert (Q := coef_rest kappa n (proj1 HK)).
  assert (E2 : e <= / 10) by lra.
  assert (KU : (kappa + 16) * u53 <= / 2) by (assert ((kappa + 16) * u53 <= 1016 * u53) by (apply Rmult_le_compat_r; lra); lra).
  destruct (t_near _ _ (kappa + 16) F A E ltac:(lra) KU i ltac:(fold e; lra)) as (FT & ET).
  split; [exact FT|]. split; [rewrite Rmult_1_r; exact ET|]. split; [apply cheb_abs; exact A|]. lra.
Qed.
Lemma tiny_big600 : 0 < tiny /\ 1000 * bpow radix2 600 <= bpow radix2 620 /\ bpow radix2 600 <= huge /\ bpow radix2 620 * bpow radix2 53 <= / 2 * big.
Proof.
  split; [apply bpow_gt_0|]. split; [|split].
  - change (bpow radix2 620) with (bpow radix2 (20 + 600)). rewrite bpow_plus. apply Rmult_le_compat_r; [apply bpow_ge_0|]. simpl. lra.
  - apply bpow_le. lia.
  - rewrite <- bpow_plus. unfold big. change (/ 2) with (bpow radix2 (-1)). rewrite <- bpow_plus. apply bpow_le. lia.
Qed.
Lemma inv_u53 N : N * u53 <= / 20 -> N <= bpow radix2 53.
Proof.
  intros H. assert (P := bpow_gt_0 radix2 53). assert (E : bpow radix2 53 * u53 = 1).
  { unfold u53. rewrite bpow_powerRZ. change (IZR radix2) with 2. change 53%Z with (Z.of_nat 53). rewrite <- pow_powerRZ. apply Rinv_r. apply pow_nonzero. lra. }
  assert (U := u_tiny). apply Rmult_le_reg_r with u53; lra.
Qed.
Lemma ls_const {A} (l : list A) c : ls (fun _ => c) l = INR (length l) * c.
Proof. induction l as [|a l IH]; [cbn; ring|]. cbn [length]. rewrite S_INR. change (ls (fun _ => c) (a :: l)) with (c + ls (fun _ => c) l). rewrite IH. ring. Qed.

(** A sum of [N] terms times a factor [d] near [W/N]. *)
Lemma coef_gen {A} (l : list A) (g : A -> f64) (G : A -> R) E M (d : f64) D W :
  (forall a, In a l -> is_finite (g a) = true /\ Rabs (G a) <= M /\ Rabs (val (g a) - G a) <= E * M) ->
  0 <= E -> E + 3 / 2 * INR (length l) * u53 <= / 5 -> INR (length l) * u53 <= / 20 -> tiny <= M <= bpow radix2 600 -> 1 <= W <= 8 -> INR (length l) * D = W -> 0 < D ->
  is_finite d = true -> Rabs (val d - D) <= 10 * u53 * D ->
  let v := fold_left (fun acc a => acc +! g a) l (nofZ 0) *! d in
  is_finite v = true /\ Rabs (ls G l * D) <= M * W /\ Rabs (val v - ls G l * D) <= (E + 3 / 2 * INR (length l) * u53 + 15 * u53) * (M * W).
Proof.
  intros H HE HS HL HM HW HN HD Fd Ed v. assert (U := u_tiny). destruct tiny_big600 as (TP & B1 & _ & B2). assert (L0 := pos_INR (length l)).
  assert (LB : ls (fun _ => M) l = INR (length l) * M) by apply ls_const. assert (NB := inv_u53 _ HL).
  assert (NM : INR (length l) * M <= bpow radix2 620 * bpow radix2 53).
  { rewrite Rmult_comm. apply Rmult_le_compat; try lra. }
  assert (P53 := bpow_gt_0 radix2 53). assert (P600 := bpow_gt_0 radix2 600).
  assert (NU : 0 <= INR (length l) * u53) by (apply Rmult_le_pos; lra).
  destruct (sum_near g G (fun _ => M) l E H ltac:(lra) ltac:(rewrite LB; lra) HL) as (FS & BS & ES). rewrite LB in BS, ES.
  set (e1 := E + 3 / 2 * INR (length l) * u53) in *.
  assert (BW : INR (length l) * M * D = M * W) by (rewrite <- HN; ring).
  assert (MW : M <= M * W) by (rewrite <- (Rmult_1_r M) at 1; apply Rmult_le_compat_l; lra).
  assert (MW2 : M * W <= bpow radix2 600 * 8) by (apply Rmult_le_compat; lra).
  assert (P620 : bpow radix2 620 <= big) by (unfold big; apply bpow_le; lia).
  assert (E0 : 0 <= e1) by (unfold e1; lra). assert (AD : Rabs D <= D) by (rewrite Rabs_pos_eq; lra).
  destruct (prod_near _ d (ls G l) D (INR (length l) * M) D e1 (10 * u53) FS Fd BS AD ES Ed ltac:(lra) ltac:(lra) ltac:(right; rewrite BW; lra) ltac:(rewrite BW; lra)) as (FV & BV & EV).
  rewrite BW in BV, EV. split; [exact FV|]. split; [exact BV|]. apply Rle_trans with (1 := EV). apply Rmult_le_compat_r; [lra|].
  assert (e1 * (10 * u53) <= / 5 * (10 * u53)) by (apply Rmult_le_compat_r; lra). lra.
Qed.
Lemma quot_near (v k : f64) V B E K : is_finite v = true -> Rabs V <= B -> Rabs (val v - V) <= E * B -> 0 <= E <= 1 -> tiny <= B <= bpow radix2 700 ->
  is_finite k = true -> val k = K -> 1 <= K -> is_finite (v /! k) = true /\ Rabs (val (v /! k) - V / K) <= (E + 3 * u53) * B.
Proof.
  intros F HV HE E1 HB FK VK K1. assert (U := u_tiny). destruct tiny_big600 as (TP & _).
  assert (B1 : E * B <= B) by (rewrite <- (Rmult_1_l B) at 2; apply Rmult_le_compat_r; lra).
  assert (VB : Rabs (val v) <= 2 * B) by (replace (val v) with ((val v - V) + V) by ring; apply Rle_trans with (1 := Rabs_triang _ _); lra).
  assert (IK : 0 < / K <= 1) by (split; [apply Rinv_0_lt_compat; lra|]; apply Rle_trans with (/ 1); [apply Rinv_le_contravar; lra|lra]).
  assert (QB : Rabs (val v / K) <= 2 * B).
  { unfold Rdiv. rewrite Rabs_mult, (Rabs_pos_eq (/ K)) by lra. apply Rle_trans with (Rabs (val v) * 1); [apply Rmult_le_compat_l; [apply Rabs_pos|lra]|lra]. }
  assert (B7 : 2 * bpow radix2 700 <= bpow radix2 1000) by (change 2 with (bpow radix2 1); rewrite <- bpow_plus; apply bpow_le; lia).
  destruct (div_ok v k F FK) as (FD & VD); [rewrite VK; lra|rewrite VK; apply L_Gen64.small_big; lra|]. split; [exact FD|].
  assert (RE := rnd_err (val v / val k)). rewrite <- VD, VK in RE. assert (E9 := eta_900). fold tiny in E9.
  assert (UT : / 1000 * u53 * tiny <= / 1000 * u53 * B) by (apply Rmult_le_compat_l; lra).
  replace (val (v /! k) - V / K) with ((val (v /! k) - val v / K) + (val v - V) * / K) by (field; lra).
  apply Rle_trans with (1 := Rabs_triang _ _). rewrite Rabs_mult, (Rabs_pos_eq (/ K)) by lra.
  assert (Rabs (val v - V) * / K <= Rabs (val v - V) * 1) by (apply Rmult_le_compat_l; [apply Rabs_pos|lra]).
  assert (u53 * Rabs (val v / K) <= u53 * (2 * B)) by (apply Rmult_le_compat_l; lra). assert (0 <= u53 * B) by (apply Rmult_le_pos; lra). lra.
Qed.

(** ** Normalisation factors *)
Lemma apx_scale k e (d : f64) D : (k <= 9)%nat -> 0 < D -> L_Units64.apx k e d D -> is_finite d = true /\ Rabs (val d - D) <= 10 * u53 * D.
Proof.
  intros Hk HD H. apply L_Units64.apx_result in H; [|lia]. destruct H as (F & E). split; [exact F|]. apply Rle_trans with (1 := E).
  rewrite (Rabs_pos_eq D) by lra. apply Rmult_le_compat_r; [lra|]. assert (U := u_tiny). apply Rmult_le_compat_r; [lra|].
  replace 10 with (INR 10) by (rewrite INR_IZR_INZ; reflexivity). apply le_INR. lia.
Qed.
Lemma apx_2 : L_Units64.apx 0 1 (nofZ 2 : f64) 2.
Proof. apply (L_Units64.apx_ofZ 1 2); lia. Qed.
Lemma apx_4 : L_Units64.apx 0 2 (nofZ 4 : f64) 4.
Proof. apply (L_Units64.apx_ofZ 2 4); lia. Qed.
Lemma apx_8 : L_Units64.apx 0 3 (nofZ 8 : f64) 8.
Proof. apply (L_Units64.apx_ofZ 3 8); lia. Qed.
Lemma scale1 n : INR (n + 1) <= bpow radix2 26 -> let D := 2 / INR (n + 1) in let d := (nofZ 2 : f64) /! ((nofZ (Z.of_nat n) : f64) +! nofZ 1) in
  0 < D /\ is_finite d = true /\ Rabs (val d - D) <= 10 * u53 * D.
Proof.
  intros H D d. assert (P := one_np n). assert (D0 : 0 < D) by (apply Rdiv_lt_0_compat; lra). split; [exact D0|].
  apply (apx_scale 1 27); [lia|exact D0|]. apply (L_Units64.apx_div 0 0 1 26 _ _ _ _ apx_2 (count_apx n H)); lia.
Qed.
Lemma scale2 m n : INR (m + 1) <= bpow radix2 26 -> INR (n + 1) <= bpow radix2 26 -> let D := 4 / (INR (m + 1) * INR (n + 1)) in
  let d := (nofZ 4 : f64) /! (((nofZ (Z.of_nat m) : f64) +! nofZ 1) *! ((nofZ (Z.of_nat n) : f64) +! nofZ 1)) in
  0 < D /\ is_finite d = true /\ Rabs (val d - D) <= 10 * u53 * D.
Proof.
  intros H H' D d. assert (P := one_np n). assert (P' := one_np m). assert (D0 : 0 < D) by (apply Rdiv_lt_0_compat; [lra|apply Rmult_lt_0_compat; lra]). split; [exact D0|].
  apply (apx_scale 2 54); [lia|exact D0|]. assert (X := L_Units64.apx_mult 0 0 26 26 _ _ _ _ (count_apx m H) (count_apx n H') ltac:(lia) ltac:(lia) ltac:(lia) ltac:(lia)).
  apply (L_Units64.apx_div 0 1 2 52 _ _ _ _ apx_4 X); lia.
Qed.
Lemma scale3 m n p : INR (m + 1) <= bpow radix2 26 -> INR (n + 1) <= bpow radix2 26 -> INR (p + 1) <= bpow radix2 26 -> let D := 8 / (INR (m + 1) * INR (n + 1) * INR (p + 1)) in
  let d := (nofZ 8 : f64) /! (((nofZ (Z.of_nat m) : f64) +! nofZ 1) *! ((nofZ (Z.of_nat n) : f64) +! nofZ 1) *! ((nofZ (Z.of_nat p) : f64) +! nofZ 1)) in
  0 < D /\ is_finite d = true /\ Rabs (val d - D) <= 10 * u53 * D.
Proof.
  intros H H' H'' D d. assert (P := one_np n). assert (P' := one_np m). assert (P'' := one_np p).
  assert (D0 : 0 < D) by (apply Rdiv_lt_0_compat; [lra|apply Rmult_lt_0_compat; [apply Rmult_lt_0_compat|]; lra]). split; [exact D0|].
  apply (apx_scale 3 81); [lia|exact D0|]. assert (X := L_Units64.apx_mult 0 0 26 26 _ _ _ _ (count_apx m H) (count_apx n H') ltac:(lia) ltac:(lia) ltac:(lia) ltac:(lia)).
  assert (Y := L_Units64.apx_mult 1 0 52 26 _ _ _ _ X (count_apx p H'') ltac:(lia) ltac:(lia) ltac:(lia) ltac:(lia)).
  apply (L_Units64.apx_div 0 2 3 78 _ _ _ _ apx_8 Y); lia.
Qed.

(** ** One variable *)
Definition xs {TT : NumTr f64} (a : axis f64) (n r : nat) : f64 := to_segment a (cheb_node n r).
Lemma count_u kappa n : 0 <= kappa -> INR (n + 1) * u53 <= / 100 * coef_err kappa n.
Proof.
  intros Hk. assert (U := u_tiny). assert (P := one_np n). unfold coef_err. rewrite uround_u53.
  replace (/ 100 * (INR (n + 1) * INR (n + 1) * (4 * kappa + 100) * u53)) with (INR (n + 1) * u53 * (INR (n + 1) * ((4 * kappa + 100) / 100))) by field.
  rewrite <- (Rmult_1_r (INR (n + 1) * u53)) at 1. apply Rmult_le_compat_l; [apply Rmult_le_pos; lra|]. rewrite <- (Rmult_1_l 1) at 1. apply Rmult_le_compat; lra.
Qed.
Lemma coef1_near kappa (TT : NumTr f64) (f : f64 -> f64) (a : axis f64) n M : libm_near kappa TT -> 0 <= kappa <= 1000 -> axis_usable a -> sampled kappa f a n M -> tiny <= M <= bpow radix2 600 ->
  coef_err kappa n <= / 10 -> forall i, (i <= n)%nat ->
  within (2 * coef_err kappa n * M) (c1_a (cs1_compute_ai (cs1_new f a n)) i) (weight n i * bsum (n + 1) (fun r => dvalue (f (xs a n r)) * cheb i (node n r))).
Proof.
  intros HL HK HA HS HM HE i Hi. assert (U := u_tiny). assert (TP := proj1 tiny_big600). assert (N26 := order_small kappa n (proj1 HK) HE). assert (N1 := one_np n).
  destruct (scale1 n N26) as (D0 & Fd & Ed). set (D := 2 / INR (n + 1)) in *.
  set (e := rerr i (kappa + 16)). assert (RE := rerr_coef kappa n i (proj1 HK) Hi). fold e in RE. assert (SP := coef_split kappa n). destruct (coef_rest kappa n (proj1 HK)) as (CR & CU).
  assert (NU := count_u kappa n (proj1 HK)). assert (NQ : INR (n + 1) * u53 <= INR (n + 1) * INR (n + 1) * u53).
  { apply Rmult_le_compat_r; [lra|]. rewrite <- (Rmult_1_l (INR (n + 1))) at 1. apply Rmult_le_compat_r; lra. }
  assert (NP : 0 <= INR (n + 1) * u53) by (apply Rmult_le_pos; lra).
  assert (L : length (seq 0 (n + 1)) = (n + 1)%nat) by apply seq_length.
  set (g := fun r => f (xs a n r) *! chebyshev_t i (cheb_node (T := f64) n r)).
  assert (T : forall r, In r (seq 0 (n + 1)) -> is_finite (g r) = true /\ Rabs (val (f (xs a n r)) * cheb i (node n r)) <= M /\ Rabs (val (g r) - val (f (xs a n r)) * cheb i (node n r)) <= (e + 2 * u53) * M).
  { intros r Hr. apply in_seq in Hr. destruct (HS r (xs a n r) ltac:(lia) (seg_near kappa TT a n r HL HK HE HA ltac:(lia))) as (FF & BF). unfold dvalue in BF.
    destruct (t_node kappa TT n r i HL HK HE ltac:(lia) Hi) as (FT & ET & BT & Be). fold e in ET, Be.
    destruct (prod_near (f (xs a n r)) _ (val (f (xs a n r))) _ M 1 0 e FF FT BF BT) as (F & B & E); try lra.
    - rewrite Rminus_diag_eq, Rabs_R0 by reflexivity. lra.
    - assert (bpow radix2 600 <= big) by (unfold big; apply bpow_le; lia). lra.
    - split; [exact F|]. split; [lra|]. apply Rle_trans with (1 := E). rewrite Rmult_1_r. apply Rmult_le_compat_r; lra. }
  assert (ND : INR (n + 1) * D = 2) by (unfold D; field; lra).
  destruct (coef_gen (seq 0 (n + 1)) g (fun r => val (f (xs a n r)) * cheb i (node n r)) (e + 2 * u53) M _ D 2 T ltac:(lra) ltac:(rewrite L; lra) ltac:(rewrite L; lra) HM ltac:(lra) ltac:(rewrite L; exact ND) D0 Fd Ed) as (FV & BV & EV).
  rewrite L in EV. rewrite ls_seq in BV, EV. set (S := bsum (n + 1) (fun r => val (f (xs a n r)) * cheb i (node n r))) in *.
  change (bsum (n + 1) (fun r => dvalue (f (xs a n r)) * cheb i (node n r))) with S.
  set (v := fold_left (fun acc r => acc +! g r) (seq 0 (n + 1)) (nofZ 0) *! _) in *.
  assert (FIN : (e + 2 * u53 + 3 / 2 * INR (n + 1) * u53 + 15 * u53 + 3 * u53) * (M * 2) <= 2 * coef_err kappa n * M).
  { replace (2 * coef_err kappa n * M) with (coef_err kappa n * (M * 2)) by ring. apply Rmult_le_compat_r; lra. }
  assert (U0 : 0 <= 3 * u53 * (M * 2)) by (apply Rmult_le_pos; lra). set (E := e + 2 * u53 + 3 / 2 * INR (n + 1) * u53 + 15 * u53) in *.
  change (c1_a (cs1_compute_ai (cs1_new f a n)) i) with (if (i =? 0)%nat then v /! nofZ 2 else v). unfold within, dvalue.
  replace (INR (n + 1)) with (INR n + 1) in D by (rewrite plus_INR; reflexivity). destruct i as [|i]; cbn [Nat.eqb weight].
  - destruct two_ok as (F2 & V2). destruct (quot_near v (nofZ 2) (S * D) (M * 2) E 2 FV BV EV) as (FQ & EQ); try assumption; try lra.
    + unfold E. split; lra.
    + assert (bpow radix2 600 * 2 <= bpow radix2 700) by (change 2 with (bpow radix2 1); rewrite <- bpow_plus; apply bpow_le; lia). lra.
    + split; [exact FQ|]. replace (1 / (INR n + 1) * S) with (S * D / 2) by (unfold D; rewrite plus_INR; change (INR 1) with 1; field; rewrite plus_INR in N1; change (INR 1) with 1 in N1; lra). lra.
  - split; [exact FV|]. replace (2 / (INR n + 1) * S) with (S * D) by (unfold D; rewrite plus_INR; change (INR 1) with 1; field; rewrite plus_INR in N1; change (INR 1) with 1 in N1; lra). lra.
Qed.
