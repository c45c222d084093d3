(** The 2D interpolation in binary64. *)
From Coq Require Import List Arith ZArith Reals Bool Lia Lra Psatz.
From Flocq Require Import Core.Core IEEE754.BinarySingleNaN.
From Verif Require Import Outcome Num NumFun F64 L_F64 L_Linspace64 L_F64Err StdAlgo M_Interp1d S_Interp1d L_Search L_Interp1d
  S_Angles S_Double L_Series64 L_Interp64 L_Special64 L_Apx M_Interp2d S_Interp2d L_Interp2d.
Import ListNotations.
Local Open Scope R_scope.

(** ** One cell *)
Definition fc2 (x1 x2 y1 y2 d11 d12 d21 d22 : f64) : coef2 f64 :=
  let ix := f64_ofZ 1 /! (x2 -! x1) in let iy := f64_ofZ 1 /! (y2 -! y1) in
  mkC2
   ((d11 *! x2 *! y2 -! d12 *! x2 *! y1 -! d21 *! x1 *! y2 +! d22 *! x1 *! y1) *! ix *! iy)
   ((Bopp d11 *! y2 +! d12 *! y1 +! d21 *! y2 -! d22 *! y1) *! ix *! iy)
   ((Bopp d11 *! x2 +! d12 *! x2 +! d21 *! x1 -! d22 *! x1) *! ix *! iy)
   ((d11 -! d12 -! d21 +! d22) *! ix *! iy).
Definition fceval (c : coef2 f64) (x y : f64) : f64 := c_1 c +! c_2 c *! x +! c_3 c *! y +! c_4 c *! x *! y.

Section Cell.
Context (x1 x2 y1 y2 d11 d12 d21 d22 x y : f64).
Hypothesis Fx1 : is_finite x1 = true.
Hypothesis Fx2 : is_finite x2 = true.
Hypothesis Fy1 : is_finite y1 = true.
Hypothesis Fy2 : is_finite y2 = true.
Hypothesis F11 : is_finite d11 = true.
Hypothesis F12 : is_finite d12 = true.
Hypothesis F21 : is_finite d21 = true.
Hypothesis F22 : is_finite d22 = true.
Hypothesis Fx : is_finite x = true.
Hypothesis Fy : is_finite y = true.
Let dx := val x2 - val x1.
Let dy := val y2 - val y1.
Let X := Rmax (Rabs (val x1)) (Rabs (val x2)).
Let Y := Rmax (Rabs (val y1)) (Rabs (val y2)).
Let D := Rabs (val d11) + Rabs (val d12) + Rabs (val d21) + Rabs (val d22).
Let b100 := bpow radix2 100.
Let delta := bpow radix2 (-602).
Hypothesis Hdx : / b100 <= dx.
Hypothesis Hdy : / b100 <= dy.
Hypothesis HX : X <= b100.
Hypothesis HY : Y <= b100.
Hypothesis HD : D <= bpow radix2 400.
Hypothesis Hx : val x1 <= val x <= val x2.
Hypothesis Hy : val y1 <= val y <= val y2.

Lemma bp a : 0 < bpow radix2 a. Proof. apply bpow_gt_0. Qed.
Lemma b100_pos : 0 < b100. Proof. apply bp. Qed.
Lemma b100_inv : / b100 = bpow radix2 (-100). Proof. unfold b100. rewrite <- bpow_opp. reflexivity. Qed.
Lemma dx_pos : 0 < dx. Proof. assert (P := Rinv_0_lt_compat _ b100_pos). lra. Qed.
Lemma dy_pos : 0 < dy. Proof. assert (P := Rinv_0_lt_compat _ b100_pos). lra. Qed.
Lemma half_w (a b c : R) : Rmax (Rabs a) (Rabs b) = c -> b - a <= 2 * c.
Proof.
  intros H. assert (A := Rmax_l (Rabs a) (Rabs b)). assert (B := Rmax_r (Rabs a) (Rabs b)). rewrite H in *.
  apply Rabs_le_inv in A. apply Rabs_le_inv in B. lra.
Qed.
Lemma dx_X : dx <= 2 * X. Proof. apply half_w. reflexivity. Qed.
Lemma dy_Y : dy <= 2 * Y. Proof. apply half_w. reflexivity. Qed.

(** [between z a b]: 2^a <= z <= 2^b. *)
Definition between (z : R) (a b : Z) := bpow radix2 a <= z <= bpow radix2 b.
Lemma between_mult z w a b c d : between z a b -> between w c d -> between (z * w) (a + c) (b + d).
Proof.
  intros [A B] [C E]. unfold between. rewrite !bpow_plus. assert (P := bp a). assert (Q := bp c).
  split; apply Rmult_le_compat; lra.
Qed.
Lemma between_tau z a b : between z a b -> (-1010 <= a)%Z -> (b <= 1000)%Z -> tau <= z <= big.
Proof.
  intros [A B] Ha Hb. assert (bpow radix2 (-1010) <= bpow radix2 a) by (apply bpow_le; auto).
  assert (bpow radix2 b <= bpow radix2 1000) by (apply bpow_le; auto). unfold tau, big. lra.
Qed.
Lemma between_inv z a b : between z a b -> between (1 / z) (- b) (- a).
Proof.
  intros [A B]. unfold between, Rdiv. rewrite Rmult_1_l, !bpow_opp. assert (P := bp a). assert (Q := bp b).
  split; apply Rinv_le_contravar; lra.
Qed.
Lemma between_pos z a b : between z a b -> 0 < z.
Proof. intros [A _]. assert (P := bp a). lra. Qed.

Lemma dx_bt : between dx (-100) 101.
Proof.
  split; [rewrite <- b100_inv; auto|]. eapply Rle_trans; [apply dx_X|].
  change 101%Z with (1 + 100)%Z. rewrite bpow_plus. simpl (bpow radix2 1). fold b100. lra.
Qed.
Lemma dy_bt : between dy (-100) 101.
Proof.
  split; [rewrite <- b100_inv; auto|]. eapply Rle_trans; [apply dy_Y|].
  change 101%Z with (1 + 100)%Z. rewrite bpow_plus. simpl (bpow radix2 1). fold b100. lra.
Qed.
Lemma X_bt : between X (-101) 100.
Proof.
  split; auto. assert (A := dx_X). rewrite b100_inv in Hdx.
  change (-101)%Z with (-1 + -100)%Z. rewrite bpow_plus. simpl (bpow radix2 (-1)). lra.
Qed.
Lemma Y_bt : between Y (-101) 100.
Proof.
  split; auto. assert (A := dy_Y). rewrite b100_inv in Hdy.
  change (-101)%Z with (-1 + -100)%Z. rewrite bpow_plus. simpl (bpow radix2 (-1)). lra.
Qed.

Lemma delta_small : 0 < delta <= 1.
Proof. split; [apply bp|]. change 1 with (bpow radix2 0). apply bpow_le. lia. Qed.
Lemma one_400 : 8 <= bpow radix2 400.
Proof. change 8 with (bpow radix2 3). apply bpow_le. lia. Qed.

(** Magnitude of a sum of data, lifted above the underflow. *)
Definition mag (d : f64) : R := Rabs (val d) + delta.
Let S := mag d11 + mag d12 + mag d21 + mag d22.

Lemma D_bt (z : R) : delta <= z <= D + 4 * delta -> between z (-602) 401.
Proof.
  intros [A B]. split; auto. assert (Q := delta_small). assert (O := one_400).
  eapply Rle_trans; [exact B|]. change 401%Z with (1 + 400)%Z. rewrite bpow_plus. simpl (bpow radix2 1). lra.
Qed.
Lemma mag_ge d : delta <= mag d. Proof. unfold mag. assert (P := Rabs_pos (val d)). lra. Qed.
Lemma mag_apx d : is_finite d = true -> apx d (val d) (mag d) 0.
Proof. intros F. apply apx_id; auto. unfold mag. assert (Q := delta_small). lra. Qed.
Lemma S_D : S = D + 4 * delta. Proof. unfold S, D, mag. ring. Qed.

Lemma coord_apx (z : f64) (M : R) : is_finite z = true -> Rabs (val z) <= M -> apx z (val z) M 0.
Proof. apply apx_id. Qed.
Lemma ax1 : apx x1 (val x1) X 0. Proof. apply apx_id; auto. apply Rmax_l. Qed.
Lemma ax2 : apx x2 (val x2) X 0. Proof. apply apx_id; auto. apply Rmax_r. Qed.
Lemma ay1 : apx y1 (val y1) Y 0. Proof. apply apx_id; auto. apply Rmax_l. Qed.
Lemma ay2 : apx y2 (val y2) Y 0. Proof. apply apx_id; auto. apply Rmax_r. Qed.
Lemma within (a b c M : R) : Rmax (Rabs a) (Rabs b) = M -> a <= c <= b -> Rabs c <= M.
Proof.
  intros H Hc. assert (A := Rmax_l (Rabs a) (Rabs b)). assert (B := Rmax_r (Rabs a) (Rabs b)). rewrite H in *.
  apply Rabs_le_inv in A. apply Rabs_le_inv in B. apply Rabs_le. lra.
Qed.
Lemma axx : apx x (val x) X 0.
Proof. apply apx_id; auto. apply (within (val x1) (val x2)); auto. Qed.
Lemma ayy : apx y (val y) Y 0.
Proof. apply apx_id; auto. apply (within (val y1) (val y2)); auto. Qed.

Lemma inv_apx (a b : f64) (w : R) : is_finite a = true -> is_finite b = true -> val b - val a = w -> between w (-100) 101 ->
  apx (f64_ofZ 1 /! (b -! a)) (1 / w) (1 / w) (203 / 100).
Proof.
  intros Fa Fb E W. assert (P := between_pos _ _ _ W).
  assert (AD : apx (b -! a) w (Rabs w) 1).
  { rewrite <- E. apply apx_diff; auto. rewrite E, Rabs_pos_eq by lra.
    apply (between_tau w (-100) 101); auto; lia. }
  assert (K := apx_div (f64_ofZ 1) (b -! a) 1 w 1 0 1 apx_one AD ltac:(lra) ltac:(lra) ltac:(lra)).
  rewrite (Rabs_pos_eq w) in K by lra. assert (IB := between_inv _ _ _ W).
  specialize (K (between_tau _ _ _ IB ltac:(lia) ltac:(lia))).
  replace (203 / 100) with (0 + 1 + 103 / 100) by lra. exact K.
Qed.

Let ix := f64_ofZ 1 /! (x2 -! x1).
Let iy := f64_ofZ 1 /! (y2 -! y1).
Lemma aix : apx ix (1 / dx) (1 / dx) (203 / 100).
Proof. apply inv_apx; auto. apply dx_bt. Qed.
Lemma aiy : apx iy (1 / dy) (1 / dy) (203 / 100).
Proof. apply inv_apx; auto. apply dy_bt. Qed.

(** A numerator over the cell area. *)
Lemma over_area n r A k a b : apx n r A k -> 0 <= k <= 100 -> between A a b ->
  (-806 <= a)%Z -> (b <= 700)%Z ->
  apx (n *! ix *! iy) (r * (1 / dx) * (1 / dy)) (A * (1 / dx) * (1 / dy)) (k + 610 / 100) /\
  between (A * (1 / dx) * (1 / dy)) (a - 202) (b + 200).
Proof.
  intros Hn Hk HA Ha Hb.
  assert (B1 := between_mult _ _ _ _ _ _ HA (between_inv _ _ _ dx_bt)).
  assert (B2 := between_mult _ _ _ _ _ _ B1 (between_inv _ _ _ dy_bt)).
  assert (K1 := apx_mult _ _ _ _ _ _ _ _ Hn aix ltac:(lra) ltac:(lra) (between_tau _ _ _ B1 ltac:(lia) ltac:(lia))).
  assert (K2 := apx_mult _ _ _ _ _ _ _ _ K1 aiy ltac:(lra) ltac:(lra) (between_tau _ _ _ B2 ltac:(lia) ltac:(lia))).
  split.
  - replace (k + 610 / 100) with (k + 203 / 100 + 102 / 100 + 203 / 100 + 102 / 100) by lra. exact K2.
  - replace (a - 202)%Z with (a + - (101) + - (101))%Z by lia. replace (b + 200)%Z with (b + - (-100) + - (-100))%Z by lia. exact B2.
Qed.

(** Products of a datum and coordinates. *)
Lemma prod1 d z M : is_finite d = true -> mag d <= D + 4 * delta -> apx z (val z) M 0 -> between M (-101) 100 ->
  apx (d *! z) (val d * val z) (mag d * M) (102 / 100) /\ between (mag d * M) (-703) 501.
Proof.
  intros F H Hz HM. assert (B := between_mult _ _ _ _ _ _ (D_bt (mag d) (conj (mag_ge d) H)) HM).
  split; [|exact B]. replace (102 / 100) with (0 + 0 + 102 / 100) by lra.
  apply apx_mult; try lra; [apply mag_apx; auto|auto|]. apply (between_tau _ _ _ B); lia.
Qed.
Lemma prod2 d z w M N : is_finite d = true -> mag d <= D + 4 * delta -> apx z (val z) M 0 -> between M (-101) 100 ->
  apx w (val w) N 0 -> between N (-101) 100 ->
  apx (d *! z *! w) (val d * val z * val w) (mag d * M * N) (204 / 100) /\ between (mag d * M * N) (-804) 601.
Proof.
  intros F H Hz HM Hw HN. destruct (prod1 d z M F H Hz HM) as [P B].
  assert (B2 := between_mult _ _ _ _ _ _ B HN). split; [|exact B2].
  replace (204 / 100) with (102 / 100 + 0 + 102 / 100) by lra.
  apply apx_mult; auto; try lra. apply (between_tau _ _ _ B2); lia.
Qed.

Lemma mag_D d : d = d11 \/ d = d12 \/ d = d21 \/ d = d22 -> mag d <= D + 4 * delta.
Proof.
  assert (Q := delta_small). assert (A := Rabs_pos (val d11)). assert (B := Rabs_pos (val d12)).
  assert (C := Rabs_pos (val d21)). assert (E := Rabs_pos (val d22)).
  unfold mag, D. intros [->|[->|[->| ->]]]; lra.
Qed.
Lemma S_bt : between S (-602) 401.
Proof.
  apply D_bt. rewrite S_D. split; [|lra]. unfold D. assert (Q := delta_small). assert (A := Rabs_pos (val d11)). assert (B := Rabs_pos (val d12)).
  assert (C := Rabs_pos (val d21)). assert (E := Rabs_pos (val d22)). lra.
Qed.

(** Four terms combined from left to right. *)
Definition pm (s : bool) (f g : f64) : f64 := if s then f +! g else f -! g.
Definition pmR (s : bool) (a b : R) : R := if s then a + b else a - b.
Lemma apx_pm s f g a b A B k l K : apx f a A k -> apx g b B l -> 0 <= k <= K -> 0 <= l <= K -> K <= 1000000 ->
  A + B <= big -> apx (pm s f g) (pmR s a b) (A + B) (K + 101 / 100).
Proof. destruct s; [apply apx_plus|apply apx_minus]. Qed.

Lemma sum4 s1 s2 s3 p q r t a b c e A B C E k : apx p a A k -> apx q b B k -> apx r c C k -> apx t e E k ->
  0 <= k <= 100 -> A + B + C + E <= big ->
  apx (pm s3 (pm s2 (pm s1 p q) r) t) (pmR s3 (pmR s2 (pmR s1 a b) c) e) (A + B + C + E) (k + 303 / 100).
Proof.
  intros H1 H2 H3 H4 Hk Hb.
  assert (A1 := apx_A _ _ _ _ H1). assert (A2 := apx_A _ _ _ _ H2). assert (A3 := apx_A _ _ _ _ H3). assert (A4 := apx_A _ _ _ _ H4).
  assert (K1 := apx_pm s1 _ _ _ _ _ _ _ _ k H1 H2 ltac:(lra) ltac:(lra) ltac:(lra) ltac:(lra)).
  assert (K2 := apx_pm s2 _ _ _ _ _ _ _ _ (k + 101 / 100) K1 H3 ltac:(lra) ltac:(lra) ltac:(lra) ltac:(lra)).
  assert (K3 := apx_pm s3 _ _ _ _ _ _ _ _ (k + 101 / 100 + 101 / 100) K2 H4 ltac:(lra) ltac:(lra) ltac:(lra) ltac:(lra)).
  replace (k + 303 / 100) with (k + 101 / 100 + 101 / 100 + 101 / 100) by lra. exact K3.
Qed.

Lemma sum4_mmp p q r t a b c e A B C E k : apx p a A k -> apx q b B k -> apx r c C k -> apx t e E k ->
  0 <= k <= 100 -> A + B + C + E <= big ->
  apx (p -! q -! r +! t) (a - b - c + e) (A + B + C + E) (k + 303 / 100).
Proof. exact (sum4 false false true p q r t a b c e A B C E k). Qed.
Lemma sum4_ppm p q r t a b c e A B C E k : apx p a A k -> apx q b B k -> apx r c C k -> apx t e E k ->
  0 <= k <= 100 -> A + B + C + E <= big ->
  apx (p +! q +! r -! t) (a + b + c - e) (A + B + C + E) (k + 303 / 100).
Proof. exact (sum4 true true false p q r t a b c e A B C E k). Qed.
Lemma sum4_ppp p q r t a b c e A B C E k : apx p a A k -> apx q b B k -> apx r c C k -> apx t e E k ->
  0 <= k <= 100 -> A + B + C + E <= big ->
  apx (p +! q +! r +! t) (a + b + c + e) (A + B + C + E) (k + 303 / 100).
Proof. exact (sum4 true true true p q r t a b c e A B C E k). Qed.

Let c := fc2 x1 x2 y1 y2 d11 d12 d21 d22.
Let q := S * X * Y * (1 / dx) * (1 / dy).
Let r1 := (val d11 * val x2 * val y2 - val d12 * val x2 * val y1 - val d21 * val x1 * val y2 + val d22 * val x1 * val y1) * (1 / dx) * (1 / dy).
Let r2 := (- val d11 * val y2 + val d12 * val y1 + val d21 * val y2 - val d22 * val y1) * (1 / dx) * (1 / dy).
Let r3 := (- val d11 * val x2 + val d12 * val x2 + val d21 * val x1 - val d22 * val x1) * (1 / dx) * (1 / dy).
Let r4 := (val d11 - val d12 - val d21 + val d22) * (1 / dx) * (1 / dy).

Lemma q_bt : between q (-1006) 801.
Proof.
  assert (B := between_mult _ _ _ _ _ _ (between_mult _ _ _ _ _ _ S_bt X_bt) Y_bt).
  assert (B1 := between_mult _ _ _ _ _ _ B (between_inv _ _ _ dx_bt)).
  exact (between_mult _ _ _ _ _ _ B1 (between_inv _ _ _ dy_bt)).
Qed.

Lemma ac1 : apx (c_1 c) r1 q (1117 / 100).
Proof.
  assert (B := between_mult _ _ _ _ _ _ (between_mult _ _ _ _ _ _ S_bt X_bt) Y_bt).
  destruct (prod2 d11 x2 y2 X Y F11 (mag_D d11 ltac:(auto)) ax2 X_bt ay2 Y_bt) as [P1 _].
  destruct (prod2 d12 x2 y1 X Y F12 (mag_D d12 ltac:(auto)) ax2 X_bt ay1 Y_bt) as [P2 _].
  destruct (prod2 d21 x1 y2 X Y F21 (mag_D d21 ltac:(auto)) ax1 X_bt ay2 Y_bt) as [P3 _].
  destruct (prod2 d22 x1 y1 X Y F22 (mag_D d22 ltac:(auto)) ax1 X_bt ay1 Y_bt) as [P4 _].
  assert (E : mag d11 * X * Y + mag d12 * X * Y + mag d21 * X * Y + mag d22 * X * Y = S * X * Y) by (unfold S; ring).
  assert (K := sum4_mmp _ _ _ _ _ _ _ _ _ _ _ _ _ P1 P2 P3 P4 ltac:(lra)). rewrite E in K.
  specialize (K (proj2 (between_tau _ _ _ B ltac:(lia) ltac:(lia)))).
  destruct (over_area _ _ _ _ _ _ K ltac:(lra) B ltac:(lia) ltac:(lia)) as [R _].
  replace (1117 / 100) with (204 / 100 + 303 / 100 + 610 / 100) by lra. exact R.
Qed.

Lemma opp_prod d z M : is_finite d = true -> mag d <= D + 4 * delta -> apx z (val z) M 0 -> between M (-101) 100 ->
  apx (Bopp d *! z) (- val d * val z) (mag d * M) (102 / 100).
Proof.
  intros F H Hz HM. assert (B := between_mult _ _ _ _ _ _ (D_bt (mag d) (conj (mag_ge d) H)) HM).
  replace (102 / 100) with (0 + 0 + 102 / 100) by lra.
  apply apx_mult; try lra; [apply apx_neg, mag_apx; auto|auto|]. apply (between_tau _ _ _ B); lia.
Qed.

Lemma ac2 : apx (c_2 c) r2 (S * Y * (1 / dx) * (1 / dy)) (1015 / 100).
Proof.
  assert (B := between_mult _ _ _ _ _ _ S_bt Y_bt).
  assert (P1 := opp_prod d11 y2 Y F11 (mag_D d11 ltac:(auto)) ay2 Y_bt).
  destruct (prod1 d12 y1 Y F12 (mag_D d12 ltac:(auto)) ay1 Y_bt) as [P2 _].
  destruct (prod1 d21 y2 Y F21 (mag_D d21 ltac:(auto)) ay2 Y_bt) as [P3 _].
  destruct (prod1 d22 y1 Y F22 (mag_D d22 ltac:(auto)) ay1 Y_bt) as [P4 _].
  assert (E : mag d11 * Y + mag d12 * Y + mag d21 * Y + mag d22 * Y = S * Y) by (unfold S; ring).
  assert (K := sum4_ppm _ _ _ _ _ _ _ _ _ _ _ _ _ P1 P2 P3 P4 ltac:(lra)). rewrite E in K.
  specialize (K (proj2 (between_tau _ _ _ B ltac:(lia) ltac:(lia)))).
  destruct (over_area _ _ _ _ _ _ K ltac:(lra) B ltac:(lia) ltac:(lia)) as [R _].
  replace (1015 / 100) with (102 / 100 + 303 / 100 + 610 / 100) by lra. exact R.
Qed.

Lemma ac3 : apx (c_3 c) r3 (S * X * (1 / dx) * (1 / dy)) (1015 / 100).
Proof.
  assert (B := between_mult _ _ _ _ _ _ S_bt X_bt).
  assert (P1 := opp_prod d11 x2 X F11 (mag_D d11 ltac:(auto)) ax2 X_bt).
  destruct (prod1 d12 x2 X F12 (mag_D d12 ltac:(auto)) ax2 X_bt) as [P2 _].
  destruct (prod1 d21 x1 X F21 (mag_D d21 ltac:(auto)) ax1 X_bt) as [P3 _].
  destruct (prod1 d22 x1 X F22 (mag_D d22 ltac:(auto)) ax1 X_bt) as [P4 _].
  assert (E : mag d11 * X + mag d12 * X + mag d21 * X + mag d22 * X = S * X) by (unfold S; ring).
  assert (K := sum4_ppm _ _ _ _ _ _ _ _ _ _ _ _ _ P1 P2 P3 P4 ltac:(lra)). rewrite E in K.
  specialize (K (proj2 (between_tau _ _ _ B ltac:(lia) ltac:(lia)))).
  destruct (over_area _ _ _ _ _ _ K ltac:(lra) B ltac:(lia) ltac:(lia)) as [R _].
  replace (1015 / 100) with (102 / 100 + 303 / 100 + 610 / 100) by lra. exact R.
Qed.

Lemma ac4 : apx (c_4 c) r4 (S * (1 / dx) * (1 / dy)) (913 / 100).
Proof.
  assert (B := S_bt).
  assert (K := sum4_mmp _ _ _ _ _ _ _ _ _ _ _ _ 0
    (mag_apx d11 F11) (mag_apx d12 F12) (mag_apx d21 F21) (mag_apx d22 F22) ltac:(lra)). fold S in K.
  specialize (K (proj2 (between_tau _ _ _ B ltac:(lia) ltac:(lia)))).
  destruct (over_area _ _ _ _ _ _ K ltac:(lra) B ltac:(lia) ltac:(lia)) as [R _].
  replace (913 / 100) with (0 + 303 / 100 + 610 / 100) by lra. exact R.
Qed.

Lemma eval_apx : apx (fceval c x y) (r1 + r2 * val x + r3 * val y + r4 * val x * val y) (4 * q) (1420 / 100).
Proof.
  assert (Q := q_bt). assert (T := between_tau _ _ _ Q ltac:(lia) ltac:(lia)).
  assert (E2 : S * Y * (1 / dx) * (1 / dy) * X = q) by (unfold q; ring).
  assert (E3 : S * X * (1 / dx) * (1 / dy) * Y = q) by (unfold q; ring).
  assert (E4 : S * (1 / dx) * (1 / dy) * X * Y = q) by (unfold q; ring).
  assert (K2 := apx_mult _ _ _ _ _ _ _ _ ac2 axx ltac:(lra) ltac:(lra)). rewrite E2 in K2. specialize (K2 T).
  assert (K3 := apx_mult _ _ _ _ _ _ _ _ ac3 ayy ltac:(lra) ltac:(lra)). rewrite E3 in K3. specialize (K3 T).
  assert (B4 : between (S * (1 / dx) * (1 / dy) * X) (-905) 701).
  { assert (B := between_mult _ _ _ _ _ _ (between_mult _ _ _ _ _ _ S_bt (between_inv _ _ _ dx_bt)) (between_inv _ _ _ dy_bt)).
    exact (between_mult _ _ _ _ _ _ B X_bt). }
  assert (K4 := apx_mult _ _ _ _ _ _ _ _ ac4 axx ltac:(lra) ltac:(lra) (between_tau _ _ _ B4 ltac:(lia) ltac:(lia))).
  assert (K5 := apx_mult _ _ _ _ _ _ _ _ K4 ayy ltac:(lra) ltac:(lra)). rewrite E4 in K5. specialize (K5 T).
  assert (TP := tau_pos).
  assert (W : forall f r k, apx f r q k -> 0 <= k <= 1117 / 100 -> apx f r q (1117 / 100)).
  { intros f r k H Hk. apply (apx_weaken _ _ _ _ _ _ H); lra. }
  assert (G4 : q + q + q + q <= big).
  { replace (q + q + q + q) with (4 * q) by ring. apply Rle_trans with (bpow radix2 2 * bpow radix2 801).
    - simpl (bpow radix2 2). destruct Q as [_ Q]. lra.
    - rewrite <- bpow_plus. apply bpow_le. lia. }
  assert (K := sum4_ppp _ _ _ _ _ _ _ _ _ _ _ _ _ ac1 (W _ _ _ K2 ltac:(lra)) (W _ _ _ K3 ltac:(lra)) (W _ _ _ K5 ltac:(lra)) ltac:(lra) G4).
  replace (4 * q) with (q + q + q + q) by ring. replace (1420 / 100) with (1117 / 100 + 303 / 100) by lra.
  unfold fceval. exact K.
Qed.

Lemma cell2_err : is_finite (fceval c x y) = true /\
  forall e, bilinear (val x1) (val x2) (val y1) (val y2) (val d11) (val d12) (val d21) (val d22) (val x) (val y) e ->
  Rabs (val (fceval c x y) - e) <= 57 * u53 * (D * X * Y / (dx * dy)) + bpow radix2 (-200).
Proof.
  assert (PX := dx_pos). assert (PY := dy_pos).
  destruct eval_apx as (F & _ & E). split; auto. intros e He.
  assert (Ee : e = r1 + r2 * val x + r3 * val y + r4 * val x * val y).
  { apply (bilinear_unique (val x1) (val x2) (val y1) (val y2) (val d11) (val d12) (val d21) (val d22) (val x) (val y)).
    - unfold dx in PX. lra.
    - unfold dy in PY. lra.
    - exact He.
    - unfold bilinear, r1, r2, r3, r4. fold dx dy.
      replace (val x2) with (val x1 + dx) by (unfold dx; ring). replace (val y2) with (val y1 + dy) by (unfold dy; ring).
      field. lra. }
  rewrite Ee. eapply Rle_trans; [exact E|]. assert (U := u_tiny).
  assert (Z : q = D * X * Y / (dx * dy) + 4 * delta * X * Y / (dx * dy)) by (unfold q; rewrite S_D; field; lra).
  assert (N : 0 <= D * X * Y / (dx * dy)).
  { unfold D, Rdiv. assert (A1 := between_pos _ _ _ X_bt). assert (A2 := between_pos _ _ _ Y_bt).
    assert (A := Rabs_pos (val d11)). assert (B := Rabs_pos (val d12)).
    assert (C := Rabs_pos (val d21)). assert (G := Rabs_pos (val d22)).
    repeat apply Rmult_le_pos; try lra. left. apply Rinv_0_lt_compat, Rmult_lt_0_compat; lra. }
  assert (V : 0 <= 4 * delta * X * Y / (dx * dy) <= bpow radix2 (-200)).
  { assert (DB : between (4 * delta) (-600) (-600)).
    { unfold delta. change 4 with (bpow radix2 2). rewrite <- bpow_plus. unfold between. simpl (2 + -602)%Z. lra. }
    assert (B := between_mult _ _ _ _ _ _ (between_mult _ _ _ _ _ _ (between_mult _ _ _ _ _ _ (between_mult _ _ _ _ _ _ DB X_bt) Y_bt) (between_inv _ _ _ dx_bt)) (between_inv _ _ _ dy_bt)).
    replace (4 * delta * X * Y / (dx * dy)) with (4 * delta * X * Y * (1 / dx) * (1 / dy)) by (field; lra).
    split; [left; apply (between_pos _ _ _ B)|]. destruct B as [_ B].
    eapply Rle_trans; [exact B|]. apply bpow_le. lia. }
  rewrite Z. set (A := D * X * Y / (dx * dy)) in *. set (w := 4 * delta * X * Y / (dx * dy)) in *.
  assert (0 <= u53 * A) by (apply Rmult_le_pos; lra).
  assert (u53 * w <= / 1000000000000000 * w) by (apply Rmult_le_compat_r; lra). lra.
Qed.
End Cell.

(** ** The table *)
Definition fdat (data : list f64) (ny i j : nat) : f64 := nth (ny * i + j) data f0.
Definition fcellc (xs ys data : list f64) (ny : nat) (ij : nat * nat) : coef2 f64 :=
  let '(i, j) := ij in
  fc2 (nth (i - 1) xs f0) (nth i xs f0) (nth (j - 1) ys f0) (nth j ys f0)
    (fdat data ny (i - 1) (j - 1)) (fdat data ny (i - 1) j) (fdat data ny i (j - 1)) (fdat data ny i j).

Lemma cell_coefs_f xs ys data i j :
  (1 <= i < length xs)%nat -> (1 <= j < length ys)%nat -> (length xs * length ys <= length data)%nat ->
  cell_coefs xs ys data (length ys) i j = Ok (fcellc xs ys data (length ys) (i, j)).
Proof.
  intros Hi Hj Hd. unfold cell_coefs.
  assert (length ys * i + j < length xs * length ys)%nat by nia.
  assert (length ys * (i - 1) + j < length xs * length ys)%nat by nia.
  rewrite !(vat_lt xs _ f0) by lia. cbn [bind].
  rewrite !(vat_lt ys _ f0) by lia. cbn [bind].
  rewrite !(vat_lt data _ f0) by nia. reflexivity.
Qed.

Lemma coef2_loop_f xs ys data l : forall acc,
  (length xs * length ys <= length data)%nat ->
  (forall i j, In (i, j) l -> (1 <= i < length xs)%nat /\ (1 <= j < length ys)%nat) ->
  coef2_loop xs ys data (length ys) l acc = (acc ++ map (fcellc xs ys data (length ys)) l, Ok tt).
Proof.
  induction l as [|[i j] l IH]; intros acc Hd Hl; cbn [coef2_loop map].
  - rewrite app_nil_r. reflexivity.
  - destruct (Hl i j (or_introl eq_refl)) as [Hi Hj].
    rewrite cell_coefs_f by auto. rewrite IH; auto.
    + rewrite <- app_assoc. reflexivity.
    + intros i' j' Hin. apply Hl. right. auto.
Qed.

Definition fcoefs2 (xs ys data : list f64) : list (coef2 f64) :=
  map (fcellc xs ys data (length ys)) (loop_indices (length xs) (length ys)).
Definition fobj2 (xs ys data : list f64) : interp2d f64 :=
  mkI2 (Some xs) (Some ys) (Some data) (length xs) (length ys)
    (Some (nth 0 xs f0)) (Some (nth (length xs - 1) xs f0))
    (Some (nth 0 ys f0)) (Some (nth (length ys - 1) ys f0)) (fcoefs2 xs ys data).

Lemma new2d_f bm xs ys data :
  (bm = Debug -> is_sorted xs = true /\ is_sorted ys = true) ->
  (1 <= length xs)%nat -> (1 <= length ys)%nat -> (length xs * length ys <= length data)%nat ->
  new2d bm LINEAR xs ys data = Ok (fobj2 xs ys data).
Proof.
  intros Hb Hx Hy Hd. unfold new2d. cbn [make2d bind]. unfold init2d, init_base2.
  assert (Hc : bind (cassert bm (is_sorted xs)) (fun _ => cassert bm (is_sorted ys)) = Ok tt).
  { destruct bm; simpl; auto. destruct (Hb eq_refl) as [H1 H2]. rewrite H1. simpl. rewrite H2. reflexivity. }
  rewrite Hc. rewrite !(vat_lt xs _ f0) by lia. cbn [bind].
  rewrite !(vat_lt ys _ f0) by lia. cbn [bind j_x j_y j_nx j_ny j_coefs j_data j_xmin j_xmax j_ymin j_ymax blank2d].
  rewrite coef2_loop_f; auto.
  intros i j Hin. apply loop_indices_in in Hin. exact Hin.
Qed.

Lemma fcoefs2_nth xs ys data i j : (S i < length xs)%nat -> (S j < length ys)%nat ->
  nth_error (fcoefs2 xs ys data) (i * (length ys - 1) + j) = Some (fcellc xs ys data (length ys) (S i, S j)).
Proof.
  intros Hi Hj. unfold fcoefs2. rewrite nth_error_map.
  rewrite (nth_error_nth' _ (0, 0)%nat).
  - rewrite loop_indices_nth by auto. reflexivity.
  - rewrite loop_indices_length. nia.
Qed.

Lemma fceval_num (c : coef2 f64) x y : (((c_1 c + c_2 c * x) + c_3 c * y) + c_4 c * x * y)%num = fceval c x y.
Proof. reflexivity. Qed.

Lemma eval2d_release_f xs ys data x y i j :
  (max 1 (lower_bound xs x) - 1)%nat = i -> (max 1 (lower_bound ys y) - 1)%nat = j ->
  (S i < length xs)%nat -> (S j < length ys)%nat ->
  eval2d Release (fobj2 xs ys data) x y = Ok (fceval (fcellc xs ys data (length ys) (S i, S j)) x y).
Proof.
  intros Hx Hy Hi Hj. unfold eval2d, cell_index, fobj2. cbn [j_x j_y j_xmin j_xmax j_ymin j_ymax j_ny j_coefs cassert bind].
  rewrite (proj2 (Nat.eqb_neq (length ys) 0)) by lia.
  assert (H01 : forall n, (if (n =? 0)%nat then 1%nat else n) = max 1 n) by (intros [|[|n]]; reflexivity).
  rewrite !H01.
  replace (max 1 (lower_bound ys y) + (max 1 (lower_bound xs x) - 1) * (length ys - 1) - 1)%nat
    with (i * (length ys - 1) + j)%nat.
  - unfold vat. rewrite fcoefs2_nth by auto. cbn [bind]. rewrite fceval_num. reflexivity.
  - rewrite Hx. subst j. generalize (i * (length ys - 1))%nat. intros p. lia.
Qed.

Definition in_box (xs ys : list f64) (x y : f64) : bool :=
  (nle (nth 0 xs f0) x && nle x (nth (length xs - 1) xs f0)) && (nle (nth 0 ys f0) y && nle y (nth (length ys - 1) ys f0)).
Lemma eval2d_debug_f xs ys data x y :
  eval2d Debug (fobj2 xs ys data) x y = if in_box xs ys x y then eval2d Release (fobj2 xs ys data) x y else Abort.
Proof.
  unfold eval2d, fobj2, in_box. cbn [j_x j_y j_xmin j_xmax j_ymin j_ymax j_ny j_coefs cassert].
  destruct (nle (nth 0 xs f0) x && nle x (nth (length xs - 1) xs f0)); [|reflexivity].
  destruct (nle (nth 0 ys f0) y && nle y (nth (length ys - 1) ys f0)); reflexivity.
Qed.

(** [i] is the cell of [x] among the abscissae. *)
Lemma sel_f xs x i : all_finite xs -> is_finite x = true -> increasing (dvalues xs) -> clamped_cell (dvalues xs) (dvalue x) i ->
  (max 1 (lower_bound xs x) - 1)%nat = i /\ (S i < length xs)%nat.
Proof.
  intros Hx Fx Hi Hc. assert (LD : length (dvalues xs) = length xs) by (unfold dvalues; apply map_length).
  assert (L : (S i < length xs)%nat) by (destruct Hc; lia). split; auto.
  rewrite lower_bound_f by auto. apply sel_clamped; auto. lia.
Qed.

Lemma in_box_f xs ys x y : all_finite xs -> all_finite ys -> is_finite x = true -> is_finite y = true ->
  inside (dvalues xs) (dvalues ys) (dvalue x) (dvalue y) -> in_box xs ys x y = true.
Proof.
  intros Hx Hy Fx Fy [[A B] [C D]]. unfold in_box.
  assert (LX : length (dvalues xs) = length xs) by (unfold dvalues; apply map_length).
  assert (LY : length (dvalues ys) = length ys) by (unfold dvalues; apply map_length).
  rewrite LX, LY, !nth_dvalues in *.
  rewrite (proj2 (nle_fin _ _ (finite_nth xs 0 Hx) Fx) A), (proj2 (nle_fin _ _ Fx (finite_nth xs _ Hx)) B).
  rewrite (proj2 (nle_fin _ _ (finite_nth ys 0 Hy) Fy) C), (proj2 (nle_fin _ _ Fy (finite_nth ys _ Hy)) D). reflexivity.
Qed.

Lemma eval2_cell bm xs ys data x y i j : all_finite xs -> all_finite ys -> is_finite x = true -> is_finite y = true ->
  increasing (dvalues xs) -> increasing (dvalues ys) -> length data = (length xs * length ys)%nat ->
  clamped_cell (dvalues xs) (dvalue x) i -> clamped_cell (dvalues ys) (dvalue y) j ->
  inside (dvalues xs) (dvalues ys) (dvalue x) (dvalue y) ->
  (S i < length xs)%nat /\ (S j < length ys)%nat /\
  new2d bm LINEAR xs ys data = Ok (fobj2 xs ys data) /\
  eval2d bm (fobj2 xs ys data) x y = Ok (fceval (fcellc xs ys data (length ys) (S i, S j)) x y).
Proof.
  intros Hx Hy Fx Fy Ix Iy Hd Cx Cy Hin.
  destruct (sel_f xs x i Hx Fx Ix Cx) as [Sx Lx]. destruct (sel_f ys y j Hy Fy Iy Cy) as [Sy Ly].
  split; [auto|]. split; [auto|]. split.
  - apply new2d_f; try lia. intros _. rewrite !is_sorted_f by auto. split; apply increasing_is_sorted; auto.
  - assert (E := eval2d_release_f xs ys data x y i j Sx Sy Lx Ly).
    destruct bm; [|exact E]. rewrite eval2d_debug_f, in_box_f by auto. exact E.
Qed.

Lemma cell_x xs x i : increasing (dvalues xs) -> clamped_cell (dvalues xs) x i -> nth 0 (dvalues xs) 0 <= x ->
  nth i (dvalues xs) 0 <= x <= nth (S i) (dvalues xs) 0 /\ nth i (dvalues xs) 0 < nth (S i) (dvalues xs) 0.
Proof. intros Hi (L & A & B) H. assert (K := Hi i (S i) ltac:(lia)). split; auto. destruct B as [->|B]; lra. Qed.

Lemma pow_bpow n : 2 ^ n = bpow radix2 (Z.of_nat n).
Proof. rewrite bpow_powerRZ. rewrite pow_powerRZ. reflexivity. Qed.

Lemma interp2d_double_lemma : forall bm xs ys data x y i j,
  all_finite xs -> all_finite ys -> all_finite data -> is_finite x = true -> is_finite y = true ->
  increasing (dvalues xs) -> increasing (dvalues ys) -> length data = (length xs * length ys)%nat ->
  inside (dvalues xs) (dvalues ys) (dvalue x) (dvalue y) ->
  clamped_cell (dvalues xs) (dvalue x) i -> clamped_cell (dvalues ys) (dvalue y) j ->
  let x1 := nth i (dvalues xs) 0 in let x2 := nth (S i) (dvalues xs) 0 in
  let y1 := nth j (dvalues ys) 0 in let y2 := nth (S j) (dvalues ys) 0 in
  let d a b := nth (length ys * a + b) (dvalues data) 0 in
  let X := Rmax (Rabs x1) (Rabs x2) in let Y := Rmax (Rabs y1) (Rabs y2) in
  let D := Rabs (d i j) + Rabs (d i (S j)) + Rabs (d (S i) j) + Rabs (d (S i) (S j)) in
  X <= 2 ^ 100 -> Y <= 2 ^ 100 -> D <= 2 ^ 400 -> / 2 ^ 100 <= x2 - x1 -> / 2 ^ 100 <= y2 - y1 ->
  exists o v, new2d bm LINEAR xs ys data = Ok o /\ eval2d bm o x y = Ok v /\ is_finite v = true /\
    forall e, patch (dvalues xs) (dvalues ys) (dvalues data) i j (dvalue x) (dvalue y) e ->
    Rabs (dvalue v - e) <= 57 * uround * (D * X * Y / ((x2 - x1) * (y2 - y1))) + / 2 ^ 200.
Proof.
  intros bm xs ys data x y i j Hx Hy Hd Fx Fy Ix Iy Hl Hin Cx Cy x1 x2 y1 y2 d X Y D HX HY HD Hdx Hdy.
  destruct (eval2_cell bm xs ys data x y i j Hx Hy Fx Fy Ix Iy Hl Cx Cy Hin) as (Lx & Ly & Ho & He).
  destruct (cell_x xs _ i Ix Cx (proj1 (proj1 Hin))) as [Bx _]. destruct (cell_x ys _ j Iy Cy (proj1 (proj2 Hin))) as [By _].
  unfold D, X, Y, d, x1, x2, y1, y2 in *. clear D X Y d x1 x2 y1 y2. unfold patch.
  assert (LY : length (dvalues ys) = length ys) by (unfold dvalues; apply map_length). rewrite LY.
  rewrite !nth_dvalues in *. rewrite !pow_bpow in *.
  change (Z.of_nat 100) with 100%Z in *. change (Z.of_nat 400) with 400%Z in *. change (Z.of_nat 200) with 200%Z.
  eexists. eexists. split; [exact Ho|]. split; [exact He|].
  destruct (cell2_err (nth i xs f0) (nth (S i) xs f0) (nth j ys f0) (nth (S j) ys f0)
    (fdat data (length ys) i j) (fdat data (length ys) i (S j)) (fdat data (length ys) (S i) j) (fdat data (length ys) (S i) (S j)) x y)
    as [F E]; auto using finite_nth; try (apply finite_nth; auto).
  unfold fcellc. replace (S i - 1)%nat with i by lia. replace (S j - 1)%nat with j by lia.
  split; [exact F|]. rewrite uround_u53, <- bpow_opp. unfold fdat, dvalue in *. exact E.
Qed.

(** ** Integer tables with cells whose sides are powers of two *)
Lemma le_mul (a b c m : Z) : (Z.abs a <= b)%Z -> (Z.abs c <= m)%Z -> (Z.abs (a * c) <= b * m)%Z.
Proof. intros. rewrite Z.abs_mul. apply Z.mul_le_mono_nonneg; lia. Qed.

Lemma dya_prod f n g w k b m : dya f n k -> dya g w 0 -> (Z.abs n <= b)%Z -> (Z.abs w <= m)%Z -> (b * m <= 2 ^ 51)%Z ->
  dya (f *! g) (n * w) k /\ (Z.abs (n * w) <= b * m)%Z.
Proof.
  intros Hf Hg Hn Hw Hb. assert (L := le_mul _ _ _ _ Hn Hw). split; auto.
  assert (K := Hf). destruct K as (_ & _ & _ & K).
  rewrite <- (Z.add_0_r k). apply dya_mult; auto; lia.
Qed.

Lemma dya_mmp p q r t a b c e A B C E k : dya p a k -> dya q b k -> dya r c k -> dya t e k ->
  (Z.abs a <= A)%Z -> (Z.abs b <= B)%Z -> (Z.abs c <= C)%Z -> (Z.abs e <= E)%Z -> (A + B + C + E <= 2 ^ 53)%Z ->
  dya (p -! q -! r +! t) (a - b - c + e) k /\ (Z.abs (a - b - c + e) <= A + B + C + E)%Z.
Proof. intros. split; [|lia]. apply dya_plus; [apply dya_minus; [apply dya_minus| |]| |]; auto; lia. Qed.
Lemma dya_ppm p q r t a b c e A B C E k : dya p a k -> dya q b k -> dya r c k -> dya t e k ->
  (Z.abs a <= A)%Z -> (Z.abs b <= B)%Z -> (Z.abs c <= C)%Z -> (Z.abs e <= E)%Z -> (A + B + C + E <= 2 ^ 53)%Z ->
  dya (p +! q +! r -! t) (a + b + c - e) k /\ (Z.abs (a + b + c - e) <= A + B + C + E)%Z.
Proof. intros. split; [|lia]. apply dya_minus; [apply dya_plus; [apply dya_plus| |]| |]; auto; lia. Qed.
Lemma dya_ppp p q r t a b c e A B C E k : dya p a k -> dya q b k -> dya r c k -> dya t e k ->
  (Z.abs a <= A)%Z -> (Z.abs b <= B)%Z -> (Z.abs c <= C)%Z -> (Z.abs e <= E)%Z -> (A + B + C + E <= 2 ^ 53)%Z ->
  dya (p +! q +! r +! t) (a + b + c + e) k /\ (Z.abs (a + b + c + e) <= A + B + C + E)%Z.
Proof. intros. split; [|lia]. repeat apply dya_plus; auto; lia. Qed.

Lemma abs_parts (a b c e : Z) : let s := (Z.abs a + Z.abs b + Z.abs c + Z.abs e)%Z in
  (0 <= Z.abs a <= s)%Z /\ (0 <= Z.abs b <= s)%Z /\ (0 <= Z.abs c <= s)%Z /\ (0 <= Z.abs e <= s)%Z.
Proof. intros s. unfold s. lia. Qed.

Lemma prods (D M N B : Z) : (0 <= D)%Z -> (1 <= M)%Z -> (1 <= N)%Z -> (D * M * N <= B)%Z ->
  (D * M <= B)%Z /\ (D * N <= B)%Z /\ (D <= B)%Z /\ (forall a, 0 <= a <= D -> a * M <= B)%Z /\
  (forall a, 0 <= a <= D -> a * N <= B)%Z /\ (forall a, 0 <= a <= D -> a * M * N <= B)%Z.
Proof.
  intros HD HM HN HB. assert (P : (0 <= D * M)%Z) by (apply Z.mul_nonneg_nonneg; lia).
  assert (DM : (D * M <= B)%Z) by nia. assert (DN : (D * N <= B)%Z) by nia.
  split; [auto|]. split; [auto|]. split; [nia|].
  split; [intros a Ha; nia|]. split; [intros a Ha; nia|]. intros a Ha.
  apply Z.le_trans with (2 := HB). rewrite <- !Z.mul_assoc. apply Z.mul_le_mono_nonneg_r; nia.
Qed.

Section Exact.
Context (x1 x2 y1 y2 d11 d12 d21 d22 x y : f64) (X1 X2 Y1 Y2 D11 D12 D21 D22 X Y k l : Z).
Hypothesis Hx1 : dya x1 X1 0. Hypothesis Hx2 : dya x2 X2 0. Hypothesis Hy1 : dya y1 Y1 0. Hypothesis Hy2 : dya y2 Y2 0.
Hypothesis H11 : dya d11 D11 0. Hypothesis H12 : dya d12 D12 0. Hypothesis H21 : dya d21 D21 0. Hypothesis H22 : dya d22 D22 0.
Hypothesis Hx : dya x X 0. Hypothesis Hy : dya y Y 0.
Hypothesis Hk : (0 <= k)%Z. Hypothesis Hl : (0 <= l)%Z. Hypothesis Hkl : (k + l <= 53)%Z.
Hypothesis HX : (X2 - X1 = 2 ^ k)%Z. Hypothesis HY : (Y2 - Y1 = 2 ^ l)%Z.
Hypothesis HXX : (X1 <= X <= X2)%Z. Hypothesis HYY : (Y1 <= Y <= Y2)%Z.
Let M := Z.max (Z.abs X1) (Z.abs X2).
Let N := Z.max (Z.abs Y1) (Z.abs Y2).
Let D := (Z.abs D11 + Z.abs D12 + Z.abs D21 + Z.abs D22)%Z.
Hypothesis HB : (D * (M * N) <= 2 ^ 51)%Z.

Lemma M_1 : (1 <= M)%Z. Proof. assert (P := pow2_pos k Hk). lia. Qed.
Lemma N_1 : (1 <= N)%Z. Proof. assert (P := pow2_pos l Hl). lia. Qed.

Lemma area n N0 B : dya n N0 0 -> (Z.abs N0 <= 2 ^ 53)%Z -> B = (N0 * 1 * 1)%Z ->
  dya (n *! (f64_ofZ 1 /! (x2 -! x1)) *! (f64_ofZ 1 /! (y2 -! y1))) B (k + l).
Proof.
  intros Hn HN ->. assert (PK := pow2_pos k Hk). assert (PL := pow2_pos l Hl).
  assert (K53 : (2 ^ k <= 2 ^ 53)%Z) by (apply Z.pow_le_mono_r; lia).
  assert (L53 : (2 ^ l <= 2 ^ 53)%Z) by (apply Z.pow_le_mono_r; lia).
  assert (DX := dya_minus _ _ _ _ _ Hx2 Hx1 ltac:(lia)). assert (DY := dya_minus _ _ _ _ _ Hy2 Hy1 ltac:(lia)).
  rewrite HX in DX. rewrite HY in DY.
  assert (IX := dya_inv _ k DX ltac:(lia)). assert (IY := dya_inv _ l DY ltac:(lia)).
  assert (P1 := dya_mult _ _ _ _ _ _ Hn IX ltac:(lia) ltac:(lia)).
  exact (dya_mult _ _ _ _ _ _ P1 IY ltac:(lia) ltac:(lia)).
Qed.

Lemma cell2_exact : let c := fc2 x1 x2 y1 y2 d11 d12 d21 d22 in
  dya (fceval c x y)
    ((D11 * X2 * Y2 - D12 * X2 * Y1 - D21 * X1 * Y2 + D22 * X1 * Y1) +
     (- D11 * Y2 + D12 * Y1 + D21 * Y2 - D22 * Y1) * X + (- D11 * X2 + D12 * X2 + D21 * X1 - D22 * X1) * Y +
     (D11 - D12 - D21 + D22) * X * Y) (k + l).
Proof.
  intros c. assert (M1 := M_1). assert (N1 := N_1).
  assert (A1 : (Z.abs X1 <= M)%Z) by lia. assert (A2 : (Z.abs X2 <= M)%Z) by lia. assert (A0 : (Z.abs X <= M)%Z) by lia.
  assert (B1 : (Z.abs Y1 <= N)%Z) by lia. assert (B2 : (Z.abs Y2 <= N)%Z) by lia. assert (B0 : (Z.abs Y <= N)%Z) by lia.
  assert (EM : (Z.abs D11 * M + Z.abs D12 * M + Z.abs D21 * M + Z.abs D22 * M = D * M)%Z) by (unfold D; ring).
  assert (EN : (Z.abs D11 * N + Z.abs D12 * N + Z.abs D21 * N + Z.abs D22 * N = D * N)%Z) by (unfold D; ring).
  assert (EMN : (Z.abs D11 * M * N + Z.abs D12 * M * N + Z.abs D21 * M * N + Z.abs D22 * M * N = D * M * N)%Z) by (unfold D; ring).
  assert (ED : (Z.abs D11 + Z.abs D12 + Z.abs D21 + Z.abs D22 = D)%Z) by reflexivity.
  assert (HB' : (D * M * N <= 2 ^ 51)%Z) by (rewrite <- Z.mul_assoc; exact HB).
  destruct (abs_parts D11 D12 D21 D22) as (L11 & L12 & L21 & L22). change (Z.abs D11 + Z.abs D12 + Z.abs D21 + Z.abs D22)%Z with D in L11, L12, L21, L22.
  assert (IX := area). clear HB HX HY HXX HYY. clearbody M N D.
  destruct (prods D M N (2 ^ 51) (Z.le_trans _ _ _ (proj1 L11) (proj2 L11)) M1 N1 HB') as (DM & DN & DD & PM & PN & PMN).
  assert (R := Z.le_refl).
  destruct (dya_prod _ D11 _ X2 0 (Z.abs D11) M H11 Hx2 (R _) A2 (PM _ L11)) as [PX11 PX11b].
  destruct (dya_prod _ (D11 * X2) _ Y2 0 (Z.abs D11 * M) N PX11 Hy2 PX11b B2 (PMN _ L11)) as [PXY11 PXY11b].
  destruct (dya_prod _ D12 _ X2 0 (Z.abs D12) M H12 Hx2 (R _) A2 (PM _ L12)) as [PX12 PX12b].
  destruct (dya_prod _ (D12 * X2) _ Y1 0 (Z.abs D12 * M) N PX12 Hy1 PX12b B1 (PMN _ L12)) as [PXY12 PXY12b].
  destruct (dya_prod _ D12 _ Y1 0 (Z.abs D12) N H12 Hy1 (R _) B1 (PN _ L12)) as [PY12 PY12b].
  destruct (dya_prod _ D21 _ X1 0 (Z.abs D21) M H21 Hx1 (R _) A1 (PM _ L21)) as [PX21 PX21b].
  destruct (dya_prod _ (D21 * X1) _ Y2 0 (Z.abs D21 * M) N PX21 Hy2 PX21b B2 (PMN _ L21)) as [PXY21 PXY21b].
  destruct (dya_prod _ D21 _ Y2 0 (Z.abs D21) N H21 Hy2 (R _) B2 (PN _ L21)) as [PY21 PY21b].
  destruct (dya_prod _ D22 _ X1 0 (Z.abs D22) M H22 Hx1 (R _) A1 (PM _ L22)) as [PX22 PX22b].
  destruct (dya_prod _ (D22 * X1) _ Y1 0 (Z.abs D22 * M) N PX22 Hy1 PX22b B1 (PMN _ L22)) as [PXY22 PXY22b].
  destruct (dya_prod _ D22 _ Y1 0 (Z.abs D22) N H22 Hy1 (R _) B1 (PN _ L22)) as [PY22 PY22b].
  assert (O11 : (Z.abs (- D11) <= Z.abs D11)%Z) by (rewrite Z.abs_opp; apply R).
  destruct (dya_prod _ (- D11) _ X2 0 (Z.abs D11) M (dya_neg _ _ _ H11) Hx2 O11 A2 (PM _ L11)) as [OX OXb].
  destruct (dya_prod _ (- D11) _ Y2 0 (Z.abs D11) N (dya_neg _ _ _ H11) Hy2 O11 B2 (PN _ L11)) as [OY OYb].
  assert (BIG : forall z, (z <= 2 ^ 51)%Z -> (z <= 2 ^ 53)%Z) by (intros; lia).
  destruct (dya_mmp _ _ _ _ _ _ _ _ _ _ _ _ _ PXY11 PXY12 PXY21 PXY22 PXY11b PXY12b PXY21b PXY22b ltac:(rewrite EMN; apply BIG, HB')) as [N1' N1b].
  destruct (dya_ppm _ _ _ _ _ _ _ _ _ _ _ _ _ OY PY12 PY21 PY22 OYb PY12b PY21b PY22b ltac:(rewrite EN; apply BIG, DN)) as [N2' N2b].
  destruct (dya_ppm _ _ _ _ _ _ _ _ _ _ _ _ _ OX PX12 PX21 PX22 OXb PX12b PX21b PX22b ltac:(rewrite EM; apply BIG, DM)) as [N3' N3b].
  destruct (dya_mmp _ _ _ _ _ _ _ _ _ _ _ _ _ H11 H12 H21 H22 (R _) (R _) (R _) (R _) ltac:(rewrite ED; apply BIG, DD)) as [N4' N4b].
  rewrite EMN in N1b. rewrite EN in N2b. rewrite EM in N3b. rewrite ED in N4b.
  set (n1 := (D11 * X2 * Y2 - D12 * X2 * Y1 - D21 * X1 * Y2 + D22 * X1 * Y1)%Z) in *.
  set (n2 := (- D11 * Y2 + D12 * Y1 + D21 * Y2 - D22 * Y1)%Z) in *.
  set (n3 := (- D11 * X2 + D12 * X2 + D21 * X1 - D22 * X1)%Z) in *.
  set (n4 := (D11 - D12 - D21 + D22)%Z) in *.
  assert (C1 : dya (c_1 c) n1 (k + l)) by (exact (IX _ _ _ N1' (Z.le_trans _ _ _ N1b (BIG _ HB')) (eq_sym (eq_trans (Z.mul_1_r _) (Z.mul_1_r _))))).
  assert (C2 : dya (c_2 c) n2 (k + l)) by (exact (IX _ _ _ N2' (Z.le_trans _ _ _ N2b (BIG _ DN)) (eq_sym (eq_trans (Z.mul_1_r _) (Z.mul_1_r _))))).
  assert (C3 : dya (c_3 c) n3 (k + l)) by (exact (IX _ _ _ N3' (Z.le_trans _ _ _ N3b (BIG _ DM)) (eq_sym (eq_trans (Z.mul_1_r _) (Z.mul_1_r _))))).
  assert (C4 : dya (c_4 c) n4 (k + l)) by (exact (IX _ _ _ N4' (Z.le_trans _ _ _ N4b (BIG _ DD)) (eq_sym (eq_trans (Z.mul_1_r _) (Z.mul_1_r _))))).
  assert (E2 : (D * N * M <= 2 ^ 51)%Z) by (rewrite <- Z.mul_assoc, (Z.mul_comm N), Z.mul_assoc; exact HB').
  destruct (dya_prod _ _ _ _ _ _ _ C2 Hx N2b A0 E2) as [G2 G2b].
  destruct (dya_prod _ _ _ _ _ _ _ C3 Hy N3b B0 HB') as [G3 G3b].
  destruct (dya_prod _ _ _ _ _ _ _ C4 Hx N4b A0 DM) as [G4 G4b].
  destruct (dya_prod _ _ _ _ _ _ _ G4 Hy G4b B0 HB') as [G5 G5b].
  unfold fceval.
  refine (proj1 (dya_ppp _ _ _ _ _ _ _ _ _ _ _ _ _ C1 G2 G3 G5 N1b G2b G3b G5b _)).
  clear - HB' E2. lia.
Qed.

Lemma cell2_exact_bilinear : let v := fceval (fc2 x1 x2 y1 y2 d11 d12 d21 d22) x y in
  is_finite v = true /\
  bilinear (IZR X1) (IZR X2) (IZR Y1) (IZR Y2) (IZR D11) (IZR D12) (IZR D21) (IZR D22) (IZR X) (IZR Y) (val v).
Proof.
  intros v. destruct cell2_exact as (F & E & _). split; auto. fold v in E. rewrite E. unfold bilinear.
  rewrite Z.pow_add_r, mult_IZR, <- HX, <- HY by lia.
  assert (PK := pow2_pos k Hk). assert (PL := pow2_pos l Hl).
  assert (NX : IZR (X2 - X1) <> 0) by (apply not_0_IZR; lia).
  assert (NY : IZR (Y2 - Y1) <> 0) by (apply not_0_IZR; lia).
  repeat rewrite ?plus_IZR, ?minus_IZR, ?mult_IZR, ?opp_IZR in *. field. auto.
Qed.
End Exact.

Lemma interp2d_exact_lemma : forall bm xs ys data x y i j X1 X2 Y1 Y2 D11 D12 D21 D22 X Y k l,
  all_finite xs -> all_finite ys -> all_finite data -> is_finite x = true -> is_finite y = true ->
  increasing (dvalues xs) -> increasing (dvalues ys) -> length data = (length xs * length ys)%nat ->
  inside (dvalues xs) (dvalues ys) (dvalue x) (dvalue y) ->
  clamped_cell (dvalues xs) (dvalue x) i -> clamped_cell (dvalues ys) (dvalue y) j ->
  let d a b := nth (length ys * a + b) (dvalues data) 0 in
  nth i (dvalues xs) 0 = IZR X1 -> nth (S i) (dvalues xs) 0 = IZR X2 ->
  nth j (dvalues ys) 0 = IZR Y1 -> nth (S j) (dvalues ys) 0 = IZR Y2 ->
  d i j = IZR D11 -> d i (S j) = IZR D12 -> d (S i) j = IZR D21 -> d (S i) (S j) = IZR D22 ->
  dvalue x = IZR X -> dvalue y = IZR Y ->
  (0 <= k)%Z -> (0 <= l)%Z -> (k + l <= 53)%Z -> (X2 - X1 = 2 ^ k)%Z -> (Y2 - Y1 = 2 ^ l)%Z ->
  ((Z.abs D11 + Z.abs D12 + Z.abs D21 + Z.abs D22) * (Z.max (Z.abs X1) (Z.abs X2) * Z.max (Z.abs Y1) (Z.abs Y2)) <= 2 ^ 51)%Z ->
  (Z.abs X1 <= 2 ^ 53)%Z -> (Z.abs X2 <= 2 ^ 53)%Z -> (Z.abs Y1 <= 2 ^ 53)%Z -> (Z.abs Y2 <= 2 ^ 53)%Z ->
  exists o v, new2d bm LINEAR xs ys data = Ok o /\ eval2d bm o x y = Ok v /\ is_finite v = true /\
    patch (dvalues xs) (dvalues ys) (dvalues data) i j (dvalue x) (dvalue y) (dvalue v).
Proof.
  intros bm xs ys data x y i j X1 X2 Y1 Y2 D11 D12 D21 D22 X Y k l Hx Hy Hd Fx Fy Ix Iy Hl Hin Cx Cy d
    V1 V2 W1 W2 U11 U12 U21 U22 Vx Vy Hk Hl' Hkl HX HY HB BX1 BX2 BY1 BY2.
  destruct (eval2_cell bm xs ys data x y i j Hx Hy Fx Fy Ix Iy Hl Cx Cy Hin) as (Lx & Ly & Ho & He).
  destruct (cell_x xs _ i Ix Cx (proj1 (proj1 Hin))) as [Bx _]. destruct (cell_x ys _ j Iy Cy (proj1 (proj2 Hin))) as [By _].
  rewrite V1, V2, Vx in Bx. rewrite W1, W2, Vy in By.
  destruct Bx as [Bx Bx']. apply le_IZR in Bx. apply le_IZR in Bx'.
  destruct By as [By By']. apply le_IZR in By. apply le_IZR in By'.
  eexists. eexists. split; [exact Ho|]. split; [exact He|].
  unfold d in *. clear d. unfold patch.
  assert (LY : length (dvalues ys) = length ys) by (unfold dvalues; apply map_length). rewrite LY.
  rewrite V1, V2, W1, W2, U11, U12, U21, U22, Vx, Vy. rewrite !nth_dvalues in *.
  unfold fcellc. rewrite !Nat.sub_succ, !Nat.sub_0_r.
  assert (PK := pow2_pos k Hk). assert (PL := pow2_pos l Hl').
  assert (AM : (1 <= Z.max (Z.abs X1) (Z.abs X2))%Z) by (clear - HX PK; lia).
  assert (AN : (1 <= Z.max (Z.abs Y1) (Z.abs Y2))%Z) by (clear - HY PL; lia).
  destruct (abs_parts D11 D12 D21 D22) as (L11 & L12 & L21 & L22).
  set (M := Z.max (Z.abs X1) (Z.abs X2)) in *. set (N := Z.max (Z.abs Y1) (Z.abs Y2)) in *.
  set (DS := (Z.abs D11 + Z.abs D12 + Z.abs D21 + Z.abs D22)%Z) in *.
  destruct (prods DS M N (2 ^ 51) (Z.le_trans _ _ _ (proj1 L11) (proj2 L11)) AM AN ltac:(rewrite <- Z.mul_assoc; exact HB)) as (_ & _ & DD & _).
  assert (BIG : forall z, (0 <= Z.abs z <= DS)%Z -> (Z.abs z <= 2 ^ 53)%Z).
  { intros z Hz. clear - Hz DD. lia. }
  assert (BX : (Z.abs X <= 2 ^ 53)%Z) by (clear - Bx Bx' BX1 BX2; lia).
  assert (BY : (Z.abs Y <= 2 ^ 53)%Z) by (clear - By By' BY1 BY2; lia).
  apply (cell2_exact_bilinear _ _ _ _ _ _ _ _ _ _ X1 X2 Y1 Y2 D11 D12 D21 D22 X Y k l);
    try (apply dya_int; [try assumption; apply finite_nth; assumption|assumption|auto]); auto.
Qed.

(** ** Queries that are not numbers *)
Lemma lower_bound_nan xs : lower_bound xs (B754_nan : f64) = 0%nat.
Proof.
  unfold lower_bound. rewrite (bsearch_ext _ (fun _ => false)); [apply bsearch_false|].
  intros i _. apply nlt_nan_r.
Qed.

Lemma plus_nan_r (b : f64) : b +! B754_nan = B754_nan.
Proof. destruct b; reflexivity. Qed.
Lemma mult_nan_l (a : f64) : B754_nan *! a = B754_nan.
Proof. destruct a; reflexivity. Qed.

Lemma interp2d_nan_lemma : forall xs ys data x y, (2 <= length xs)%nat -> (2 <= length ys)%nat ->
  length data = (length xs * length ys)%nat -> all_finite xs -> all_finite ys -> is_sorted xs = true -> is_sorted ys = true ->
  (is_nan x = true /\ (is_nan y = true \/ is_finite y = true /\ dvalue y <= nth (length ys - 1) (dvalues ys) 0) \/
   is_nan y = true /\ is_finite x = true /\ dvalue x <= nth (length xs - 1) (dvalues xs) 0) ->
  exists o, (forall bm, new2d bm LINEAR xs ys data = Ok o) /\ eval2d Debug o x y = Abort /\ eval2d Release o x y = Ok B754_nan.
Proof.
  intros xs ys data x y Lx Ly Hd Fx Fy Sx Sy H.
  exists (fobj2 xs ys data). split; [intros bm; apply new2d_f; auto; lia|].
  assert (LB : forall zs z, (2 <= length zs)%nat -> all_finite zs -> is_finite z = true ->
     dvalue z <= nth (length zs - 1) (dvalues zs) 0 -> (S (max 1 (lower_bound zs z) - 1) < length zs)%nat).
  { intros zs z L F Fz Hz. assert (B : (lower_bound zs z < length zs)%nat); [|lia].
    unfold lower_bound. destruct (bsearch_loop_spec (fun i => nlt (nth i zs z) z) (length zs) 0 (length zs) (le_n _)) as (B & P & _).
    fold (bsearch (fun i => nlt (nth i zs z) z) (length zs)) in B, P. set (r := bsearch _ _) in *.
    destruct (Nat.eq_dec r (length zs)) as [E|]; [|lia]. exfalso.
    assert (Q : nlt (nth (length zs - 1) zs z) z = true).
    { replace (length zs - 1)%nat with (r - 1)%nat by lia. apply P. lia. }
    rewrite (nth_indep zs z f0) in Q by lia. rewrite nlt_val in Q by (auto using finite_nth).
    apply Rltb_true in Q. rewrite nth_dvalues in Hz. change (dvalue z) with (val z) in Hz. lra. }
  split.
  - rewrite eval2d_debug_f. unfold in_box.
    destruct H as [[Nx _]|[Ny _]].
    + apply is_nan_eq in Nx. subst x. rewrite nle_nan_r. reflexivity.
    + apply is_nan_eq in Ny. subst y. rewrite nle_nan_r. rewrite andb_false_l, andb_false_r. reflexivity.
  - destruct H as [[Nx Ny]|[Ny [Fx' Bx]]].
    + apply is_nan_eq in Nx. subst x.
      rewrite (eval2d_release_f xs ys data _ y 0 (max 1 (lower_bound ys y) - 1)); auto; try lia.
      * unfold fceval. rewrite mult_nan_r, plus_nan_r, !plus_nan_l. reflexivity.
      * rewrite lower_bound_nan. reflexivity.
      * destruct Ny as [Ny|[Fy' By]]; [|apply LB; auto]. apply is_nan_eq in Ny. subst y. rewrite lower_bound_nan. simpl. lia.
    + apply is_nan_eq in Ny. subst y.
      rewrite (eval2d_release_f xs ys data x _ (max 1 (lower_bound xs x) - 1) 0); auto; try lia.
      * unfold fceval. rewrite mult_nan_r, plus_nan_r, plus_nan_l. reflexivity.
      * rewrite lower_bound_nan. reflexivity.
Qed.

(** ** Counterexamples *)
Lemma inc2 (a b : f64) : val a < val b -> increasing (dvalues [a; b]).
Proof. apply increasing2. Qed.

Lemma node2_refuted_pf : exists xs ys data, all_finite xs /\ all_finite ys /\ all_finite data /\
  increasing (dvalues xs) /\ increasing (dvalues ys) /\ length data = (length xs * length ys)%nat /\
  dvalues xs = [1; 4] /\ dvalues ys = [0; 1] /\ dvalues data = [1; 1; 8; 8] /\
  forall bm, exists o v, new2d bm LINEAR xs ys data = Ok o /\
    eval2d bm o (nth 0 xs f0) (nth 0 ys f0) = Ok v /\ dvalue v = 1 - / 2 ^ 52.
Proof.
  set (xs := [f64_ofZ 1; f64_ofZ 4]). set (ys := [f64_ofZ 0; f64_ofZ 1]).
  set (data := [f64_ofZ 1; f64_ofZ 1; f64_ofZ 8; f64_ofZ 8]). exists xs, ys, data.
  destruct (ofZ_ok 1 ltac:(lia)) as [A1 B1]. destruct (ofZ_ok 4 ltac:(lia)) as [A4 B4].
  destruct (ofZ_ok 0 ltac:(lia)) as [A0 B0]. destruct (ofZ_ok 8 ltac:(lia)) as [A8 B8].
  assert (Ix : increasing (dvalues xs)) by (apply inc2; lra).
  assert (Iy : increasing (dvalues ys)) by (apply inc2; lra).
  assert (Hx : all_finite xs) by (repeat constructor). assert (Hy : all_finite ys) by (repeat constructor).
  assert (Vx : dvalues xs = [1; 4]) by (unfold xs, dvalues, dvalue; cbn [map]; rewrite B1, B4; reflexivity).
  assert (Vy : dvalues ys = [0; 1]) by (unfold ys, dvalues, dvalue; cbn [map]; rewrite B1, B0; reflexivity).
  split; [auto|]. split; [auto|]. split; [repeat constructor|]. split; [auto|]. split; [auto|]. split; [auto|].
  split; [auto|]. split; [auto|]. split.
  { unfold data, dvalues, dvalue. cbn [map]. rewrite B1, B8. reflexivity. }
  intros bm. destruct (eval2_cell bm xs ys data (nth 0 xs f0) (nth 0 ys f0) 0 0) as (_ & _ & Ho & He); auto.
  - rewrite Vx. change (nth 0 xs f0) with (f64_ofZ 1). unfold dvalue. rewrite B1. split; [simpl; lia|]. split; [simpl; lra|auto].
  - rewrite Vy. change (nth 0 ys f0) with (f64_ofZ 0). unfold dvalue. rewrite B0. split; [simpl; lia|]. split; [simpl; lra|auto].
  - rewrite Vx, Vy. change (nth 0 xs f0) with (f64_ofZ 1). change (nth 0 ys f0) with (f64_ofZ 0).
    unfold inside, dvalue. rewrite B0, B1. simpl. lra.
  - exists (fobj2 xs ys data), (fceval (fcellc xs ys data (length ys) (1%nat, 1%nat)) (nth 0 xs f0) (nth 0 ys f0)).
    split; [auto|]. split; [auto|]. unfold dvalue.
    rewrite (val_pos _ 9007199254740990 53) by (vm_compute; reflexivity).
    change (2 ^ 53)%Z with 9007199254740992%Z. rewrite pow_IZR. change (2 ^ Z.of_nat 52)%Z with 4503599627370496%Z. lra.
Qed.

Lemma constant2_refuted_pf : exists xs ys data c x y, all_finite xs /\ all_finite ys /\
  increasing (dvalues xs) /\ increasing (dvalues ys) /\
  dvalues xs = [1000000; 1000001] /\ dvalues ys = [1000000; 1000001] /\ data = [c; c; c; c] /\ is_finite c = true /\
  1 / 10 <= dvalue c <= 1000001 / 10000000 /\ In x xs /\ In y ys /\
  forall bm, exists o v, new2d bm LINEAR xs ys data = Ok o /\ eval2d bm o x y = Ok v /\ dvalue v = 6554 / 65536.
Proof.
  set (a := f64_ofZ 1000000). set (b := f64_ofZ 1000001). set (c := f64_ofZ 1 /! f64_ofZ 10).
  set (xs := [a; b]). set (data := [c; c; c; c]). exists xs, xs, data, c, a, a.
  destruct (ofZ_ok 1000000 ltac:(lia)) as [A1 B1]. destruct (ofZ_ok 1000001 ltac:(lia)) as [A4 B4].
  assert (Ix : increasing (dvalues xs)) by (apply inc2; unfold a, b; lra).
  assert (Hx : all_finite xs) by (repeat constructor).
  assert (Vx : dvalues xs = [1000000; 1000001]) by (unfold xs, dvalues, dvalue, a, b; cbn [map]; rewrite B1, B4; reflexivity).
  split; [auto|]. split; [auto|]. split; [auto|]. split; [auto|]. split; [auto|]. split; [auto|]. split; [auto|].
  split; [vm_compute; reflexivity|]. split.
  { change (dvalue c) with (val c). rewrite (val_pos c 7205759403792794 56) by (vm_compute; reflexivity).
    change (2 ^ 56)%Z with 72057594037927936%Z. lra. }
  split; [left; auto|]. split; [left; auto|].
  intros bm. destruct (eval2_cell bm xs xs data a a 0 0) as (_ & _ & Ho & He); auto.
  - rewrite Vx. unfold dvalue, a. rewrite B1. split; [simpl; lia|]. split; [simpl; lra|auto].
  - rewrite Vx. unfold dvalue, a. rewrite B1. split; [simpl; lia|]. split; [simpl; lra|auto].
  - rewrite Vx. unfold inside, dvalue, a. rewrite B1. simpl. lra.
  - exists (fobj2 xs xs data), (fceval (fcellc xs xs data (length xs) (1%nat, 1%nat)) a a).
    split; [auto|]. split; [auto|]. unfold dvalue.
    rewrite (val_pos _ 7206199208443904 56) by (vm_compute; reflexivity).
    change (2 ^ 56)%Z with 72057594037927936%Z. lra.
Qed.
