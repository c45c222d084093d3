(** [linspace] in binary64. *)
From Coq Require Import List Arith ZArith Reals Bool Lia Lra Psatz.
From Flocq Require Import Core.Core IEEE754.BinarySingleNaN.
From Flocq Require Import Relative.
From Verif Require Import Outcome Num NumFun F64 L_F64 M_Basics S_Angles S_Basics L_Angles L_Basics.
Import ListNotations.
Local Open Scope R_scope.

Definition u53 : R := / 2 ^ 53.

Lemma u53_bpow : u53 = / 2 * bpow radix2 (-53 + 1).
Proof. unfold u53. simpl. lra. Qed.
Lemma u53_pos : 0 < u53.
Proof. unfold u53. lra. Qed.

Lemma rel_err x : bpow radix2 (-1022) <= Rabs x -> Rabs (rnd64 x - x) <= u53 * Rabs x.
Proof.
  intros H. rewrite u53_bpow. apply (relative_error_N_FLT radix2 (-1074) 53 ltac:(lia) (fun n => negb (Z.even n))).
  exact H.
Qed.

Lemma rel_err_pos x : bpow radix2 (-1022) <= x -> x * (1 - u53) <= rnd64 x <= x * (1 + u53).
Proof.
  intros H. assert (P : 0 < bpow radix2 (-1022)) by apply bpow_gt_0.
  assert (E := rel_err x). rewrite (Rabs_pos_eq x) in E by lra. specialize (E H). apply Rabs_le_inv in E. lra.
Qed.

(** Rounding a sum of two doubles: relative error even in the subnormal range. *)
Lemma sum_err x y : fmt64 x -> fmt64 y -> Rabs (rnd64 (x + y) - (x + y)) <= u53 * Rabs (x + y).
Proof.
  intros Hx Hy. destruct (Rle_or_lt (bpow radix2 (-1022)) (Rabs (x + y))) as [H|H]; [apply rel_err; auto|].
  assert (M : forall v, fmt64 v -> mult_of (-1074) v).
  { intros v Hv. unfold mult_of. 
    apply generic_inclusion_mag with (fexp1 := fexp64); auto.
    intros _. unfold FIX_exp, SpecFloat.fexp, SpecFloat.emin. lia. }
  rewrite rnd64_id.
  - rewrite Rminus_diag_eq, Rabs_R0 by auto. apply Rmult_le_pos; [left; apply u53_pos|apply Rabs_pos].
  - apply (mult_of_fmt (-1074)); [lia|apply mult_of_plus; auto|].
    apply Rlt_trans with (1 := H). apply bpow_lt. lia.
Qed.

Section Lin.
Context (start stop : f64) (num : nat).
Hypothesis Fs : is_finite start = true.
Hypothesis Ft : is_finite stop = true.
Hypothesis Hst : val start <= val stop.
Hypothesis Hov : val stop - val start <= fmax64.
Hypothesis Hn : (2 <= num)%nat.
Hypothesis Hn32 : (Z.of_nat num < 2 ^ 32)%Z.
Hypothesis Hsub : val start = val stop \/ INR (num - 1) * bpow radix2 (-1022) <= val stop - val start.

Let D := val stop - val start.
Let N := INR (num - 1).
Let step := Bdiv mode_NE (Bminus mode_NE stop start) (f64_ofZ (Z.of_nat (num - 1))).
Let item i := Bplus mode_NE start (Bmult mode_NE (f64_ofZ (Z.of_nat i)) step).

Lemma lin_N : 1 <= N <= 2 ^ 32.
Proof.
  unfold N. split.
  - change 1 with (INR 1). apply le_INR. lia.
  - rewrite INR_IZR_INZ. change (2 ^ 32) with (IZR 2 ^ 32). rewrite (pow_IZR 2 32). apply IZR_le. lia.
Qed.

Lemma no_ov x : 0 <= x <= fmax64 -> Rabs x <= fmax64 + bpow radix2 969.
Proof. intros H. rewrite Rabs_pos_eq by lra. assert (0 < bpow radix2 969) by apply bpow_gt_0. lra. Qed.

Lemma rnd_range x : 0 <= x <= fmax64 -> 0 <= rnd64 x <= fmax64.
Proof.
  intros H. split.
  - rewrite <- (rnd64_id 0) by apply generic_format_0. apply rnd64_le. lra.
  - rewrite <- (rnd64_id fmax64) by apply fmax64_fmt. apply rnd64_le. lra.
Qed.

Lemma lin_step : is_finite step = true /\ 0 <= val step /\
  (D = 0 -> val step = 0) /\
  (0 < D -> bpow radix2 (-1022) <= val step /\
     D / N * (1 - u53) * (1 - u53) <= val step <= D / N * (1 + u53) * (1 + u53)).
Proof.
  assert (HN := lin_N). assert (U := u53_pos). assert (P : 0 < bpow radix2 (-1022)) by apply bpow_gt_0.
  assert (HD : 0 <= D <= fmax64) by (unfold D; lra).
  destruct (minus_ok stop start Ft Fs) as [Fd Vd]; [apply no_ov; auto|]. fold D in Vd.
  destruct (ofZ_ok (Z.of_nat (num - 1)) ltac:(lia)) as [Fk Vk]. rewrite <- INR_IZR_INZ in Vk. fold N in Vk.
  assert (Rd := rnd_range D HD). rewrite <- Vd in Rd.
  assert (Q : forall y, 0 <= y -> 0 <= y / N <= y).
  { intros y Hy. split; [apply Rmult_le_pos; [auto|left; apply Rinv_0_lt_compat; lra]|].
    apply Rmult_le_reg_r with N; [lra|]. unfold Rdiv. rewrite Rmult_assoc, Rinv_l by lra. nra. }
  destruct (div_ok (Bminus mode_NE stop start) (f64_ofZ (Z.of_nat (num - 1))) Fd Fk) as [Fq Vq].
  { rewrite Vk. lra. }
  { rewrite Vk. apply no_ov. specialize (Q _ (proj1 Rd)). lra. }
  fold step in Fq, Vq. rewrite Vk in Vq. split; [auto|]. split; [|split].
  - rewrite Vq. apply rnd_range. specialize (Q _ (proj1 Rd)). lra.
  - intros E. rewrite Vq, Vd, E. rewrite (rnd64_id 0) by apply generic_format_0. unfold Rdiv. rewrite Rmult_0_l.
    apply rnd64_id, generic_format_0.
  - intros Dp. assert (HDN : N * bpow radix2 (-1022) <= D) by (destruct Hsub as [E|E]; [unfold D in Dp; lra|exact E]).
    assert (D1 : bpow radix2 (-1022) <= D) by nra.
    assert (Ed := rel_err_pos D D1). rewrite <- Vd in Ed.
    assert (Ld : N * bpow radix2 (-1022) <= val (Bminus mode_NE stop start)).
    { rewrite Vd. rewrite <- (rnd64_id (N * bpow radix2 (-1022))); [apply rnd64_le; auto|].
      unfold N. rewrite INR_IZR_INZ. apply (fmt64_F2R (Z.of_nat (num - 1)) (-1022)); lia. }
    set (d := val (Bminus mode_NE stop start)) in *.
    assert (Lq : bpow radix2 (-1022) <= d / N).
    { apply Rmult_le_reg_r with N; [lra|]. unfold Rdiv. rewrite Rmult_assoc, Rinv_l by lra. lra. }
    assert (Eq := rel_err_pos (d / N) Lq). rewrite <- Vq in Eq.
    split.
    + rewrite Vq. rewrite <- (rnd64_id (bpow radix2 (-1022))) by (apply fmt64_bpow; lia). apply rnd64_le. auto.
    + assert (I : 0 < / N) by (apply Rinv_0_lt_compat; lra). unfold Rdiv in *.
      assert (A1 : D * (1 - u53) * / N <= d * / N) by (apply Rmult_le_compat_r; lra).
      assert (A2 : d * / N <= D * (1 + u53) * / N) by (apply Rmult_le_compat_r; lra).
      assert (U1 : u53 < 1) by (unfold u53; lra).
      split.
      * apply Rle_trans with (2 := proj1 Eq). replace (D * / N * (1 - u53) * (1 - u53)) with (D * (1 - u53) * / N * (1 - u53)) by ring.
        apply Rmult_le_compat_r; lra.
      * apply Rle_trans with (1 := proj2 Eq). replace (D * / N * (1 + u53) * (1 + u53)) with (D * (1 + u53) * / N * (1 + u53)) by ring.
        apply Rmult_le_compat_r; lra.
Qed.

(** The increments. *)
Lemma lin_incr i : (i < num - 1)%nat ->
  let q := Bmult mode_NE (f64_ofZ (Z.of_nat i)) step in
  is_finite q = true /\ val q = rnd64 (INR i * val step) /\ 0 <= val q <= D /\
  Rabs (val q - INR i * (D / N)) <= 4 * u53 * D.
Proof.
  intros Hi q. destruct lin_step as (Fp & Pp & Z0 & Pos).
  assert (HN := lin_N). assert (U := u53_pos). assert (P : 0 < bpow radix2 (-1022)) by apply bpow_gt_0.
  assert (HD : 0 <= D <= fmax64) by (unfold D; lra).
  destruct (ofZ_ok (Z.of_nat i) ltac:(lia)) as [Fi Vi]. rewrite <- INR_IZR_INZ in Vi.
  assert (Hi0 : 0 <= INR i) by apply pos_INR.
  assert (HiN : INR i <= N - 1).
  { unfold N. replace (INR (num - 1) - 1) with (INR (num - 2)); [apply le_INR; lia|].
    replace (num - 1)%nat with (S (num - 2)) by lia. rewrite S_INR. ring. }
  assert (I0 : 0 < / N) by (apply Rinv_0_lt_compat; lra).
  assert (IN : N * / N = 1) by (apply Rinv_r; lra).
  set (t := INR i * (D / N)).
  assert (Ht : 0 <= t <= D - D / N).
  { unfold t, Rdiv. split; [apply Rmult_le_pos; [auto|apply Rmult_le_pos; lra]|].
    replace (D - D * / N) with ((N - 1) * (D * / N)) by (rewrite Rmult_minus_distr_r, <- Rmult_assoc, (Rmult_comm N D), Rmult_assoc, IN; ring).
    apply Rmult_le_compat_r; [apply Rmult_le_pos; lra|auto]. }
  assert (HDN : D * / 2 ^ 32 <= D / N).
  { unfold Rdiv. apply Rmult_le_compat_l; [lra|]. apply Rinv_le_contravar; lra. }
  assert (Key : INR i * val step <= D /\ 0 <= rnd64 (INR i * val step) <= D /\
     Rabs (rnd64 (INR i * val step) - t) <= 4 * u53 * D).
  { destruct (Req_dec D 0) as [E|E].
    - rewrite Z0 by auto. rewrite Rmult_0_r. rewrite (rnd64_id 0) by apply generic_format_0.
      unfold t. rewrite E. unfold Rdiv. rewrite Rmult_0_l, Rmult_0_r, Rminus_0_r, Rabs_R0. lra.
    - destruct (Pos ltac:(lra)) as [L (B1 & B2)].
      assert (T1 : t * (1 - u53) * (1 - u53) <= INR i * val step).
      { unfold t. replace (INR i * (D / N) * (1 - u53) * (1 - u53)) with (INR i * (D / N * (1 - u53) * (1 - u53))) by ring.
        apply Rmult_le_compat_l; auto. }
      assert (T2 : INR i * val step <= t * (1 + u53) * (1 + u53)).
      { unfold t. replace (INR i * (D / N) * (1 + u53) * (1 + u53)) with (INR i * (D / N * (1 + u53) * (1 + u53))) by ring.
        apply Rmult_le_compat_l; auto. }
      assert (Hq : INR i * val step * (1 - u53) <= rnd64 (INR i * val step) <= INR i * val step * (1 + u53)).
      { destruct i as [|i].
        - simpl INR. rewrite Rmult_0_l, (rnd64_id 0) by apply generic_format_0. lra.
        - apply rel_err_pos. assert (1 <= INR (S i)) by (change 1 with (INR 1); apply le_INR; lia). nra. }
      set (s := INR i * val step) in *. set (r := rnd64 s) in *.
      assert (S0 : 0 <= s) by (unfold s; apply Rmult_le_pos; auto).
      unfold u53 in *.
      assert (R1 : r <= t * (1 + / 2 ^ 53) * (1 + / 2 ^ 53) * (1 + / 2 ^ 53)) by (apply Rle_trans with (1 := proj2 Hq); apply Rmult_le_compat_r; lra).
      assert (R2 : t * (1 - / 2 ^ 53) * (1 - / 2 ^ 53) * (1 - / 2 ^ 53) <= r) by (apply Rle_trans with (2 := proj1 Hq); apply Rmult_le_compat_r; lra).
      split; [lra|]. split; [split; lra|]. apply Rabs_le. lra. }
  destruct Key as (K1 & K2 & K3).
  destruct (mult_ok (f64_ofZ (Z.of_nat i)) step Fi Fp) as [Fm Vm].
  { rewrite Vi. apply no_ov. split; [apply Rmult_le_pos; auto|lra]. }
  fold q in Fm, Vm. rewrite Vi in Vm. rewrite Vm. auto.
Qed.

Lemma lin_item i : (i < num - 1)%nat ->
  is_finite (item i) = true /\ val (item i) = rnd64 (val start + rnd64 (INR i * val step)) /\
  val start <= val (item i) <= val stop /\
  Rabs (val (item i) - (val start + INR i * (D / N))) <= u53 * (4 * D + Rmax (Rabs (val start)) (Rabs (val stop))).
Proof.
  intros Hi. destruct (lin_incr i Hi) as (Fq & Vq & Bq & Eq). cbv zeta in *.
  set (q := Bmult mode_NE (f64_ofZ (Z.of_nat i)) step) in *.
  assert (HD : 0 <= D) by (unfold D; lra).
  assert (Bs : val start <= val start + val q <= val stop) by (unfold D in Bq; lra).
  assert (As : Rabs (val start + val q) <= Rmax (Rabs (val start)) (Rabs (val stop))).
  { unfold Rmax. destruct (Rle_dec (Rabs (val start)) (Rabs (val stop)));
    revert r || revert n; unfold Rabs; repeat match goal with |- context[Rcase_abs ?a] => destruct (Rcase_abs a) end; lra. }
  destruct (plus_ok start q Fs Fq) as [Fp Vp].
  { apply Rle_trans with (1 := As). assert (0 < bpow radix2 969) by apply bpow_gt_0.
    assert (A1 := abs_val_fmax start). assert (A2 := abs_val_fmax stop). apply Rmax_lub; lra. }
  change (Bplus mode_NE start q) with (item i) in Fp, Vp.
  split; [auto|]. split; [rewrite Vp, Vq; auto|]. split.
  - rewrite Vp. rewrite <- (rnd64_id (val start)) at 1 by apply fmt64_val.
    rewrite <- (rnd64_id (val stop)) by apply fmt64_val. split; apply rnd64_le; lra.
  - rewrite Vp. assert (E := sum_err (val start) (val q) (fmt64_val _) (fmt64_val _)).
    assert (U := u53_pos).
    apply Rle_trans with (Rabs (rnd64 (val start + val q) - (val start + val q)) + Rabs (val q - INR i * (D / N))).
    + replace (rnd64 (val start + val q) - (val start + INR i * (D / N))) with
        (rnd64 (val start + val q) - (val start + val q) + (val q - INR i * (D / N))) by ring. apply Rabs_triang.
    + assert (u53 * Rabs (val start + val q) <= u53 * Rmax (Rabs (val start)) (Rabs (val stop))) by (apply Rmult_le_compat_l; lra).
      lra.
Qed.

Lemma lin_mono i j : (i <= j < num - 1)%nat -> val (item i) <= val (item j).
Proof.
  intros H. destruct (lin_item i ltac:(lia)) as (_ & -> & _). destruct (lin_item j ltac:(lia)) as (_ & -> & _).
  destruct lin_step as (_ & Pp & _).
  apply rnd64_le, Rplus_le_compat_l, rnd64_le, Rmult_le_compat_r; auto. apply le_INR. lia.
Qed.

Lemma lin_first : val (item 0) = val start.
Proof.
  destruct (lin_item 0 ltac:(lia)) as (_ & -> & _). simpl INR. rewrite Rmult_0_l, (rnd64_id 0) by apply generic_format_0.
  rewrite Rplus_0_r. apply rnd64_id, fmt64_val.
Qed.

Lemma linspace64 bm (z : f64) : exists l, linspace bm start stop num = Ok l /\ length l = num /\
  nth (num - 1) l z = stop /\ val (nth 0 l z) = val start /\
  (forall k, (k < num)%nat -> is_finite (nth k l z) = true /\ val start <= val (nth k l z) <= val stop /\
     Rabs (val (nth k l z) - (val start + INR k * ((val stop - val start) / INR (num - 1)))) <=
       u53 * (4 * (val stop - val start) + Rmax (Rabs (val start)) (Rabs (val stop)))) /\
  (forall i j, (i <= j < num)%nat -> val (nth i l z) <= val (nth j l z)).
Proof.
  unfold linspace.
  assert (C1 : cassert bm (1 <? num)%nat = Ok tt).
  { destruct bm; simpl; auto. destruct (Nat.ltb_spec 1 num); auto; lia. }
  assert (C2 : cassert bm (nle start stop) = Ok tt).
  { destruct bm; simpl; auto. rewrite Bleb_correct by auto. rewrite Rle_bool_true by auto. reflexivity. }
  rewrite C1, C2. cbn [bind]. destruct (Nat.eqb_spec num 0); [lia|].
  exists (map item (seq 0 (num - 1)) ++ [stop]). split; [reflexivity|].
  assert (Ni : forall k, (k < num - 1)%nat -> nth k (map item (seq 0 (num - 1)) ++ [stop]) z = item k).
  { intros k Hk. rewrite app_nth1 by (rewrite map_length, seq_length; lia). apply nth_map_seq. auto. }
  assert (Nl : nth (num - 1) (map item (seq 0 (num - 1)) ++ [stop]) z = stop).
  { rewrite app_nth2; rewrite map_length, seq_length; [|lia]. rewrite Nat.sub_diag. reflexivity. }
  split; [rewrite app_length, map_length, seq_length; simpl; lia|].
  split; [exact Nl|]. split; [rewrite Ni by lia; apply lin_first|]. split.
  - intros k Hk. destruct (Nat.eq_dec k (num - 1)) as [->|Hne].
    + rewrite Nl. split; [auto|]. split; [lra|]. fold N D. assert (HN := lin_N).
      replace (val stop - (val start + N * (D / N))) with 0 by (unfold D; field; lra).
      rewrite Rabs_R0. apply Rmult_le_pos; [left; apply u53_pos|].
      assert (0 <= Rmax (Rabs (val start)) (Rabs (val stop))) by (apply Rle_trans with (2 := Rmax_l _ _), Rabs_pos).
      unfold D. lra.
    + rewrite Ni by lia. destruct (lin_item k ltac:(lia)) as (I1 & _ & I3 & I4). auto.
  - intros i j Hij. destruct (Nat.eq_dec j (num - 1)) as [->|Hne].
    + rewrite Nl. destruct (Nat.eq_dec i (num - 1)) as [->|Hne']; [rewrite Nl; lra|].
      rewrite Ni by lia. apply lin_item. lia.
    + rewrite !Ni by lia. apply lin_mono. lia.
Qed.
End Lin.

Lemma linspace_double_lemma : forall bm (start stop : f64) num,
  is_finite start = true -> is_finite stop = true -> dvalue start <= dvalue stop ->
  dvalue stop - dvalue start <= dmax ->
  (2 <= num)%nat -> (Z.of_nat num < 2 ^ 32)%Z ->
  dvalue start = dvalue stop \/ INR (num - 1) * dmin_normal <= dvalue stop - dvalue start ->
  exists l, linspace bm start stop num = Ok l /\ length l = num /\
    nth (num - 1) l start = stop /\ dvalue (nth 0 l stop) = dvalue start /\
    (forall k, (k < num)%nat -> is_finite (nth k l start) = true /\
       dvalue start <= dvalue (nth k l start) <= dvalue stop /\
       Rabs (dvalue (nth k l start) - (dvalue start + INR k * ((dvalue stop - dvalue start) / INR (num - 1)))) <=
         / 2 ^ 53 * (4 * (dvalue stop - dvalue start) + Rmax (Rabs (dvalue start)) (Rabs (dvalue stop)))) /\
    (forall i j, (i <= j < num)%nat -> dvalue (nth i l start) <= dvalue (nth j l start)).
Proof.
  intros bm start stop num Fs Ft Hst Hov Hn Hn32 Hsub.
  assert (B : bpow radix2 (-1022) = dmin_normal) by apply (bpow_powerRZ radix2 (-1022)).
  assert (M : dmax = fmax64).
  { cbv [fmax64 F2R Fnum Fexp dmax]. f_equal. symmetry. apply (bpow_powerRZ radix2 971). }
  rewrite M in Hov. rewrite <- B in Hsub.
  destruct (linspace64 start stop num Fs Ft Hst Hov Hn Hn32 Hsub bm start) as (l & H1 & H2 & H3 & H4 & H5 & H6).
  exists l. split; [auto|]. split; [auto|]. split; [auto|]. split; [|split; auto].
  rewrite (nth_indep l stop start) by lia. exact H4.
Qed.

(** In the subnormal range the points can leave the interval. *)
Definition tiny (k : Z) : f64 := binary_normalize 53 1024 _ _ mode_NE k (-1074) false.
Lemma linspace_double_refuted_pf :
  omap (map B2SF) (linspace Debug (tiny 0) (tiny 3) 6) =
    Ok (map B2SF [tiny 0; tiny 1; tiny 2; tiny 3; tiny 4; tiny 3]) /\ dvalue (tiny 3) < dvalue (tiny 4).
Proof.
  split; [vm_compute; reflexivity|].
  unfold dvalue.
  assert (H : Bltb (tiny 3) (tiny 4) = true) by (vm_compute; reflexivity).
  rewrite Bltb_correct in H by (vm_compute; reflexivity).
  destruct (Rlt_bool_spec (val (tiny 3)) (val (tiny 4))); [auto|discriminate].
Qed.
