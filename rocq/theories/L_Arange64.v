(** [arange] in binary64. *)
From Coq Require Import List Arith ZArith Reals Bool Lia Lra Psatz.
From Flocq Require Import Core.Core IEEE754.BinarySingleNaN.
From Verif Require Import Outcome Num NumFun F64 M_Basics L_F64 L_Linspace64 L_F64Err S_Angles S_Double S_Arange64
  L_Angles L_Series64 L_Interp64 L_Special64 L_Basics2 L_Apx.
Import ListNotations.
Local Open Scope R_scope.

Lemma floor_fin (x : f64) : is_finite x = true ->
  is_finite (nfloor x) = true /\ val (nfloor x) = IZR (Zfloor (val x)).
Proof.
  intros F. destruct (Bnearbyint_correct 53 1024 emax1024 mode_DN x) as (E & F' & _).
  change (nfloor x) with (Bnearbyint mode_DN x). rewrite F', F. split; [reflexivity|].
  rewrite E. apply round_FIX_IZR.
Qed.

Lemma eta_small : 0 < eta64 <= / 1000 * u53.
Proof.
  split; [apply eta64_pos|]. apply Rle_trans with (1 := eta_tau).
  assert (tau <= 1) by (change 1 with (bpow radix2 0); apply bpow_le; lia).
  assert (P := u53_pos). nra.
Qed.

(** The rounding analysis of the count, over the reals. *)
Lemma count_err D S d q : 0 < D -> 0 < S -> Rabs (d - D) <= u53 * D ->
  Rabs (q - d / S) <= u53 * Rabs (d / S) + eta64 ->
  forall n : Z, (0 <= n)%Z -> IZR n <= q < IZR n + 1 ->
  IZR n <= D / S * (1 + 3 * u53) /\ D / S * (1 - 3 * u53) < IZR n + 1.
Proof.
  intros HD HS Hd Hq n Hn Hf. assert (U := u_tiny). assert (E := eta_small).
  set (Q := D / S) in *. assert (HQ : 0 < Q) by (apply Rdiv_lt_0_compat; auto).
  assert (Hd' : Rabs (d / S - Q) <= u53 * Q).
  { unfold Q. replace (d / S - D / S) with ((d - D) * / S) by (field; lra). rewrite Rabs_mult, (Rabs_pos_eq (/ S)) by (left; apply Rinv_0_lt_compat; auto).
    unfold Rdiv. rewrite <- Rmult_assoc. apply Rmult_le_compat_r; auto. left; apply Rinv_0_lt_compat; auto. }
  set (p := d / S) in *. apply Rabs_le_inv in Hd'. rewrite (Rabs_pos_eq p) in Hq by nra. apply Rabs_le_inv in Hq.
  assert (q1 : q <= Q * (1 + u53) * (1 + u53) + eta64) by nra.
  assert (q2 : Q * (1 - u53) * (1 - u53) - eta64 <= q) by nra.
  assert (N0 : 0 <= IZR n) by (apply IZR_le; auto).
  assert (X1 : Q * (1 + u53) * (1 + u53) = Q + 2 * (Q * u53) + Q * u53 * u53) by ring.
  assert (X2 : Q * (1 - u53) * (1 - u53) = Q - 2 * (Q * u53) + Q * u53 * u53) by ring.
  replace (Q * (1 + 3 * u53)) with (Q + 3 * (Q * u53)) by ring.
  replace (Q * (1 - 3 * u53)) with (Q - 3 * (Q * u53)) by ring.
  assert (Z1 : 0 < Q * u53) by (apply Rmult_lt_0_compat; lra).
  assert (Z2 : Q * u53 <= Q * / 1000000000000000) by (apply Rmult_le_compat_l; lra).
  assert (Z3 : 0 <= Q * u53 * u53 <= Q * u53 * / 1000000000000000) by (split; [apply Rmult_le_pos; lra|apply Rmult_le_compat_l; lra]).
  rewrite X1 in q1. rewrite X2 in q2. clear X1 X2. set (z := Q * u53) in *. set (zz := z * u53) in *.
  destruct (Rle_or_lt Q (/ 2)) as [L|L].
  - split; [|lra]. destruct (Z.eq_dec n 0) as [->|]; [lra|].
    assert (1 <= IZR n) by (apply IZR_le; lia). lra.
  - assert (Z4 : / 2 * u53 <= z) by (apply Rmult_le_compat_r; lra). split; lra.
Qed.

Section Arange.
Context (start stop step : f64).
Hypothesis Fs : is_finite start = true.
Hypothesis Ft : is_finite stop = true.
Hypothesis Fp : is_finite step = true.
Hypothesis Hlt : val start < val stop.
Hypothesis Hpos : 0 < val step.
Hypothesis Bs : Rabs (val start) <= bpow radix2 1000.
Hypothesis Bt : Rabs (val stop) <= bpow radix2 1000.
Hypothesis Hq : (val stop - val start) / val step <= 2 ^ 32 - 2.

Let dx := stop -! start.
Let qf := dx /! step.

Lemma ar_dx : is_finite dx = true /\ Rabs (val dx - (val stop - val start)) <= u53 * (val stop - val start) /\
  val dx = rnd64 (val stop - val start).
Proof.
  assert (P := big_pos). unfold big in P. apply Rabs_le_inv in Bs. apply Rabs_le_inv in Bt.
  destruct (minus_ok stop start Ft Fs) as (F & E).
  { apply big_over. unfold big. apply Rabs_le. lra. }
  split; [exact F|]. unfold dx. rewrite E. split; [|reflexivity].
  assert (K := sum_err (val stop) (- val start) (fmt64_val stop) (generic_format_opp _ _ _ (fmt64_val start))).
  replace (val stop + - val start) with (val stop - val start) in K by ring.
  rewrite (Rabs_pos_eq (val stop - val start)) in K by lra. exact K.
Qed.

Lemma ar_q : is_finite qf = true /\ val qf = rnd64 (val dx / val step) /\ 0 <= val qf < 2 ^ 32.
Proof.
  destruct ar_dx as (F & E & _). assert (U := u_tiny). apply Rabs_le_inv in E.
  set (D := val stop - val start) in *. assert (HD : 0 < D) by (unfold D; lra).
  assert (I : 0 < / val step) by (apply Rinv_0_lt_compat; auto).
  assert (K : 0 <= val dx / val step <= (2 ^ 32 - 2) * (1 + u53)).
  { unfold Rdiv in *. assert (0 <= val dx) by nra. split; [nra|].
    apply Rle_trans with (D * (1 + u53) * / val step); [apply Rmult_le_compat_r; lra|]. nra. }
  assert (K' : val dx / val step <= IZR (2 ^ 32 - 1)).
  { apply Rle_trans with (1 := proj2 K). rewrite minus_IZR. change (IZR (2 ^ 32)) with 4294967296. lra. }
  destruct (div_ok dx step F Fp ltac:(lra)) as (F1 & E1).
  { apply big_over. rewrite Rabs_pos_eq by lra. apply Rle_trans with (1 := K').
    apply Rle_trans with (bpow radix2 32); [|assert (bpow radix2 32 <= big) by (unfold big; apply bpow_le; lia); assert (0 < bpow radix2 32) by apply bpow_gt_0; lra].
    change (bpow radix2 32) with (IZR (2 ^ 32)). apply IZR_le. lia. }
  split; [exact F1|]. unfold qf. rewrite E1. split; [reflexivity|]. split.
  - rewrite <- (rnd64_id 0) by apply generic_format_0. apply rnd64_le. lra.
  - apply Rle_lt_trans with (rnd64 (IZR (2 ^ 32 - 1))); [apply rnd64_le; auto|].
    rewrite rnd64_id by (apply fmt64_IZR; lia). change (IZR (2 ^ 32 - 1)) with 4294967295. lra.
Qed.

Let n := Zfloor (val qf).
Let num := nfloor qf.

Lemma ar_n : (0 <= n < 2 ^ 32)%Z /\ IZR n <= val qf < IZR n + 1.
Proof.
  destruct ar_q as (_ & _ & L & H). unfold n. split.
  - split; [apply Zfloor_lub; auto|]. apply lt_IZR. apply Rle_lt_trans with (1 := Zfloor_lb _).
    change (IZR (2 ^ 32)) with 4294967296. lra.
  - split; [apply Zfloor_lb|apply Zfloor_ub].
Qed.

Lemma ar_count : IZR n <= (val stop - val start) / val step * (1 + 3 * u53) /\
  (val stop - val start) / val step * (1 - 3 * u53) < IZR n + 1.
Proof.
  destruct ar_dx as (F & E & _). destruct ar_q as (_ & E1 & _). destruct ar_n as (N & Nf).
  apply (count_err _ _ (val dx) (val qf)); auto; try lra; try lia.
  rewrite E1. apply L_F64Err.rnd_err.
Qed.

Lemma ar_final : is_finite (num *! step) = true /\ val (num *! step) = rnd64 (IZR n * val step).
Proof.
  destruct ar_q as (F & _ & _). destruct (floor_fin qf F) as (F1 & E1). destruct ar_count as (C & _).
  destruct ar_n as ((N0 & _) & _). apply IZR_le in N0.
  assert (U := u_tiny). apply Rabs_le_inv in Bs. apply Rabs_le_inv in Bt.
  assert (P := big_pos). unfold big in P.
  assert (K : IZR n * val step <= 4 * bpow radix2 1000).
  { apply Rle_trans with ((val stop - val start) / val step * (1 + 3 * u53) * val step); [apply Rmult_le_compat_r; lra|].
    replace ((val stop - val start) / val step * (1 + 3 * u53) * val step) with ((val stop - val start) * (1 + 3 * u53)) by (field; lra).
    nra. }
  destruct (mult_ok num step F1 Fp) as (F2 & E2).
  { fold num in E1. rewrite E1. fold n. apply big_over. unfold big. rewrite Rabs_pos_eq by nra. lra. }
  split; [exact F2|]. rewrite E2. unfold num. rewrite E1. reflexivity.
Qed.

Lemma ar_eq bm : arange bm start stop step = linspace bm start (num *! step) (Z.to_nat n).
Proof.
  destruct ar_q as (F & _ & _). destruct (floor_fin qf F) as (F1 & E1). destruct ar_n as (N & _).
  unfold arange. rewrite (nlt_lt start stop) by auto.
  destruct (ofZ_ok 0 ltac:(lia)) as (Fz & Z0).
  rewrite (nlt_lt (nofZ 0) step) by (auto || (change (nofZ 0) with (f64_ofZ 0); rewrite Z0; auto)).
  replace (cassert bm true) with (Ok tt) by (destruct bm; reflexivity). cbn [bind].
  change (nfloor ((stop - start) / step)%num) with num.
  change (ntoZ num) with (f64_toZ num). rewrite f64_toZ_fin by exact F1.
  fold num in E1. rewrite E1, Ztrunc_IZR. fold n.
  replace ((0 <=? n) && (n <? 4294967296))%Z with true by (symmetry; apply andb_true_intro; split; [apply Z.leb_le|apply Z.ltb_lt]; lia).
  reflexivity.
Qed.

(** Positive doubles at least 2^-900 differ by at least 2^-953. *)
Lemma gap (x y : f64) : val x < val y -> bpow radix2 (-900) <= val y -> bpow radix2 (-953) <= val y - val x.
Proof.
  intros L H. destruct (Rle_or_lt (bpow radix2 (-901)) (val x)) as [H'|H'].
  - assert (M : forall z : f64, bpow radix2 (-901) <= val z -> mult_of (-953) (val z)).
    { intros z Hz. unfold mult_of. apply generic_inclusion_ge with (fexp1 := fexp64) (e1 := (-901)%Z).
      - intros e He. unfold FIX_exp, SpecFloat.fexp, SpecFloat.emin. lia.
      - rewrite Rabs_pos_eq; auto. apply Rle_trans with (2 := Hz). apply bpow_ge_0.
      - apply fmt64_val. }
    assert (Mx := M x H'). assert (My := M y). assert (bpow radix2 (-901) <= bpow radix2 (-900)) by (apply bpow_le; lia).
    specialize (My ltac:(lra)).
    unfold mult_of, generic_format in Mx, My. unfold scaled_mantissa, cexp, FIX_exp, F2R in Mx, My. cbn [Fnum Fexp] in Mx, My.
    set (a := Ztrunc (val x * bpow radix2 (- (-953)))) in *. set (b := Ztrunc (val y * bpow radix2 (- (-953)))) in *.
    assert (P : 0 < bpow radix2 (-953)) by apply bpow_gt_0. rewrite Mx, My in L |- *.
    assert (a < b)%Z by (apply lt_IZR; nra). assert (IZR (a + 1) <= IZR b) by (apply IZR_le; lia).
    rewrite plus_IZR in *. nra.
  - assert (E : bpow radix2 (-900) = 2 * bpow radix2 (-901)) by (exact (bpow_plus_1 radix2 (-901))).
    assert (bpow radix2 (-953) <= bpow radix2 (-901)) by (apply bpow_le; lia). lra.
Qed.

Lemma ar_list bm : (2 <= n)%Z -> bpow radix2 (-900) <= val step -> val start <= IZR n * val step ->
  exists l, arange bm start stop step = Ok l /\ length l = Z.to_nat n /\ dvalue (nth 0 l stop) = val start /\
    (exists e, nth (Z.to_nat n - 1) l start = e /\ Rabs (val e - IZR n * val step) <= u53 * (IZR n * val step)) /\
    (forall i j, (i <= j < Z.to_nat n)%nat -> dvalue (nth i l start) <= dvalue (nth j l start)) /\
    (forall k, (k < Z.to_nat n)%nat -> is_finite (nth k l start) = true /\
       Rabs (dvalue (nth k l start) - (val start + INR k * ((IZR n * val step - val start) / (IZR n - 1)))) <=
         7 * u53 * (Rabs (val start) + IZR n * val step)).
Proof.
  intros H2 Hs Hle. destruct ar_final as (Ff & Ef). destruct ar_n as ((N0 & N32) & _). assert (U := u_tiny).
  set (e := num *! step) in *. assert (HN : 2 <= IZR n) by (apply IZR_le; auto).
  assert (P9 : 0 < bpow radix2 (-900)) by apply bpow_gt_0.
  assert (Hn : bpow radix2 (-900) <= IZR n * val step) by nra.
  assert (Er : Rabs (val e - IZR n * val step) <= u53 * (IZR n * val step)).
  { rewrite Ef. rewrite <- (Rabs_pos_eq (IZR n * val step)) at 3 by lra. apply rel_err.
    rewrite Rabs_pos_eq by lra. apply Rle_trans with (2 := Hn). apply bpow_le. lia. }
  assert (L : val start <= val e).
  { rewrite Ef, <- (rnd64_id (val start)) by apply fmt64_val. apply rnd64_le. exact Hle. }
  assert (Bs' := proj1 (Rabs_le_inv _ _ Bs)). assert (Bs2 := proj2 (Rabs_le_inv _ _ Bs)). assert (Bt' := Rabs_le_inv _ _ Bt).
  assert (P := big_pos). unfold big in P.
  assert (K : IZR n * val step <= 4 * bpow radix2 1000).
  { destruct ar_count as (C & _).
    apply Rle_trans with ((val stop - val start) / val step * (1 + 3 * u53) * val step); [apply Rmult_le_compat_r; lra|].
    replace ((val stop - val start) / val step * (1 + 3 * u53) * val step) with ((val stop - val start) * (1 + 3 * u53)) by (field; lra).
    nra. }
  assert (Eb := Rabs_le_inv _ _ Er).
  assert (Nn : INR (Z.to_nat n - 1) = IZR n - 1).
  { rewrite minus_INR by lia. rewrite INR_IZR_INZ, Z2Nat.id by lia. reflexivity. }
  destruct (linspace_double_lemma bm start e (Z.to_nat n)) as (l & A1 & A2 & A3 & A4 & A5 & A6); auto; try lia.
  - unfold dvalue. replace dmax with fmax64 by (symmetry; apply dmax_fmax).
    assert (B := big_over). assert (8 * bpow radix2 1000 <= fmax64).
    { unfold fmax64. apply Rle_trans with (bpow radix2 1003).
      - right. change (bpow radix2 1003) with (bpow radix2 (3 + 1000)). rewrite bpow_plus. reflexivity.
      - change (bpow radix2 1003) with (bpow radix2 (32 + 971)). rewrite bpow_plus. apply Rmult_le_compat_r; [apply bpow_ge_0|].
        change (bpow radix2 32) with (IZR (2 ^ 32)). change (IZR (2 ^ 32) <= IZR (2 ^ 53 - 1)). apply IZR_le. clear. lia. }
    nra.
  - unfold dvalue. rewrite Nn. destruct (Req_dec (val start) (val e)) as [Q|Q]; [left; auto|right].
    assert (M : bpow radix2 (-901) <= val e).
    { assert (E : bpow radix2 (-900) = 2 * bpow radix2 (-901)) by (exact (bpow_plus_1 radix2 (-901))). nra. }
    assert (E' : bpow radix2 (-900) <= val e).
    { rewrite Ef. rewrite <- (rnd64_id (bpow radix2 (-900))) by (apply fmt64_bpow; lia). apply rnd64_le. exact Hn. }
    apply Rle_trans with (2 := gap start e ltac:(lra) E').
    apply Rle_trans with (bpow radix2 32 * dmin_normal).
    + apply Rmult_le_compat_r; [unfold dmin_normal; left; apply powerRZ_lt; lra|].
      change (bpow radix2 32) with (IZR (2 ^ 32)). apply (IZR_lt n) in N32. lra.
    + unfold dmin_normal. replace (powerRZ 2 (-1022)) with (bpow radix2 (-1022)) by apply bpow_powerRZ.
      rewrite <- bpow_plus. apply bpow_le. lia.
  - exists l. split; [rewrite ar_eq; exact A1|]. split; [exact A2|].
    split; [rewrite (nth_indep l stop e) by (rewrite A2; lia); exact A4|]. split; [exists e; auto|].
    split; [exact A6|]. intros k Hk. destruct (A5 k Hk) as (B1 & B2 & B3). split; [exact B1|].
    rewrite Nn in B3. unfold dvalue in *. fold u53 in B3.
    assert (Ks : 0 <= INR k / (IZR n - 1) <= 1).
    { assert (IZR n - 1 > 0) by lra. assert (INR k <= IZR n - 1) by (rewrite <- Nn; apply le_INR; lia). assert (0 <= INR k) by apply pos_INR.
      split; [apply Rmult_le_pos; auto; left; apply Rinv_0_lt_compat; lra|].
      apply (Rmult_le_reg_r (IZR n - 1)); [lra|]. unfold Rdiv. rewrite Rmult_assoc, Rinv_l by lra. lra. }
    set (v := val (nth k l start)) in *. set (E := IZR n * val step) in *.
    replace (v - (val start + INR k * ((E - val start) / (IZR n - 1)))) with
      ((v - (val start + INR k * ((val e - val start) / (IZR n - 1)))) + INR k / (IZR n - 1) * (val e - E)) by (field; lra).
    apply Rle_trans with (1 := Rabs_triang _ _).
    assert (T : Rabs (INR k / (IZR n - 1) * (val e - E)) <= u53 * E).
    { rewrite Rabs_mult, (Rabs_pos_eq (INR k / (IZR n - 1))) by lra. assert (0 <= Rabs (val e - E)) by apply Rabs_pos. nra. }
    assert (M : Rmax (Rabs (val start)) (Rabs (val e)) <= Rabs (val start) + Rabs (val e)).
    { apply Rmax_lub; assert (A := Rabs_pos (val start)); assert (B := Rabs_pos (val e)); lra. }
    assert (A := Rabs_pos (val start)). assert (A' := Rle_abs (- val start)). rewrite Rabs_Ropp in A'.
    assert (e0 : 0 <= val e) by nra.
    rewrite (Rabs_pos_eq (val e)) in M by exact e0. rewrite (Rabs_pos_eq (val e)) in B3 by exact e0.
    assert (V : val e <= E * (1 + u53)) by lra. assert (0 < E) by lra.
    set (m := Rmax (Rabs (val start)) (val e)) in *. set (a := Rabs (val start)) in *.
    assert (Z2 : E * u53 <= E * / 1000000000000000) by (apply Rmult_le_compat_l; lra).
    assert (Z3 : 0 <= u53 * a) by (apply Rmult_le_pos; lra).
    assert (W : 4 * (val e - val start) + m <= 6 * E + 5 * a) by lra.
    apply Rle_trans with (u53 * (6 * E + 5 * a) + u53 * E); [|lra].
    apply Rplus_le_compat; [|exact T]. apply Rle_trans with (1 := B3). apply Rmult_le_compat_l; lra.
Qed.
End Arange.

Lemma big_pow : 2 ^ 1000 = bpow radix2 1000.
Proof. rewrite bpow_powerRZ. reflexivity. Qed.

Lemma cassert_true bm b : b = true -> cassert bm b = Ok tt.
Proof. intros ->. destruct bm; reflexivity. Qed.

Lemma arange_double_lemma : forall bm start stop step, arange_ready start stop step ->
  exists n : nat, floor_within_rounding ((dvalue stop - dvalue start) / dvalue step) n /\
    (n = 0%nat -> arange bm start stop step = match bm with Debug => Abort | Release => UB end) /\
    (n = 1%nat -> match bm with
       | Debug => arange bm start stop step = Abort
       | Release => exists v, arange bm start stop step = Ok [v] /\ dvalue v = dvalue step end) /\
    ((2 <= n)%nat -> / 2 ^ 900 <= dvalue step -> dvalue start <= INR n * dvalue step ->
     exists l, arange bm start stop step = Ok l /\ length l = n /\
       dvalue (nth 0 l stop) = dvalue start /\
       Rabs (dvalue (nth (n - 1) l start) - INR n * dvalue step) <= uround * (INR n * dvalue step) /\
       (forall i j, (i <= j < n)%nat -> dvalue (nth i l start) <= dvalue (nth j l start)) /\
       (forall k, (k < n)%nat -> is_finite (nth k l start) = true /\
          Rabs (dvalue (nth k l start) - (dvalue start + INR k * ((INR n * dvalue step - dvalue start) / INR (n - 1)))) <=
            7 * uround * (Rabs (dvalue start) + INR n * dvalue step))).
Proof.
  intros bm start stop step (Fs & Ft & Fp & Hlt & Hpos & Bs & Bt & Hq). unfold dvalue in Hlt, Hpos, Bs, Bt, Hq.
  rewrite big_pow in Bs, Bt. 
  set (n := Zfloor (val ((stop -! start) /! step))).
  destruct (ar_n start stop step Fs Ft Fp Hlt Hpos Bs Bt Hq) as ((N0 & N1) & _). fold n in N0, N1.
  assert (EN : INR (Z.to_nat n) = IZR n) by (rewrite INR_IZR_INZ, Z2Nat.id by auto; reflexivity).
  assert (EQ := ar_eq start stop step Fs Ft Fp Hlt Hpos Bs Bt Hq bm). fold n in EQ.
  exists (Z.to_nat n). split; [|split; [|split]].
  - unfold floor_within_rounding. change uround with u53. unfold dvalue. rewrite EN.
    exact (ar_count start stop step Fs Ft Fp Hlt Hpos Bs Bt Hq).
  - intros E. rewrite EQ, E. destruct bm; reflexivity.
  - intros E. rewrite EQ, E. destruct bm; [reflexivity|].
    exists (nfloor ((stop -! start) /! step) *! step). split; [reflexivity|].
    unfold dvalue. destruct (ar_final start stop step Fs Ft Fp Hlt Hpos Bs Bt Hq) as (_ & F). rewrite F. fold n.
    replace n with 1%Z by lia. rewrite Rmult_1_l. apply rnd64_id. apply fmt64_val.
  - intros H2 Hs Hle. unfold dvalue in Hs, Hle. rewrite EN in Hle.
    destruct (ar_list start stop step Fs Ft Fp Hlt Hpos Bs Bt Hq bm) as (l & A1 & A2 & A3 & (e & A4 & A5) & A6 & A7); fold n; auto; try lia.
    { replace (bpow radix2 (-900)) with (/ 2 ^ 900); auto. rewrite bpow_powerRZ. reflexivity. }
    fold n in A2, A4, A5, A6, A7. exists l. split; [exact A1|]. split; [exact A2|]. split; [exact A3|].
    split; [unfold dvalue; rewrite EN, A4; exact A5|]. split; [exact A6|].
    intros k Hk. destruct (A7 k Hk) as (B1 & B2). split; [exact B1|].
    rewrite EN, minus_INR, EN by lia. exact B2.
Qed.

(** Integers: the count is exact. *)
Lemma floor_quotient (a b : Z) : (0 <= a < 2 ^ 53)%Z -> (0 < b)%Z -> Zfloor (rnd64 (IZR a / IZR b)) = (a / b)%Z.
Proof.
  intros Ha Hb. assert (B : 0 < IZR b) by (apply IZR_lt; auto).
  assert (D := Z.div_mod a b ltac:(lia)). assert (M := Z.mod_pos_bound a b Hb).
  set (q := (a / b)%Z) in *. assert (Q0 : (0 <= q)%Z) by (apply Z.div_pos; lia).
  assert (Q1 : (q <= a)%Z) by nia.
  assert (L : IZR q <= IZR a / IZR b).
  { apply (Rmult_le_reg_r (IZR b)); auto. unfold Rdiv. rewrite Rmult_assoc, Rinv_l, Rmult_1_r by lra.
    rewrite <- mult_IZR. apply IZR_le. lia. }
  apply Zfloor_imp. split.
  - rewrite <- (rnd64_id (IZR q)) by (apply fmt64_IZR; lia). apply rnd64_le. exact L.
  - destruct (Z.eq_dec a 0) as [->|Na].
    { replace (IZR 0 / IZR b) with 0 by (unfold Rdiv; ring). rewrite rnd64_id by apply generic_format_0. apply IZR_lt. lia. }
    assert (A : 0 < IZR a) by (apply IZR_lt; lia).
    assert (A53 : IZR a * u53 < 1).
    { unfold u53. apply (Rmult_lt_reg_r (2 ^ 53)); [lra|]. rewrite Rmult_assoc, Rinv_l by lra.
      replace (1 * 2 ^ 53) with (IZR (2 ^ 53)) by (change (IZR (2 ^ 53)) with 9007199254740992; lra). rewrite Rmult_1_r. apply IZR_lt. lia. }
    assert (U : IZR a / IZR b + / IZR b <= IZR (q + 1)).
    { apply (Rmult_le_reg_r (IZR b)); auto. replace ((IZR a / IZR b + / IZR b) * IZR b) with (IZR (a + 1)) by (rewrite plus_IZR; field; lra).
      rewrite <- mult_IZR. apply IZR_le. nia. }
    assert (I : 0 < / IZR b) by (apply Rinv_0_lt_compat; auto).
    destruct (Rle_or_lt (bpow radix2 (-1022)) (IZR a / IZR b)) as [S|S].
    + assert (E := rel_err_pos _ S).
      assert (IZR a / IZR b * u53 < / IZR b) by (unfold Rdiv; nra). lra.
    + assert (P : IZR 1 <= IZR (q + 1)) by (apply IZR_le; lia).
      apply Rle_lt_trans with (rnd64 (/ 2)).
      * apply rnd64_le. assert (bpow radix2 (-1022) <= bpow radix2 (-1)) by (apply bpow_le; lia).
        change (bpow radix2 (-1)) with (/ 2) in *. lra.
      * rewrite rnd64_id by (change (/ 2) with (bpow radix2 (-1)); apply fmt64_bpow; lia). lra.
Qed.

Lemma arange_integers_lemma : forall bm start stop step (A B S : Z),
  is_finite start = true -> is_finite stop = true -> is_finite step = true ->
  dvalue start = IZR A -> dvalue stop = IZR B -> dvalue step = IZR S ->
  (0 < S)%Z -> (A < B)%Z -> (Z.abs A < 2 ^ 53)%Z -> (Z.abs B < 2 ^ 53)%Z -> (B - A < 2 ^ 53)%Z ->
  (2 <= (B - A) / S <= 2 ^ 32 - 3)%Z -> (A <= (B - A) / S * S)%Z ->
  exists l, arange bm start stop step = Ok l /\ length l = Z.to_nat ((B - A) / S) /\
    dvalue (nth 0 l stop) = IZR A /\ dvalue (last l start) = IZR ((B - A) / S * S).
Proof.
  intros bm start stop step A B S Fs Ft Fp Es Et Ep HS HAB BA BB BD HN Hle.
  unfold dvalue in Es, Et, Ep.
  assert (Bg : forall z : Z, (Z.abs z < 2 ^ 53)%Z -> Rabs (IZR z) <= bpow radix2 1000).
  { intros z Hz. rewrite <- abs_IZR. apply Rle_trans with (bpow radix2 53); [|apply bpow_le; lia].
    change (bpow radix2 53) with (IZR (2 ^ 53)). apply IZR_le. lia. }
  assert (SP : 0 < IZR S) by (apply IZR_lt; auto).
  assert (M := Z.mod_pos_bound (B - A) S HS). assert (D := Z.div_mod (B - A) S ltac:(lia)).
  assert (Hq : (val stop - val start) / val step <= 2 ^ 32 - 2).
  { rewrite Es, Et, Ep, <- minus_IZR. apply (Rmult_le_reg_r (IZR S)); auto. unfold Rdiv. rewrite Rmult_assoc, Rinv_l, Rmult_1_r by lra.
    replace (2 ^ 32 - 2) with (IZR (2 ^ 32 - 2)) by (change (IZR (2 ^ 32 - 2)) with 4294967294; lra). rewrite <- mult_IZR. apply IZR_le. nia. }
  assert (L1 : val start < val stop) by (rewrite Es, Et; apply IZR_lt; auto).
  assert (L2 : 0 < val step) by (rewrite Ep; auto).
  assert (B1 : Rabs (val start) <= bpow radix2 1000) by (rewrite Es; auto).
  assert (B2 : Rabs (val stop) <= bpow radix2 1000) by (rewrite Et; auto).
  destruct (ar_dx start stop Fs Ft L1 B1 B2) as (_ & _ & Edx).
  destruct (ar_q start stop step Fs Ft Fp L1 L2 B1 B2 Hq) as (_ & Eq & _).
  rewrite Edx, Es, Et, Ep, <- minus_IZR, (rnd64_id (IZR (B - A))) in Eq by (apply fmt64_IZR; lia).
  assert (EN : Zfloor (val ((stop -! start) /! step)) = ((B - A) / S)%Z) by (rewrite Eq; apply floor_quotient; lia).
  destruct (ar_final start stop step Fs Ft Fp L1 L2 B1 B2 Hq) as (_ & Ef).
  destruct (ar_list start stop step Fs Ft Fp L1 L2 B1 B2 Hq bm) as (l & A1 & A2 & A3 & (e & A4 & A5) & _ & _).
  - rewrite EN. lia.
  - rewrite Ep. apply Rle_trans with (bpow radix2 0); [apply bpow_le; lia|]. apply (IZR_le 1). lia.
  - rewrite EN, Es, Ep, <- mult_IZR. apply IZR_le. lia.
  - rewrite EN in A2, A4, A5. exists l. split; [exact A1|]. split; [exact A2|]. split; [rewrite A3; exact Es|].
    assert (EL : last l start = nth (Z.to_nat ((B - A) / S) - 1) l start).
    { rewrite <- A2. clear. induction l as [|a l IH]; [reflexivity|]. destruct l as [|f l]; [reflexivity|].
      change (last (a :: f :: l) start) with (last (f :: l) start). rewrite IH. simpl length. 
      replace (Datatypes.S (Datatypes.S (length l)) - 1)%nat with (Datatypes.S (length l)) by lia.
      replace (Datatypes.S (length l) - 1)%nat with (length l) by lia. reflexivity. }
    rewrite EL. rewrite ar_eq in A1 by auto. rewrite EN in A1.
    unfold linspace in A1. rewrite EN in Ef.
    assert (C : (1 <? Z.to_nat ((B - A) / S))%nat = true) by (apply Nat.ltb_lt; lia).
    rewrite C in A1. set (fin := nfloor ((stop -! start) /! step) *! step) in *.
    destruct (cassert bm true); try discriminate. cbn [bind] in A1. destruct (cassert bm (nle start fin)); try discriminate. cbn [bind] in A1.
    replace (Z.to_nat ((B - A) / S) =? 0)%nat with false in A1 by (symmetry; apply Nat.eqb_neq; lia).
    injection A1 as <-. rewrite app_nth2 by (rewrite map_length, seq_length; lia).
    rewrite map_length, seq_length, Nat.sub_diag. cbn [nth]. unfold dvalue. rewrite Ef, Ep, <- mult_IZR. apply rnd64_id. apply fmt64_IZR. nia.
Qed.

(** NaN. *)
Lemma minus_nan_l (x : f64) : (B754_nan : f64) -! x = B754_nan.
Proof. destruct x; reflexivity. Qed.
Lemma minus_nan_r (x : f64) : x -! (B754_nan : f64) = B754_nan.
Proof. destruct x; reflexivity. Qed.
Lemma div_nan_l (x : f64) : (B754_nan : f64) /! x = B754_nan.
Proof. destruct x; reflexivity. Qed.
Lemma div_nan_r (x : f64) : x /! (B754_nan : f64) = B754_nan.
Proof. destruct x; reflexivity. Qed.

Lemma arange_nan_lemma : forall start stop step : f64,
  is_nan start = true \/ is_nan stop = true \/ is_nan step = true ->
  arange Debug start stop step = Abort /\ arange Release start stop step = UB.
Proof.
  intros start stop step H.
  assert (Q : (stop -! start) /! step = B754_nan).
  { destruct H as [H|[H|H]]; apply is_nan_eq in H; subst; rewrite ?minus_nan_r, ?minus_nan_l, ?div_nan_l, ?div_nan_r; reflexivity. }
  split.
  - unfold arange. destruct H as [H|[H|H]]; apply is_nan_eq in H; subst; rewrite ?nlt_nan_l, ?nlt_nan_r; try reflexivity.
    destruct (nlt start stop); reflexivity.
  - unfold arange. cbn [cassert bind]. change ((stop - start) / step)%num with ((stop -! start) /! step). rewrite Q. reflexivity.
Qed.

Definition tenth : f64 := f64_ofZ 1 /! f64_ofZ 10.
Definition sixtenth : f64 := f64_ofZ 3 /! f64_ofZ 5.
Definition fifth : f64 := f64_ofZ 1 /! f64_ofZ 5.
Definition lof (r : outcome (list f64)) : list f64 := match r with Ok v => v | _ => [] end.
Lemma lof_ok (r : outcome (list f64)) : (match r with Ok _ => true | _ => false end) = true -> r = Ok (lof r).
Proof. destruct r; try discriminate. reflexivity. Qed.

Lemma tenth_val : is_finite tenth = true /\ val tenth = 3602879701896397 / 36028797018963968.
Proof.
  split; [vm_compute; reflexivity|].
  rewrite (val_pos tenth 7205759403792794 56) by (vm_compute; reflexivity).
  change (2 ^ 56)%Z with 72057594037927936%Z. lra.
Qed.

Lemma arange_count_refuted_pf : exists (start stop step : f64) l, arange_ready start stop step /\
  arange Debug start stop step = Ok l /\ (dvalue stop - dvalue start) / dvalue step < INR (length l).
Proof.
  destruct tenth_val as (F & V). destruct (ofZ_ok 0 ltac:(lia)) as (F0 & V0). destruct (ofZ_ok 1 ltac:(lia)) as (F1 & V1).
  exists (f64_ofZ 0), (f64_ofZ 1), tenth, (lof (arange Debug (f64_ofZ 0) (f64_ofZ 1) tenth)).
  assert (L : length (lof (arange Debug (f64_ofZ 0) (f64_ofZ 1) tenth)) = 10%nat) by (vm_compute; reflexivity).
  rewrite L. clear L. unfold arange_ready, dvalue. rewrite V, V0, V1.
  split; [|split].
  - do 3 (split; [assumption|]). assert (P : 1 <= 2 ^ 1000) by (apply pow_R1_Rle; lra).
    rewrite Rabs_R0, Rabs_R1. repeat split; try lra.
  - apply lof_ok. vm_compute. reflexivity.
  - simpl. lra.
Qed.

Lemma arange_decimal_refuted_pf : exists (stop step : f64) l, dvalue stop = dround (6 / 10) /\ dvalue step = dround (2 / 10) /\
  arange Debug (f64_ofZ 0) stop step = Ok l /\ length l = 2%nat.
Proof.
  destruct (ofZ_ok 1 ltac:(lia)) as (F1 & V1). destruct (ofZ_ok 3 ltac:(lia)) as (F3 & V3). destruct (ofZ_ok 5 ltac:(lia)) as (F5 & V5).
  assert (D : forall x : f64, is_finite x = true -> 0 <= val x <= 5 -> dvalue (x /! f64_ofZ 5) = dround (val x / 5)).
  { intros x F B. destruct (div_ok x (f64_ofZ 5) F F5) as (_ & E).
    - rewrite V5. lra.
    - rewrite V5. apply big_over. rewrite Rabs_pos_eq by lra. assert (bpow radix2 0 <= big) by (unfold big; apply bpow_le; lia).
      change (bpow radix2 0) with 1 in *. lra.
    - unfold dvalue. rewrite E, V5. reflexivity. }
  exists sixtenth, fifth, (lof (arange Debug (f64_ofZ 0) sixtenth fifth)). split; [|split; [|split]].
  - unfold sixtenth. rewrite D by (auto; rewrite V3; lra). rewrite V3. f_equal. lra.
  - unfold fifth. rewrite D by (auto; rewrite V1; lra). rewrite V1. f_equal. lra.
  - apply lof_ok. vm_compute. reflexivity.
  - vm_compute. reflexivity.
Qed.
