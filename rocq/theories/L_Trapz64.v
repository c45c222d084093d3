(** Trapezoidal rule and convolution in binary64. *)
From Coq Require Import List Arith ZArith Reals Bool Lia Lra Psatz.
From Coquelicot Require Import Coquelicot.
From Flocq Require Import Core.Core IEEE754.BinarySingleNaN.
From Verif Require Import Outcome Num NumFun F64 M_Basics M_Integ S_Series L_Series S_Integ L_Integ
  L_F64 L_Linspace64 L_F64Err S_Angles S_Double S_Trapz64 L_Series64 L_Interp64 L_Special64 L_Apx L_Sum64.
From Verif Require L_Arange64 L_Interp2d64.
Import ListNotations.
Local Open Scope R_scope.

Lemma foldM_fsum (y : list f64) : forall k i a, (i + k <= length y)%nat ->
  foldM (fun sum i => let* yi := vidx y i in Ok (sum + yi)%num) a (seq i k) =
  Ok (fsum a (fun j => nth (i + j) y f0) k).
Proof.
  induction k as [|k IH]; intros i a H; [reflexivity|]. cbn [seq foldM].
  rewrite (vidx_lt y i f0) by lia. cbn [bind]. rewrite IH by lia. f_equal. rewrite fsum_shift, Nat.add_0_r.
  apply fsum_ext. intros j _. f_equal. lia.
Qed.

Lemma foldM_xy_f (x y : list f64) : forall k i a d, (i + k < length y)%nat -> length x = length y -> (0 < i)%nat ->
  d = nth i x f0 -! nth (i - 1) x f0 ->
  exists s, foldM (trapz_step x y) (a, d) (seq i k) = Ok s /\
  fst s = fsum a (fun j => nth (i + j) y f0 *! ((nth (i + j) x f0 -! nth (i + j - 1) x f0) +! (nth (i + j + 1) x f0 -! nth (i + j) x f0))) k.
Proof.
  induction k as [|k IH]; intros i a d H L Hi E; cbn [seq foldM].
  - eexists. split; reflexivity.
  - cbn [trapz_step]. rewrite (vidx_lt x (i + 1) f0), (vidx_lt x i f0), (vidx_lt y i f0) by lia. cbn [bind].
    destruct (IH (S i) (a +! (nth i y f0 *! (d +! (nth (i + 1) x f0 -! nth i x f0)))) (nth (i + 1) x f0 -! nth i x f0)) as (s & Hs & Es);
      [lia|lia|lia|f_equal; f_equal; lia|].
    exists s. split; [exact Hs|]. rewrite Es, fsum_shift, Nat.add_0_r, E.
    apply fsum_ext. intros j _. replace (i + S j)%nat with (S i + j)%nat by lia. reflexivity.
Qed.

Lemma areas_abs_idx : forall x y, length x = length y -> areas_abs x y =
  bsum (length y - 1) (fun i => Rabs (nth (S i) x 0 - nth i x 0) * (Rabs (nth i y 0) + Rabs (nth (S i) y 0)) / 2).
Proof.
  induction x as [|x0 x IH]; intros [|y0 y] H; try discriminate; [reflexivity|].
  destruct x as [|x1 x], y as [|y1 y]; try discriminate; [reflexivity|].
  change (areas_abs (x0 :: x1 :: x) (y0 :: y1 :: y)) with (Rabs (x1 - x0) * (Rabs y0 + Rabs y1) / 2 + areas_abs (x1 :: x) (y1 :: y)).
  rewrite IH by (cbn in *; lia). cbn [length]. replace (S (S (length y)) - 1)%nat with (S (length y)) by lia.
  rewrite bsum_shift. cbn [nth]. rewrite Nat.sub_succ, Nat.sub_0_r. ring.
Qed.

Lemma areas_abs_grid a h y : areas_abs (grid a h (length y)) y =
  Rabs h * bsum (length y - 1) (fun i => (Rabs (nth i y 0) + Rabs (nth (S i) y 0)) / 2).
Proof.
  rewrite areas_abs_idx by apply grid_length. rewrite <- bsum_scal. apply bsum_ext. intros i Hi.
  rewrite !map_grid by lia. rewrite S_INR. replace (a + (INR i + 1) * h - (a + INR i * h)) with h by ring. field.
Qed.

Lemma ordinary_nth M l i : ordinary M l -> 0 <= M -> is_finite (nth i l f0) = true /\ Rabs (val (nth i l f0)) <= M.
Proof.
  intros H P. destruct (Nat.lt_ge_cases i (length l)) as [L|L].
  - apply (proj1 (Forall_nth _ _) H i f0 L).
  - rewrite nth_overflow by exact L. split; [reflexivity|]. simpl. rewrite Rabs_R0. exact P.
Qed.
Lemma nth_dv i (l : list f64) : nth i (dvalues l) 0 = val (nth i l f0).
Proof. unfold dvalues. change 0 with (dvalue f0) at 1. rewrite map_nth. reflexivity. Qed.
Lemma dv_length (l : list f64) : length (dvalues l) = length l.
Proof. apply map_length. Qed.

Definition mag : R := bpow radix2 400.
Lemma mag_pow : 2 ^ 400 = mag.
Proof. unfold mag. rewrite bpow_powerRZ. reflexivity. Qed.
Lemma mag_1 : 1 <= mag.
Proof. change 1 with (bpow radix2 0). apply bpow_le. lia. Qed.
Lemma mag_big c : 0 <= c <= nmax * nmax -> c * (mag * mag) <= big.
Proof.
  intros H. apply Rle_trans with (nmax * nmax * (mag * mag)).
  - apply Rmult_le_compat_r; [|lra]. assert (P := mag_1). nra.
  - unfold nmax, mag, big. rewrite <- !bpow_plus. apply bpow_le. lia.
Qed.

(** Half of a double. *)
Lemma half_mult (x : f64) : is_finite x = true -> Rabs (val x) <= 8 * big ->
  is_finite (nlit 1 2 *! x) = true /\ Rabs (val (nlit 1 2 *! x) - val x / 2) <= u53 * (Rabs (val x) / 2) + eta64.
Proof.
  intros F H. destruct half64 as (Fh & Eh). assert (P := Rabs_pos (val x)).
  assert (E : Rabs (val (nlit 1 2 : f64) * val x) = Rabs (val x) / 2) by (rewrite Eh, Rabs_mult, (Rabs_pos_eq (/ 2)) by lra; field).
  destruct (mult_rel (nlit 1 2) x Fh F) as (A & B).
  - rewrite E. lra.
  - split; [exact A|]. rewrite E in B. rewrite Eh in B. replace (val x / 2) with (/ 2 * val x) by field. exact B.
Qed.

(** The last steps of the uniform rule, over the reals. *)
Lemma uniform_err (m dx s S B p P Q h g v : R) :
  0 <= m -> m * u53 <= / 1000 -> 0 <= B -> Rabs S <= B -> Rabs P <= Q ->
  Rabs (s - S) <= 101 / 100 * m * u53 * B ->
  Rabs (p - P) <= u53 * Rabs P -> Rabs (h - p / 2) <= u53 * (Rabs p / 2) + eta64 ->
  Rabs (g - (s + h)) <= u53 * Rabs (s + h) -> Rabs (v - dx * g) <= u53 * Rabs (dx * g) + eta64 ->
  Rabs (v - dx * (S + P / 2)) <= 2 * (m + 3) * u53 * (Rabs dx * (B + Q / 2)) + 2 * eta64 * (Rabs dx + 1).
Proof.
  intros Hm Hmu HB HS HP Hs Hp Hh Hg Hv. assert (U := u_tiny). assert (E := eta64_pos).
  assert (Q0 : 0 <= Q) by (assert (X := Rabs_pos P); lra).
  set (K := B + Q / 2). assert (K0 : 0 <= K) by (unfold K; lra).
  assert (uK : 0 <= u53 * K) by (apply Rmult_le_pos; lra).
  assert (uB : 0 <= u53 * B) by (apply Rmult_le_pos; lra).
  assert (uQ : 0 <= u53 * Q) by (apply Rmult_le_pos; lra).
  assert (EK : u53 * K = u53 * B + u53 * Q / 2) by (unfold K; field).
  assert (Hp' : Rabs (p - P) <= u53 * Q) by (apply Rle_trans with (1 := Hp); apply Rmult_le_compat_l; lra).
  assert (Ap : Rabs p <= Q + u53 * Q).
  { replace p with ((p - P) + P) by ring. apply Rle_trans with (1 := Rabs_triang _ _). lra. }
  assert (uuQ : u53 * (u53 * Q) <= / 1000 * (u53 * Q)) by (apply Rmult_le_compat_r; lra).
  assert (Hh' : Rabs (h - P / 2) <= 201 / 200 * (u53 * Q) + eta64).
  { replace (h - P / 2) with ((h - p / 2) + (p - P) / 2) by field. apply Rle_trans with (1 := Rabs_triang _ _).
    unfold Rdiv at 2. rewrite Rabs_mult, (Rabs_pos_eq (/ 2)) by lra.
    assert (u53 * (Rabs p / 2) <= u53 * ((Q + u53 * Q) / 2)) by (apply Rmult_le_compat_l; lra). lra. }
  assert (Hs' : Rabs (s - S) <= 101 / 100 * (m * (u53 * B))) by lra.
  assert (mB : 0 <= m * (u53 * B) <= m * (u53 * K)) by (split; [apply Rmult_le_pos; lra|apply Rmult_le_compat_l; lra]).
  assert (mK : m * (u53 * K) <= / 1000 * K).
  { replace (m * (u53 * K)) with (m * u53 * K) by ring. apply Rmult_le_compat_r; lra. }
  assert (H1 : Rabs (s + h - (S + P / 2)) <= 101 / 100 * (m * (u53 * K)) + 201 / 100 * (u53 * K) + eta64).
  { replace (s + h - (S + P / 2)) with ((s - S) + (h - P / 2)) by ring. apply Rle_trans with (1 := Rabs_triang _ _). lra. }
  assert (AH : Rabs (S + P / 2) <= K).
  { apply Rle_trans with (1 := Rabs_triang _ _). unfold Rdiv. rewrite Rabs_mult, (Rabs_pos_eq (/ 2)) by lra. unfold K. lra. }
  assert (uK2 : u53 * K <= / 1000 * K) by (apply Rmult_le_compat_r; lra).
  assert (A1 : Rabs (s + h) <= 101 / 100 * K + eta64).
  { replace (s + h) with ((s + h - (S + P / 2)) + (S + P / 2)) by ring. apply Rle_trans with (1 := Rabs_triang _ _). lra. }
  assert (ue : 0 <= u53 * eta64 <= / 1000 * eta64) by (split; [apply Rmult_le_pos; lra|apply Rmult_le_compat_r; lra]).
  assert (H2 : Rabs (g - (S + P / 2)) <= 101 / 100 * (m * (u53 * K)) + 303 / 100 * (u53 * K) + 1001 / 1000 * eta64).
  { replace (g - (S + P / 2)) with ((g - (s + h)) + (s + h - (S + P / 2))) by ring. apply Rle_trans with (1 := Rabs_triang _ _).
    assert (u53 * Rabs (s + h) <= u53 * (101 / 100 * K + eta64)) by (apply Rmult_le_compat_l; lra). lra. }
  assert (A2 : Rabs g <= 102 / 100 * K + 101 / 100 * eta64).
  { replace g with ((g - (S + P / 2)) + (S + P / 2)) by ring. apply Rle_trans with (1 := Rabs_triang _ _). lra. }
  set (D := Rabs dx) in *. assert (D0 : 0 <= D) by apply Rabs_pos.
  assert (H3 : Rabs (v - dx * (S + P / 2)) <= D * (101 / 100 * (m * (u53 * K)) + 303 / 100 * (u53 * K) + 1001 / 1000 * eta64) +
                D * (u53 * (102 / 100 * K + 101 / 100 * eta64)) + eta64).
  { replace (v - dx * (S + P / 2)) with ((v - dx * g) + dx * (g - (S + P / 2))) by ring. apply Rle_trans with (1 := Rabs_triang _ _).
    rewrite Rabs_mult in Hv. rewrite (Rabs_mult dx (g - _)). fold D in Hv |- *.
    assert (D * Rabs (g - (S + P / 2)) <= D * (101 / 100 * (m * (u53 * K)) + 303 / 100 * (u53 * K) + 1001 / 1000 * eta64)) by (apply Rmult_le_compat_l; lra).
    assert (u53 * (D * Rabs g) <= D * (u53 * (102 / 100 * K + 101 / 100 * eta64))).
    { replace (u53 * (D * Rabs g)) with (D * (u53 * Rabs g)) by ring. apply Rmult_le_compat_l; [lra|]. apply Rmult_le_compat_l; lra. }
    lra. }
  apply Rle_trans with (1 := H3).
  replace (D * (101 / 100 * (m * (u53 * K)) + 303 / 100 * (u53 * K) + 1001 / 1000 * eta64) + D * (u53 * (102 / 100 * K + 101 / 100 * eta64)) + eta64)
    with (D * (101 / 100 * (m * (u53 * K)) + 405 / 100 * (u53 * K) + 1001 / 1000 * eta64 + 101 / 100 * (u53 * eta64)) + eta64) by field.
  replace (2 * (m + 3) * u53 * (D * K) + 2 * eta64 * (D + 1)) with (D * (2 * (m * (u53 * K)) + 6 * (u53 * K) + 2 * eta64) + 2 * eta64) by ring.
  apply Rplus_le_compat; [|lra]. apply Rmult_le_compat_l; [lra|]. lra.
Qed.

Section Uniform.
Context (y : list f64) (dx : f64).
Hypothesis Hn : (2 <= length y)%nat.
Hypothesis HN : INR (length y) <= nmax.
Hypothesis Hy : ordinary mag y.
Hypothesis Fd : is_finite dx = true.
Hypothesis Hd : Rabs (val dx) <= mag.

Lemma trapz_uniform_f : exists v, trapz_uniform y dx = Ok v /\ is_finite v = true /\
  Rabs (val v - areas (grid 0 (val dx) (length y)) (dvalues y)) <=
    2 * (INR (length y) + 1) * u53 * areas_abs (grid 0 (val dx) (length y)) (dvalues y) + 2 * eta64 * (Rabs (val dx) + 1).
Proof.
  assert (M1 := mag_1). assert (U := u_tiny).
  set (n := length y) in *. set (y_ := fun i => val (nth i y f0)).
  assert (O : forall i, is_finite (nth i y f0) = true /\ Rabs (y_ i) <= mag) by (intros i; apply ordinary_nth; auto; lra).
  assert (mN : 0 <= INR (n - 2) <= nmax) by (split; [apply pos_INR|apply Rle_trans with (2 := HN); apply le_INR; lia]).
  assert (NM : 1000 <= nmax) by (change nmax with (IZR (2 ^ 43)); change (2 ^ 43)%Z with 8796093022208%Z; lra).
  set (B := bsum (n - 2) (fun j => Rabs (y_ (1 + j)%nat))).
  assert (B0 : 0 <= B) by (apply bsum_nonneg; intros; apply Rabs_pos).
  assert (BM : B <= INR (n - 2) * mag).
  { unfold B. rewrite <- bsum_const. apply bsum_le. intros. apply O. }
  assert (Bb : B <= big).
  { apply Rle_trans with (1 := BM). apply Rle_trans with (INR (n - 2) * (mag * mag)); [apply Rmult_le_compat_l; nra|apply mag_big; nra]. }
  assert (MB : forall c, 0 <= c <= 1000 -> c * mag <= big).
  { intros c Hc. apply Rle_trans with (c * (mag * mag)); [apply Rmult_le_compat_l; nra|apply mag_big; nra]. }
  destruct (fsum_err (f64_ofZ 0) (fun j => nth (1 + j) y f0) 0 0 0 (fun j => y_ (1 + j)%nat) (fun _ => 0) (fun j => Rabs (y_ (1 + j)%nat)) (n - 2)) as (Fs & Es).
  - reflexivity.
  - rewrite (proj2 (ofZ_ok 0 ltac:(lia))). rewrite Rminus_diag_eq, Rabs_R0 by reflexivity. lra.
  - rewrite Rabs_R0. lra.
  - intros i _. apply O.
  - intros i _. rewrite Rminus_diag_eq, Rabs_R0 by reflexivity. lra.
  - intros i _. lra.
  - lra.
  - rewrite bsum_plus, bsum_0. fold B. lra.
  - rewrite bsum_plus, bsum_0 in Es. fold B in Es. rewrite Rplus_0_l in Es.
    set (s := fsum (f64_ofZ 0) (fun j => nth (1 + j) y f0) (n - 2)) in *. set (S := bsum (n - 2) (fun j => y_ (1 + j)%nat)) in *.
    assert (Es' : Rabs (val s - S) <= 101 / 100 * INR (n - 2) * u53 * B) by lra. clear Es.
    assert (AS : Rabs S <= B) by (apply bsum_abs).
    set (p := nth 0 y f0 +! nth (n - 1) y f0). set (P := y_ 0%nat + y_ (n - 1)%nat). set (Q := Rabs (y_ 0%nat) + Rabs (y_ (n - 1)%nat)).
    assert (AP : Rabs P <= Q) by apply Rabs_triang.
    destruct (O 0%nat) as (F0 & M0). destruct (O (n - 1)%nat) as (Fl & Ml).
    assert (QM : Q <= 2 * mag) by (unfold Q; lra).
    assert (B2 := MB 2 ltac:(lra)). assert (B4 := MB 8 ltac:(lra)).
    destruct (plus_rel (nth 0 y f0) (nth (n - 1) y f0) F0 Fl) as (Fp & Ep).
    { fold (y_ 0%nat) (y_ (n - 1)%nat). fold P. lra. }
    fold p in Fp, Ep. fold (y_ 0%nat) (y_ (n - 1)%nat) in Ep. fold P in Ep.
    assert (Ap : Rabs (val p) <= 3 * mag).
    { replace (val p) with ((val p - P) + P) by ring. apply Rle_trans with (1 := Rabs_triang _ _).
      assert (u53 * Rabs P <= / 2 * (2 * mag)) by (apply Rmult_le_compat; try lra; apply Rabs_pos). lra. }
    destruct (half_mult p Fp) as (Fh & Eh); [lra|]. set (h := nlit 1 2 *! p) in *.
    assert (E1 : eta64 <= 1).
    { apply Rle_trans with (1 := eta_tau). assert (tau <= 1) by (change 1 with (bpow radix2 0); apply bpow_le; lia). assert (T := tau_pos). nra. }
    assert (Ah : Rabs (val h) <= 4 * mag).
    { replace (val h) with ((val h - val p / 2) + val p / 2) by ring. apply Rle_trans with (1 := Rabs_triang _ _).
      unfold Rdiv at 2. rewrite Rabs_mult, (Rabs_pos_eq (/ 2)) by lra.
      assert (u53 * (Rabs (val p) / 2) <= / 2 * (3 * mag / 2)) by (apply Rmult_le_compat; try lra; assert (X := Rabs_pos (val p)); lra). lra. }
    assert (K1 := ku_small (INR (n - 2)) mN).
    assert (As : Rabs (val s) <= 2 * B).
    { replace (val s) with ((val s - S) + S) by ring. apply Rle_trans with (1 := Rabs_triang _ _).
      assert (101 / 100 * INR (n - 2) * u53 * B <= / 2 * B) by (apply Rmult_le_compat_r; lra). lra. }
    destruct (plus_rel s h Fs Fh) as (Fg & Eg).
    { apply Rle_trans with (1 := Rabs_triang _ _). lra. }
    set (g := s +! h) in *.
    assert (Ag : Rabs (val g) <= (INR n + 1) * (6 * mag)).
    { assert (X := Rabs_triang (val s) (val h)).
      replace (val g) with ((val g - (val s + val h)) + (val s + val h)) by ring. apply Rle_trans with (1 := Rabs_triang _ _).
      assert (u53 * Rabs (val s + val h) <= / 4 * (Rabs (val s) + Rabs (val h))) by (apply Rmult_le_compat; try lra; apply Rabs_pos).
      rewrite minus_INR in BM by exact Hn. simpl (INR 2) in BM.
      assert (2 <= INR n) by (apply (le_INR 2); exact Hn). nra. }
    assert (XN : 2 <= INR n) by (apply (le_INR 2); exact Hn).
    destruct (mult_rel dx g Fd Fg) as (Fv & Ev).
    { rewrite Rabs_mult. apply Rle_trans with (mag * ((INR n + 1) * (6 * mag))).
      - apply Rmult_le_compat; auto; apply Rabs_pos.
      - replace (mag * ((INR n + 1) * (6 * mag))) with ((6 * (INR n + 1)) * (mag * mag)) by ring.
        assert (X := mag_big (6 * (INR n + 1)) ltac:(nra)). assert (Y := big_pos). lra. }
    exists (dx *! g). split; [|split].
    + unfold trapz_uniform. fold n. rewrite (proj2 (Nat.eqb_neq n 0)) by lia.
      rewrite foldM_fsum by (fold n; lia). cbn [bind]. rewrite (vidx_lt y 0 f0) by (fold n; lia). cbn [bind].
      unfold vidx_sub. rewrite (proj2 (Nat.leb_le 1 n)) by lia. rewrite (vidx_lt y (n - 1) f0) by (fold n; lia). cbn [bind]. reflexivity.
    + exact Fv.
    + replace (grid 0 (val dx) n) with (grid 0 (val dx) (length (dvalues y))) by (rewrite dv_length; reflexivity). rewrite areas_grid, areas_abs_grid, dv_length. fold n.
      rewrite <- (trap_regroup n (fun i => nth i (dvalues y) 0)), <- (trap_regroup n (fun i => Rabs (nth i (dvalues y) 0))) by exact Hn.
      rewrite !nth_dv. rewrite (bsum_ext (n - 2) (fun j => nth (1 + j) (dvalues y) 0) (fun j => y_ (1 + j)%nat)) by (intros; apply nth_dv).
      rewrite (bsum_ext (n - 2) (fun j => Rabs (nth (1 + j) (dvalues y) 0)) (fun j => Rabs (y_ (1 + j)%nat))) by (intros; rewrite nth_dv; reflexivity).
      fold (y_ 0%nat) (y_ (n - 1)%nat). fold S B P Q.
      replace (INR n + 1) with (INR (n - 2) + 3) by (rewrite minus_INR by exact Hn; simpl (INR 2); ring).
      replace (/ 2 * P) with (P / 2) by field. replace (/ 2 * Q) with (Q / 2) by field.
      apply (uniform_err (INR (n - 2)) (val dx) (val s) S B (val p) P Q (val h) (val g)); auto; try lra.
Qed.
End Uniform.

(** One term y * (d + d') of the other rule. *)
Lemma term_err (y d d' : f64) (D D' : R) :
  is_finite y = true -> is_finite d = true -> is_finite d' = true -> Rabs (val y) <= mag ->
  Rabs D <= 2 * mag -> Rabs D' <= 2 * mag ->
  Rabs (val d - D) <= u53 * Rabs D -> Rabs (val d' - D') <= u53 * Rabs D' ->
  is_finite (y *! (d +! d')) = true /\
  Rabs (val (y *! (d +! d')) - val y * (D + D')) <= 302 / 100 * u53 * (Rabs (val y) * (Rabs D + Rabs D')) + eta64.
Proof.
  intros Fy Fd Fd' Hy HD HD' E E'. assert (U := u_tiny). assert (M1 := mag_1). assert (MB := mag_big).
  assert (NM : 1000 <= nmax) by (change nmax with (IZR (2 ^ 43)); change (2 ^ 43)%Z with 8796093022208%Z; lra).
  set (Z := Rabs D + Rabs D'). assert (Z0 : 0 <= Z) by (unfold Z; assert (X := Rabs_pos D); assert (Y := Rabs_pos D'); lra).
  assert (uZ : u53 * Z <= / 1000 * Z) by (apply Rmult_le_compat_r; lra). assert (uZ0 : 0 <= u53 * Z) by (apply Rmult_le_pos; lra).
  assert (A : Rabs (val d + val d' - (D + D')) <= u53 * Z).
  { replace (val d + val d' - (D + D')) with ((val d - D) + (val d' - D')) by ring. apply Rle_trans with (1 := Rabs_triang _ _).
    unfold Z. rewrite Rmult_plus_distr_l. lra. }
  assert (T := Rabs_triang D D'). fold Z in T.
  assert (A' : Rabs (val d + val d') <= Z + u53 * Z).
  { replace (val d + val d') with ((val d + val d' - (D + D')) + (D + D')) by ring. apply Rle_trans with (1 := Rabs_triang _ _). lra. }
  assert (ZM : Z <= 4 * mag) by (unfold Z; lra).
  assert (B5 : 10 * mag <= big).
  { apply Rle_trans with (10 * (mag * mag)); [apply Rmult_le_compat_l; nra|]. apply MB. nra. }
  assert (BP := big_pos).
  destruct (plus_rel d d' Fd Fd') as (F1 & E1); [lra|]. set (w := d +! d') in *.
  assert (uuZ : u53 * (u53 * Z) <= / 1000 * (u53 * Z)) by (apply Rmult_le_compat_r; lra).
  assert (E2 : Rabs (val w - (D + D')) <= 2001 / 1000 * (u53 * Z)).
  { replace (val w - (D + D')) with ((val w - (val d + val d')) + (val d + val d' - (D + D'))) by ring. apply Rle_trans with (1 := Rabs_triang _ _).
    assert (u53 * Rabs (val d + val d') <= u53 * (Z + u53 * Z)) by (apply Rmult_le_compat_l; lra). lra. }
  assert (A2 : Rabs (val w) <= Z + 2001 / 1000 * (u53 * Z)).
  { replace (val w) with ((val w - (D + D')) + (D + D')) by ring. apply Rle_trans with (1 := Rabs_triang _ _). lra. }
  set (Y := Rabs (val y)) in *. assert (Y0 : 0 <= Y) by apply Rabs_pos.
  assert (M : Rabs (val y * val w) <= Y * (Z + 2001 / 1000 * (u53 * Z))) by (rewrite Rabs_mult; apply Rmult_le_compat_l; auto).
  destruct (mult_rel y w Fy F1) as (F2 & E3).
  { apply Rle_trans with (1 := M). apply Rle_trans with (mag * (8 * mag)); [apply Rmult_le_compat; lra|].
    replace (mag * (8 * mag)) with (8 * (mag * mag)) by ring. assert (X := MB 8 ltac:(nra)). lra. }
  split; [exact F2|].
  replace (val (y *! w) - val y * (D + D')) with ((val (y *! w) - val y * val w) + val y * (val w - (D + D'))) by ring.
  apply Rle_trans with (1 := Rabs_triang _ _). rewrite (Rabs_mult (val y) (val w - _)). fold Y.
  assert (Y * Rabs (val w - (D + D')) <= Y * (2001 / 1000 * (u53 * Z))) by (apply Rmult_le_compat_l; auto).
  assert (u53 * Rabs (val y * val w) <= u53 * (Y * (Z + 2001 / 1000 * (u53 * Z)))) by (apply Rmult_le_compat_l; lra).
  assert (YuZ : Y * (u53 * (u53 * Z)) <= Y * (/ 1000 * (u53 * Z))) by (apply Rmult_le_compat_l; lra).
  assert (Y1 : 0 <= Y * (u53 * Z)) by (apply Rmult_le_pos; lra).
  replace (302 / 100 * u53 * (Y * Z)) with (302 / 100 * (Y * (u53 * Z))) by ring.
  replace (u53 * (Y * (Z + 2001 / 1000 * (u53 * Z)))) with (Y * (u53 * Z) + 2001 / 1000 * (Y * (u53 * (u53 * Z)))) in * by ring. lra.
Qed.

(** A product of two doubles, the second a difference. *)
Lemma term1_err (y d : f64) (D : R) :
  is_finite y = true -> is_finite d = true -> Rabs (val y) <= mag -> Rabs D <= 2 * mag ->
  Rabs (val d - D) <= u53 * Rabs D ->
  is_finite (y *! d) = true /\ Rabs (val (y *! d) - val y * D) <= 302 / 100 * u53 * (Rabs (val y) * Rabs D) + eta64.
Proof.
  intros Fy Fd Hy HD E. assert (U := u_tiny). assert (M1 := mag_1). assert (MB := mag_big). assert (BP := big_pos).
  assert (NM : 1000 <= nmax) by (change nmax with (IZR (2 ^ 43)); change (2 ^ 43)%Z with 8796093022208%Z; lra).
  set (Z := Rabs D) in *. assert (Z0 : 0 <= Z) by apply Rabs_pos.
  assert (uZ : u53 * Z <= / 1000 * Z) by (apply Rmult_le_compat_r; lra). assert (uZ0 : 0 <= u53 * Z) by (apply Rmult_le_pos; lra).
  assert (A : Rabs (val d) <= Z + u53 * Z).
  { replace (val d) with ((val d - D) + D) by ring. apply Rle_trans with (1 := Rabs_triang _ _). fold Z. lra. }
  set (Y := Rabs (val y)) in *. assert (Y0 : 0 <= Y) by apply Rabs_pos.
  assert (M : Rabs (val y * val d) <= Y * (Z + u53 * Z)) by (rewrite Rabs_mult; apply Rmult_le_compat_l; auto).
  destruct (mult_rel y d Fy Fd) as (F2 & E3).
  { apply Rle_trans with (1 := M). apply Rle_trans with (mag * (4 * mag)); [apply Rmult_le_compat; lra|].
    replace (mag * (4 * mag)) with (4 * (mag * mag)) by ring. assert (X := MB 4 ltac:(nra)). lra. }
  split; [exact F2|].
  replace (val (y *! d) - val y * D) with ((val (y *! d) - val y * val d) + val y * (val d - D)) by ring.
  apply Rle_trans with (1 := Rabs_triang _ _). rewrite (Rabs_mult (val y) (val d - _)). fold Y.
  assert (Y * Rabs (val d - D) <= Y * (u53 * Z)) by (apply Rmult_le_compat_l; auto).
  assert (u53 * Rabs (val y * val d) <= u53 * (Y * (Z + u53 * Z))) by (apply Rmult_le_compat_l; lra).
  assert (YuZ : Y * (u53 * (u53 * Z)) <= Y * (/ 1000 * (u53 * Z))) by (apply Rmult_le_compat_l; [lra|apply Rmult_le_compat_r; lra]).
  assert (Y1 : 0 <= Y * (u53 * Z)) by (apply Rmult_le_pos; lra).
  replace (302 / 100 * u53 * (Y * Z)) with (302 / 100 * (Y * (u53 * Z))) by ring.
  replace (u53 * (Y * (Z + u53 * Z))) with (Y * (u53 * Z) + Y * (u53 * (u53 * Z))) in * by ring. lra.
Qed.

(** The absolute version of [xy_regroup]. *)
Lemma xy_regroup_abs n (d y : nat -> R) :
  bsum n (fun j => y (1 + j)%nat * (d j + d (1 + j)%nat)) + y 0%nat * d 0%nat + y (S n) * d n =
  2 * bsum (S n) (fun i => d i * (y i + y (S i)) / 2).
Proof.
  induction n as [|n IH]; [simpl; lra|].
  remember (S n) as m. cbn [bsum] in *. rewrite Heqm in *. cbn [bsum] in *. replace (1 + n)%nat with (S n) in * by lia. lra.
Qed.

Section XY.
Context (x y : list f64).
Hypothesis Hn : (2 <= length y)%nat.
Hypothesis HL : length x = length y.
Hypothesis HN : INR (length y) <= nmax.
Hypothesis Hx : ordinary mag x.
Hypothesis Hy : ordinary mag y.

Let m := (length y - 2)%nat.
Let D j := val (nth (S j) x f0) - val (nth j x f0).
Let d j := nth (S j) x f0 -! nth j x f0.
Let Y j := val (nth j y f0).
(** The terms, the last two being the ends. *)
Let t j := if (j <? m)%nat then nth (1 + j) y f0 *! (d j +! d (S j)) else if (j =? m)%nat then nth 0 y f0 *! d 0 else nth (m + 1) y f0 *! d m.
Let r j := if (j <? m)%nat then Y (1 + j)%nat * (D j + D (S j)) else if (j =? m)%nat then Y 0%nat * D 0%nat else Y (m + 1)%nat * D m.
Let B j := if (j <? m)%nat then Rabs (Y (1 + j)%nat) * (Rabs (D j) + Rabs (D (S j)))
           else if (j =? m)%nat then Rabs (Y 0%nat) * Rabs (D 0%nat) else Rabs (Y (m + 1)%nat) * Rabs (D m).

Lemma xy_d j : is_finite (d j) = true /\ Rabs (D j) <= 2 * mag /\ Rabs (val (d j) - D j) <= u53 * Rabs (D j).
Proof.
  assert (M1 := mag_1). destruct (ordinary_nth mag x j Hx ltac:(lra)) as (F & M). destruct (ordinary_nth mag x (S j) Hx ltac:(lra)) as (F' & M').
  assert (A : Rabs (D j) <= 2 * mag) by (unfold D; apply Rabs_le_inv in M; apply Rabs_le_inv in M'; apply Rabs_le; lra).
  assert (NM : 1000 <= nmax) by (change nmax with (IZR (2 ^ 43)); change (2 ^ 43)%Z with 8796093022208%Z; lra).
  destruct (minus_rel (nth (S j) x f0) (nth j x f0) F' F) as (G & E).
  { fold (D j). apply Rle_trans with (1 := A). assert (X := mag_big 2 ltac:(nra)). assert (BP := big_pos). nra. }
  split; [exact G|]. split; [exact A|exact E].
Qed.

Lemma xy_t j : is_finite (t j) = true /\ Rabs (val (t j) - r j) <= 302 / 100 * u53 * B j + eta64 /\ Rabs (r j) <= B j /\ B j <= 4 * (mag * mag).
Proof.
  assert (M1 := mag_1).
  assert (O : forall i, is_finite (nth i y f0) = true /\ Rabs (Y i) <= mag) by (intros i; apply ordinary_nth; auto; lra).
  assert (K : forall i j, Rabs (Y i) * Rabs (D j) <= 2 * (mag * mag)).
  { intros i k. destruct (O i) as (_ & A). destruct (xy_d k) as (_ & A' & _).
    replace (2 * (mag * mag)) with (mag * (2 * mag)) by ring. apply Rmult_le_compat; auto; apply Rabs_pos. }
  assert (P2 : 0 <= mag * mag) by nra.
  unfold t, r, B. destruct (j <? m)%nat; [|destruct (j =? m)%nat].
  - destruct (O (1 + j)%nat) as (Fy & My). destruct (xy_d j) as (Fd & Md & Ed). destruct (xy_d (S j)) as (Fd' & Md' & Ed').
    destruct (term_err _ _ _ _ _ Fy Fd Fd' My Md Md' Ed Ed') as (F & E). split; [exact F|]. split; [exact E|]. split.
    + rewrite Rabs_mult. apply Rmult_le_compat_l; [apply Rabs_pos|apply Rabs_triang].
    + assert (A := K (1 + j)%nat j). assert (A' := K (1 + j)%nat (S j)). lra.
  - destruct (O 0%nat) as (Fy & My). destruct (xy_d 0%nat) as (Fd & Md & Ed).
    destruct (term1_err _ _ _ Fy Fd My Md Ed) as (F & E). split; [exact F|]. split; [exact E|]. split.
    + rewrite Rabs_mult. lra.
    + assert (A := K 0%nat 0%nat). lra.
  - destruct (O (m + 1)%nat) as (Fy & My). destruct (xy_d m) as (Fd & Md & Ed).
    destruct (term1_err _ _ _ Fy Fd My Md Ed) as (F & E). split; [exact F|]. split; [exact E|]. split.
    + rewrite Rabs_mult. lra.
    + assert (A := K (m + 1)%nat m). lra.
Qed.

Lemma xy_bsum (g : nat -> R) (a b c : nat -> R) :
  (forall j, g j = if (j <? m)%nat then a j else if (j =? m)%nat then b j else c j) ->
  bsum (length y) g = bsum m a + b m + c (S m).
Proof.
  intros E. replace (length y) with (S (S m)) by (unfold m; lia). cbn [bsum]. rewrite (bsum_ext m g a).
  - rewrite (E m), (E (S m)), Nat.ltb_irrefl, Nat.eqb_refl.
    rewrite (proj2 (Nat.ltb_ge (S m) m)) by lia. rewrite (proj2 (Nat.eqb_neq (S m) m)) by lia. reflexivity.
  - intros i Hi. rewrite E. rewrite (proj2 (Nat.ltb_lt i m)) by exact Hi. reflexivity.
Qed.

Lemma trapz_xy_eq bm : trapz_xy bm x y = Ok (nlit 1 2 *! fsum (f64_ofZ 0) t (length y)).
Proof.
  unfold trapz_xy. rewrite (proj2 (Nat.ltb_lt 1 _)) by lia. rewrite (proj2 (Nat.eqb_eq _ _)) by lia.
  replace (cassert bm true) with (Ok tt) by (destruct bm; reflexivity). cbn [bind].
  rewrite (vidx_lt x 1 f0), (vidx_lt x 0 f0) by lia. cbn [bind]. unfold vidx_sub.
  rewrite (proj2 (Nat.leb_le 1 _)), (proj2 (Nat.leb_le 2 _)) by lia.
  rewrite (vidx_lt x _ f0) by lia. cbn [bind]. rewrite (vidx_lt x _ f0) by lia. cbn [bind].
  destruct (foldM_xy_f x y (length y - 2) 1 (f64_ofZ 0) (d 0)) as (s & Hs & Es); [lia|lia|lia|reflexivity|].
  change (nofZ 0) with (f64_ofZ 0). change (nth 1 x f0 - nth 0 x f0)%num with (d 0).
  rewrite Hs. cbn [bind]. rewrite (vidx_lt y 0 f0), (vidx_lt y _ f0) by lia. cbn [bind]. rewrite Es. f_equal.
  replace (fsum (f64_ofZ 0) t (length y)) with (fsum (f64_ofZ 0) t (S (S m))) by (f_equal; unfold m; lia). cbn [fsum].
  fold m. unfold t at 2 3. rewrite Nat.ltb_irrefl, Nat.eqb_refl.
  rewrite (proj2 (Nat.ltb_ge (S m) m)) by lia. rewrite (proj2 (Nat.eqb_neq (S m) m)) by lia.
  change (nmul (nlit 1 2)) with (Bmult mode_NE (nlit 1 2 : f64)). f_equal.
  replace (length y - 1)%nat with (m + 1)%nat by (unfold m; lia).
  replace (nth (m + 1) x f0 - nth m x f0)%num with (d m) by (unfold d; replace (S m) with (m + 1)%nat by lia; reflexivity).
  change (fsum (f64_ofZ 0) (fun j => nth (1 + j) y f0 *! ((nth (1 + j) x f0 -! nth (1 + j - 1) x f0) +! (nth (1 + j + 1) x f0 -! nth (1 + j) x f0))) m
     +! (nth 0 y f0 *! d 0) +! (nth (m + 1) y f0 *! d m) = fsum (f64_ofZ 0) t m +! (nth 0 y f0 *! d 0) +! (nth (m + 1) y f0 *! d m)).
  do 2 f_equal. apply fsum_ext. intros j Hj. unfold t. rewrite (proj2 (Nat.ltb_lt j m)) by exact Hj. unfold d.
  replace (1 + j - 1)%nat with j by lia. replace (1 + j + 1)%nat with (S (S j)) by lia. reflexivity.
Qed.

Lemma trapz_xy_f bm : exists v, trapz_xy bm x y = Ok v /\ is_finite v = true /\
  Rabs (val v - areas (dvalues x) (dvalues y)) <=
    2 * (INR (length y) + 2) * u53 * areas_abs (dvalues x) (dvalues y) + (INR (length y) + 2) * eta64.
Proof.
  rewrite trapz_xy_eq. set (n := length y) in *. assert (M1 := mag_1). assert (U := u_tiny).
  assert (XN : 2 <= INR n) by (apply (le_INR 2); exact Hn). assert (E0 := eta64_pos).
  assert (NM : 1000 <= nmax) by (change nmax with (IZR (2 ^ 43)); change (2 ^ 43)%Z with 8796093022208%Z; lra).
  assert (K := ku_small (INR n) ltac:(lra)).
  assert (E1 : eta64 <= / 1000).
  { apply Rle_trans with (1 := eta_tau). assert (tau <= 1) by (change 1 with (bpow radix2 0); apply bpow_le; lia). assert (T := tau_pos). nra. }
  assert (ER : bsum n r = 2 * areas (dvalues x) (dvalues y)).
  { unfold n. rewrite (xy_bsum r (fun j => Y (1 + j)%nat * (D j + D (S j))) (fun _ => Y 0%nat * D 0%nat) (fun _ => Y (m + 1)%nat * D m)) by reflexivity.
    rewrite areas_idx by (rewrite !dv_length; exact HL). rewrite dv_length. replace (length y - 1)%nat with (S m) by (unfold m; lia).
    replace (m + 1)%nat with (S m) by lia.
    assert (X := xy_regroup_abs m D Y). etransitivity; [exact X|]. f_equal. apply bsum_ext. intros i _. rewrite !nth_dv. reflexivity. }
  assert (EB : bsum n B = 2 * areas_abs (dvalues x) (dvalues y)).
  { unfold n. rewrite (xy_bsum B (fun j => Rabs (Y (1 + j)%nat) * (Rabs (D j) + Rabs (D (S j)))) (fun _ => Rabs (Y 0%nat) * Rabs (D 0%nat)) (fun _ => Rabs (Y (m + 1)%nat) * Rabs (D m))) by reflexivity.
    rewrite areas_abs_idx by (rewrite !dv_length; exact HL). rewrite dv_length. replace (length y - 1)%nat with (S m) by (unfold m; lia).
    replace (m + 1)%nat with (S m) by lia.
    assert (X := xy_regroup_abs m (fun j => Rabs (D j)) (fun j => Rabs (Y j))). etransitivity; [exact X|]. f_equal. apply bsum_ext. intros i _. rewrite !nth_dv. reflexivity. }
  set (A := areas_abs (dvalues x) (dvalues y)) in *.
  assert (A0 : 0 <= A).
  { assert (0 <= bsum n B) by (apply bsum_nonneg; intros i _; destruct (xy_t i) as (_ & _ & H & _); assert (P := Rabs_pos (r i)); lra). lra. }
  assert (AM : 2 * A <= INR n * (4 * (mag * mag))).
  { rewrite <- EB, <- bsum_const. apply bsum_le. intros i _. apply (xy_t i). }
  assert (EE : bsum n (fun j => 302 / 100 * u53 * B j + eta64) = 604 / 100 * (u53 * A) + INR n * eta64).
  { rewrite bsum_plus, bsum_scal, bsum_const, EB. field. }
  assert (Big : 8 * (INR n * (mag * mag)) <= big).
  { replace (8 * (INR n * (mag * mag))) with (8 * INR n * (mag * mag)) by ring. apply mag_big. split; [lra|]. apply Rle_trans with (8 * nmax); [lra|]. apply Rmult_le_compat_r; lra. }
  assert (MM : 1 <= mag * mag) by nra.
  assert (uA : u53 * A <= / 1000 * A) by (apply Rmult_le_compat_r; lra). assert (uA0 : 0 <= u53 * A) by (apply Rmult_le_pos; lra).
  assert (nE : INR n * eta64 <= / 1000 * INR n) by (assert (INR n * eta64 <= INR n * / 1000) by (apply Rmult_le_compat_l; lra); lra).
  assert (nE0 : 0 <= INR n * eta64) by (apply Rmult_le_pos; lra).
  assert (nM : INR n <= INR n * (mag * mag)) by (rewrite <- (Rmult_1_r (INR n)) at 1; apply Rmult_le_compat_l; lra).
  assert (WB : 0 + 0 + bsum n (fun i => B i + (302 / 100 * u53 * B i + eta64)) = 2 * A + 604 / 100 * (u53 * A) + INR n * eta64).
  { rewrite (bsum_plus n B), EE, EB. ring. }
  destruct (fsum_err (f64_ofZ 0) t 0 0 0 r (fun j => 302 / 100 * u53 * B j + eta64) B n) as (Fs & Es).
  - reflexivity.
  - rewrite (proj2 (ofZ_ok 0 ltac:(lia))). rewrite Rminus_diag_eq, Rabs_R0 by reflexivity. lra.
  - rewrite Rabs_R0. lra.
  - intros i _. apply xy_t.
  - intros i _. apply xy_t.
  - intros i _. apply xy_t.
  - exact HN.
  - rewrite WB. lra.
  - rewrite WB, ER, EE in Es. set (s := fsum (f64_ofZ 0) t n) in *. set (V := areas (dvalues x) (dvalues y)) in *.
    assert (AV : Rabs V <= A).
    { assert (X := bsum_abs n r). rewrite ER, Rabs_mult, (Rabs_pos_eq 2) in X by lra.
      assert (bsum n (fun i => Rabs (r i)) <= bsum n B) by (apply bsum_le; intros; apply xy_t). lra. }
    set (nu := INR n * u53) in *.
    assert (Z1 : nu * (u53 * A) <= / 1000 * (u53 * A)) by (apply Rmult_le_compat_r; lra).
    assert (Z2 : nu * (INR n * eta64) <= / 1000 * (INR n * eta64)) by (apply Rmult_le_compat_r; lra).
    assert (Z3 : 0 <= nu * A <= / 1000 * A) by (split; [apply Rmult_le_pos; lra|apply Rmult_le_compat_r; lra]).
    assert (Es' : Rabs (val s - 2 * V) <= 605 / 100 * (u53 * A) + 1002 / 1000 * (INR n * eta64) + 202 / 100 * (nu * A)).
    { replace (0 + 2 * V) with (2 * V) in Es by ring. apply Rle_trans with (1 := Es).
      replace (101 / 100 * INR n * u53 * (2 * A + 604 / 100 * (u53 * A) + INR n * eta64)) with
        (202 / 100 * (nu * A) + 101 / 100 * (604 / 100 * (nu * (u53 * A)) + nu * (INR n * eta64))) by (unfold nu; field).
      lra. }
    assert (As : Rabs (val s) <= 202 / 100 * A + 1002 / 1000 * (INR n * eta64)).
    { replace (val s) with ((val s - 2 * V) + 2 * V) by ring. apply Rle_trans with (1 := Rabs_triang _ _).
      rewrite (Rabs_mult 2), (Rabs_pos_eq 2) by lra. lra. }
    destruct (half_mult s Fs) as (Fv & Ev); [lra|].
    exists (nlit 1 2 *! s). split; [reflexivity|]. split; [exact Fv|].
    replace (val (nlit 1 2 *! s) - V) with ((val (nlit 1 2 *! s) - val s / 2) + (val s - 2 * V) / 2) by field.
    apply Rle_trans with (1 := Rabs_triang _ _). unfold Rdiv at 2. rewrite (Rabs_mult _ (/ 2)), (Rabs_pos_eq (/ 2)) by lra.
    assert (Z4 : u53 * (Rabs (val s) / 2) <= u53 * ((202 / 100 * A + 1002 / 1000 * (INR n * eta64)) / 2)) by (apply Rmult_le_compat_l; lra).
    assert (Z5 : u53 * (INR n * eta64) <= / 1000 * (INR n * eta64)) by (apply Rmult_le_compat_r; lra).
    replace (2 * (INR n + 2) * u53 * A) with (2 * (nu * A) + 4 * (u53 * A)) by (unfold nu; ring).
    assert (Z6 : 2 * (u53 * A) <= nu * A) by (unfold nu; rewrite Rmult_assoc; apply Rmult_le_compat_r; lra).
    assert (Z7 : 2 * eta64 <= INR n * eta64) by (apply Rmult_le_compat_r; lra).
    lra.
Qed.
End XY.

(** ** Integers *)
Lemma dya_lift f n k : dya f n k -> (Z.abs (2 * n) <= 2 ^ 53)%Z -> (k + 1 <= 53)%Z -> dya f (2 * n) (k + 1).
Proof.
  intros (F & E & H1 & H2) H Hk. split; auto. split; [|lia]. rewrite E, mult_IZR, Z.pow_add_r, mult_IZR by lia.
  change (2 ^ 1)%Z with 2%Z. field. apply not_0_IZR. assert (P := pow2_pos k). lia.
Qed.

Fixpoint zsum (n : nat) (f : nat -> Z) : Z := match n with O => 0%Z | S n' => (zsum n' f + f n')%Z end.
Lemma zsum_IZR n f : IZR (zsum n f) = bsum n (fun i => IZR (f i)).
Proof. induction n as [|n IH]; [reflexivity|]. cbn [zsum bsum]. rewrite plus_IZR, IH. reflexivity. Qed.
Lemma zsum_abs n f : (Z.abs (zsum n f) <= zsum n (fun i => Z.abs (f i)))%Z.
Proof. induction n as [|n IH]; [reflexivity|]. cbn [zsum]. lia. Qed.
Lemma zsum_pos n f : (0 <= zsum n (fun i => Z.abs (f i)))%Z.
Proof. assert (H := zsum_abs n f). lia. Qed.

Lemma fsum_int (t : nat -> f64) (z : nat -> Z) k : (forall i, (i < k)%nat -> dya (t i) (z i) 0) ->
  (zsum k (fun i => Z.abs (z i)) <= 2 ^ 53)%Z -> dya (fsum (f64_ofZ 0) t k) (zsum k z) 0.
Proof.
  induction k as [|k IH]; intros H B.
  - apply dya_int; [reflexivity| |cbn; lia]. apply (ofZ_ok 0). lia.
  - cbn [zsum] in *. cbn [fsum]. assert (A := zsum_abs k z).
    apply dya_plus; [apply IH; [intros; apply H; lia|lia]|apply H; lia|lia].
Qed.

Lemma zlist_sum (z : list Z) : fold_right Z.add 0%Z (map Z.abs z) = zsum (length z) (fun i => Z.abs (nth i z 0%Z)).
Proof.
  assert (S : forall n f, zsum (S n) f = (f 0%nat + zsum n (fun i => f (S i)))%Z).
  { induction n as [|n IH]; intros f; [simpl; lia|]. change (zsum (S (S n)) f) with (zsum (S n) f + f (S n))%Z. rewrite IH. cbn [zsum]. lia. }
  induction z as [|a z IH]; [reflexivity|]. cbn [map fold_right length]. rewrite S, IH. reflexivity.
Qed.
Lemma integers_nth l z i : integers l z -> (Z.abs (nth i z 0%Z) <= 2 ^ 53)%Z -> dya (nth i l f0) (nth i z 0%Z) 0.
Proof.
  intros H B. apply dya_int; auto; revert i B; induction H as [|x n l z (F & E) H IH]; intros [|i] B; cbn [nth] in *; auto;
    try reflexivity; try (apply IH; auto; fail).
Qed.
Lemma zsum_term n f i : (i < n)%nat -> (Z.abs (f i) <= zsum n (fun i => Z.abs (f i)))%Z.
Proof. induction n as [|n IH]; intros H; [lia|]. cbn [zsum]. destruct (Nat.eq_dec i n) as [->|]; [assert (P := zsum_pos n f); lia|]. specialize (IH ltac:(lia)). lia. Qed.

Lemma zsum_split n f : (2 <= n)%nat ->
  (zsum (n - 2) (fun j => Z.abs (f (1 + j)%nat)) + Z.abs (f 0%nat) + Z.abs (f (n - 1)%nat))%Z = zsum n (fun i => Z.abs (f i)).
Proof.
  intros H. destruct n as [|[|n]]; try lia. replace (S (S n) - 2)%nat with n by lia. replace (S (S n) - 1)%nat with (S n) by lia. clear H.
  induction n as [|n IH]; [simpl; lia|]. change (zsum (S (S (S n))) (fun i => Z.abs (f i))) with (zsum (S (S n)) (fun i => Z.abs (f i)) + Z.abs (f (S (S n))))%Z.
  cbn [zsum] in *. replace (1 + n)%nat with (S n) by lia. lia.
Qed.

Lemma trapz_integers_lemma : forall (y : list f64) (dx : f64) (z : list Z) (h : Z),
  (2 <= length y)%nat -> integers y z -> is_finite dx = true -> dvalue dx = IZR h ->
  (2 * fold_right Z.add 0 (map Z.abs z) <= 2 ^ 53)%Z -> (Z.abs h * (2 * fold_right Z.add 0 (map Z.abs z)) <= 2 ^ 53)%Z ->
  (Z.abs h <= 2 ^ 53)%Z ->
  exists v, trapz_uniform y dx = Ok v /\ is_finite v = true /\
    dvalue v = areas (grid 0 (IZR h) (length y)) (map IZR z).
Proof.
  intros y dx z h Hn Hz Fd Ed B1 B2 B3. rewrite zlist_sum in B1, B2.
  assert (L : length z = length y) by (clear - Hz; induction Hz; cbn [length]; congruence). rewrite L in B1, B2.
  set (n := length y) in *. set (Z_ := fun i => nth i z 0%Z).
  set (T := zsum n (fun i => Z.abs (nth i z 0%Z))) in *.
  assert (T1 : forall i, (i < n)%nat -> (Z.abs (Z_ i) <= T)%Z) by (intros i Hi; apply (zsum_term n Z_ i Hi)).
  assert (DY : forall i, (i < n)%nat -> dya (nth i y f0) (Z_ i) 0).
  { intros i Hi. apply integers_nth; auto. assert (A := T1 i Hi). unfold Z_ in A. lia. }
  assert (SP := zsum_split n Z_ Hn). change (zsum n (fun i => Z.abs (Z_ i))) with T in SP.
  set (S := zsum (n - 2) (fun j => Z_ (1 + j)%nat)).
  assert (SA := zsum_abs (n - 2) (fun j => Z_ (1 + j)%nat)). fold S in SA. cbv beta in SA.
  assert (Ds : dya (fsum (f64_ofZ 0) (fun j => nth (1 + j) y f0) (n - 2)) S 0).
  { apply fsum_int; [intros i Hi; apply DY; lia|]. cbv beta. clear - SP B1 T1 Hn. lia. }
  assert (Dp : dya (nth 0 y f0 +! nth (n - 1) y f0) (Z_ 0%nat + Z_ (n - 1)%nat) 0).
  { apply dya_plus; [apply DY; lia|apply DY; lia|]. clear - SP B1 SA. lia. }
  assert (Dh : dya (nlit 1 2) 1 1).
  { destruct half64 as (F & E). split; [exact F|]. split; [rewrite E; change (2 ^ 1)%Z with 2%Z; lra|]. split; [discriminate|split; discriminate]. }
  assert (Dm : dya (nlit 1 2 *! (nth 0 y f0 +! nth (n - 1) y f0)) (1 * (Z_ 0%nat + Z_ (n - 1)%nat)) (1 + 0)).
  { apply dya_mult; [exact Dh|exact Dp| |discriminate]. clear - SP B1 SA. lia. }
  set (P := (Z_ 0%nat + Z_ (n - 1)%nat)%Z) in *.
  assert (Dg : dya (fsum (f64_ofZ 0) (fun j => nth (1 + j) y f0) (n - 2) +! (nlit 1 2 *! (nth 0 y f0 +! nth (n - 1) y f0))) (2 * S + 1 * P) 1).
  { apply dya_plus; [apply (dya_lift _ S 0); [exact Ds| |discriminate]|exact Dm|]; clear - SP B1 SA P; unfold P; lia. }
  assert (Dv : dya (dx *! (fsum (f64_ofZ 0) (fun j => nth (1 + j) y f0) (n - 2) +! (nlit 1 2 *! (nth 0 y f0 +! nth (n - 1) y f0)))) (h * (2 * S + 1 * P)) (0 + 1)).
  { apply dya_mult; [apply dya_int; auto|exact Dg| |discriminate].
    assert (A : (Z.abs (2 * S + 1 * P) <= 2 * T)%Z) by (clear - SP SA P; unfold P; lia).
    rewrite Z.abs_mul. apply Z.le_trans with (2 := B2). apply Z.mul_le_mono_nonneg_l; [lia|exact A]. }
  destruct Dv as (Fv & Ev & _). eexists. split; [|split; [exact Fv|]].
  - unfold trapz_uniform. fold n. rewrite (proj2 (Nat.eqb_neq n 0)) by lia.
    rewrite foldM_fsum by (fold n; lia). cbn [bind]. rewrite (vidx_lt y 0 f0) by (fold n; lia). cbn [bind].
    unfold vidx_sub. rewrite (proj2 (Nat.leb_le 1 n)) by lia. rewrite (vidx_lt y (n - 1) f0) by (fold n; lia). cbn [bind]. reflexivity.
  - unfold dvalue. rewrite Ev. replace n with (length (map IZR z)) by (rewrite map_length; exact L). rewrite areas_grid, map_length, L.
    rewrite <- (trap_regroup n (fun i => nth i (map IZR z) 0)) by exact Hn.
    assert (NZ : forall i, nth i (map IZR z) 0 = IZR (Z_ i)) by (intros i; apply (map_nth IZR z 0%Z i)).
    rewrite !NZ, (bsum_ext (n - 2) _ (fun j => IZR (Z_ (1 + j)%nat))) by (intros; apply NZ).
    rewrite <- zsum_IZR. fold S. change (2 ^ (0 + 1))%Z with 2%Z. rewrite mult_IZR, plus_IZR, !mult_IZR. unfold P. rewrite plus_IZR. field.
Qed.

(** ** Convolution *)
Lemma bsum_minus n f g : bsum n (fun i => f i - g i) = bsum n f - bsum n g.
Proof. induction n as [|n IH]; cbn [bsum]; [ring|]. rewrite IH. ring. Qed.

Definition cmag : R := bpow radix2 190.
Lemma cmag_pow : 2 ^ 190 = cmag.
Proof. symmetry. apply (bpow_powerRZ radix2 190). Qed.
Lemma cmag_1 : 1 <= cmag.
Proof. change 1 with (bpow radix2 0). apply bpow_le. discriminate. Qed.
Lemma cmag_mag : 2 * (cmag * cmag) <= mag.
Proof. change 2 with (bpow radix2 1). unfold cmag, mag. rewrite <- !bpow_plus. apply bpow_le. discriminate. Qed.
Lemma mag_le_big : mag <= big.
Proof. apply bpow_le. discriminate. Qed.

Section Conv.
Context (k s : list f64) (dt : f64) (st : bool).
Hypothesis Hn : (2 <= length k)%nat.
Hypothesis HN : INR (length k) <= nmax.
Hypothesis Hl : (length k <= length s)%nat.
Hypothesis Hk : ordinary cmag k.
Hypothesis Hs : ordinary cmag s.
Hypothesis Fd : is_finite dt = true.
Hypothesis Hd : Rabs (val dt) <= mag.

Let p := fun i => nth i k f0 *! nth (if st then i else length k - 1 - i) s f0.
Let q := fun i => val (nth i k f0) * val (nth (if st then i else length k - 1 - i) s f0).

Lemma conv_p i : is_finite (p i) = true /\ Rabs (val (p i) - q i) <= u53 * Rabs (q i) + eta64 /\ Rabs (val (p i)) <= mag.
Proof.
  assert (C := cmag_1). assert (CM := cmag_mag). assert (MB := mag_le_big). assert (U := u_tiny). assert (Up := u53_pos). assert (E := eta_tau).
  destruct (ordinary_nth cmag k i Hk) as (F1 & B1); [lra|].
  destruct (ordinary_nth cmag s (if st then i else length k - 1 - i) Hs) as (F2 & B2); [lra|].
  assert (Q : Rabs (q i) <= cmag * cmag).
  { unfold q. rewrite Rabs_mult. apply Rmult_le_compat; auto; apply Rabs_pos. }
  assert (C2 : 1 <= cmag * cmag) by (replace 1 with (1 * 1) by ring; apply Rmult_le_compat; lra).
  destruct (mult_rel _ _ F1 F2) as (F & D); [fold (q i); lra|]. fold (p i) in F, D. fold (q i) in D.
  split; [exact F|]. split; [exact D|].
  replace (val (p i)) with ((val (p i) - q i) + q i) by ring. apply Rle_trans with (1 := Rabs_triang _ _).
  assert (u53 * Rabs (q i) <= / 4 * (cmag * cmag)).
  { apply Rmult_le_compat; [lra|apply Rabs_pos| |exact Q]. lra. }
  assert (eta64 <= / 4) by (assert (X := L_Arange64.eta_small); lra). lra.
Qed.

Lemma conv_eq bm : naive_convolution bm k s dt st = trapz_uniform (map p (seq 0 (length k))) dt.
Proof.
  unfold naive_convolution. rewrite (proj2 (Nat.leb_le _ _) Hl). cbn [cassert bind].
  replace (cassert bm true) with (Ok tt) by (destruct bm; reflexivity). cbn [bind].
  rewrite (mapM_ok_map _ p); [reflexivity|]. intros i Hi. apply in_seq in Hi.
  rewrite (vidx_lt k i f0) by lia. cbn [bind]. unfold p. destruct st.
  - rewrite (vidx_lt s i f0) by lia. reflexivity.
  - rewrite (vidx_lt s (length k - i - 1) f0) by lia. cbn [bind]. replace (length k - i - 1)%nat with (length k - 1 - i)%nat by lia. reflexivity.
Qed.

Lemma nth_map_seq {A} (f : nat -> A) n i d : (i < n)%nat -> nth i (map f (seq 0 n)) d = f i.
Proof. intros H. rewrite (nth_indep _ d (f 0%nat)) by (rewrite map_length, seq_length; exact H). rewrite (map_nth f). rewrite seq_nth by exact H. reflexivity. Qed.
Lemma lagged_nth i : (i < length k)%nat -> nth i (lagged (dvalues k) (dvalues s) st) 0 = q i.
Proof.
  intros H. unfold lagged. rewrite dv_length, nth_map_seq by exact H. rewrite !nth_dv. reflexivity.
Qed.
Lemma lagged_length : length (lagged (dvalues k) (dvalues s) st) = length k.
Proof. unfold lagged. rewrite map_length, seq_length, dv_length. reflexivity. Qed.

Lemma conv_f bm : exists v, naive_convolution bm k s dt st = Ok v /\ is_finite v = true /\
  Rabs (val v - areas (grid 0 (val dt) (length k)) (lagged (dvalues k) (dvalues s) st)) <=
    2 * (INR (length k) + 2) * u53 * areas_abs (grid 0 (val dt) (length k)) (lagged (dvalues k) (dvalues s) st)
    + 2 * eta64 * (Rabs (val dt) * (INR (length k) + 1) + 1).
Proof.
  rewrite conv_eq. set (I := map p (seq 0 (length k))). assert (LI : length I = length k) by (unfold I; rewrite map_length, seq_length; reflexivity).
  destruct (trapz_uniform_f I dt) as (v & Ev & Fv & Dv); rewrite ?LI; auto.
  { apply Forall_forall. intros x Hx. apply in_map_iff in Hx. destruct Hx as (i & <- & _). destruct (conv_p i) as (A & _ & B). split; assumption. }
  exists v. split; [exact Ev|]. split; [exact Fv|]. rewrite LI in Dv. set (n := length k) in *.
  set (L := lagged (dvalues k) (dvalues s) st) in *.
  assert (LL : length L = n) by apply lagged_length. assert (LD : length (dvalues I) = n) by (rewrite dv_length; exact LI).
  assert (A1 : areas (grid 0 (val dt) n) L = val dt * bsum (n - 1) (fun i => (q i + q (S i)) / 2)).
  { rewrite <- LL at 1. rewrite areas_grid, LL. f_equal. apply bsum_ext. intros i Hi. unfold L. rewrite !lagged_nth by (fold n; lia). reflexivity. }
  assert (A2 : areas_abs (grid 0 (val dt) n) L = Rabs (val dt) * bsum (n - 1) (fun i => (Rabs (q i) + Rabs (q (S i))) / 2)).
  { rewrite <- LL at 1. rewrite areas_abs_grid, LL. f_equal. apply bsum_ext. intros i Hi. unfold L. rewrite !lagged_nth by (fold n; lia). reflexivity. }
  assert (NI : forall i, (i < n)%nat -> nth i (dvalues I) 0 = val (p i)) by (intros i Hi; rewrite nth_dv; unfold I; rewrite nth_map_seq by exact Hi; reflexivity).
  assert (A3 : areas (grid 0 (val dt) n) (dvalues I) = val dt * bsum (n - 1) (fun i => (val (p i) + val (p (S i))) / 2)).
  { rewrite <- LD at 1. rewrite areas_grid, LD. f_equal. apply bsum_ext. intros i Hi. rewrite !NI by lia. reflexivity. }
  assert (A4 : areas_abs (grid 0 (val dt) n) (dvalues I) = Rabs (val dt) * bsum (n - 1) (fun i => (Rabs (val (p i)) + Rabs (val (p (S i)))) / 2)).
  { rewrite <- LD at 1. rewrite areas_abs_grid, LD. f_equal. apply bsum_ext. intros i Hi. rewrite !NI by lia. reflexivity. }
  rewrite A3, A4 in Dv. rewrite A1, A2. clear A1 A2 A3 A4.
  set (D := Rabs (val dt)) in *. assert (D0 : 0 <= D) by apply Rabs_pos.
  set (K := bsum (n - 1) (fun i => (Rabs (q i) + Rabs (q (S i))) / 2)).
  assert (K0 : 0 <= K) by (apply bsum_nonneg; intros i _; assert (H1 := Rabs_pos (q i)); assert (H2 := Rabs_pos (q (S i))); lra).
  set (KI := bsum (n - 1) (fun i => (Rabs (val (p i)) + Rabs (val (p (S i)))) / 2)) in *.
  set (SI := bsum (n - 1) (fun i => (val (p i) + val (p (S i))) / 2)) in *.
  set (SQ := bsum (n - 1) (fun i => (q i + q (S i)) / 2)).
  assert (N1 : INR (n - 1) <= INR n) by (apply le_INR; lia). assert (N0 := pos_INR (n - 1)).
  assert (E0 : 0 <= eta64) by (assert (X := L_Arange64.eta_small); lra). assert (Up := u53_pos).
  assert (SD : Rabs (SI - SQ) <= u53 * K + INR (n - 1) * eta64).
  { unfold SI, SQ, K. rewrite <- bsum_minus, <- bsum_scal, <- bsum_const, <- bsum_plus.
    apply Rle_trans with (1 := bsum_abs _ _). apply bsum_le. intros i _. cbv beta.
    destruct (conv_p i) as (_ & H1 & _). destruct (conv_p (S i)) as (_ & H2 & _).
    replace ((val (p i) + val (p (S i))) / 2 - (q i + q (S i)) / 2) with ((val (p i) - q i + (val (p (S i)) - q (S i))) * / 2) by field.
    rewrite Rabs_mult, (Rabs_pos_eq (/ 2)) by lra. assert (T := Rabs_triang (val (p i) - q i) (val (p (S i)) - q (S i))). lra. }
  assert (KD : KI <= (1 + u53) * K + INR (n - 1) * eta64).
  { unfold KI, K. rewrite <- bsum_scal, <- bsum_const, <- bsum_plus. apply bsum_le. intros i _. cbv beta.
    destruct (conv_p i) as (_ & H1 & _). destruct (conv_p (S i)) as (_ & H2 & _).
    assert (T1 := Rabs_triang (val (p i) - q i) (q i)). replace (val (p i) - q i + q i) with (val (p i)) in T1 by ring.
    assert (T2 := Rabs_triang (val (p (S i)) - q (S i)) (q (S i))). replace (val (p (S i)) - q (S i) + q (S i)) with (val (p (S i))) in T2 by ring.
    lra. }
  assert (NU : 0 <= (INR n + 1) * u53 <= / 500).
  { assert (H := ku_small (INR n) ltac:(split; [apply pos_INR|exact HN])). assert (U := u_tiny). lra. }
  set (w := (INR n + 1) * u53) in *. set (m := INR (n - 1)) in *.
  assert (G1 : Rabs (val v - val dt * SQ) <= 2 * w * (D * ((1 + u53) * K + m * eta64)) + 2 * eta64 * (D + 1) + D * (u53 * K + m * eta64)).
  { replace (val v - val dt * SQ) with ((val v - val dt * SI) + val dt * (SI - SQ)) by ring.
    apply Rle_trans with (1 := Rabs_triang _ _). rewrite (Rabs_mult (val dt)). fold D.
    assert (D * Rabs (SI - SQ) <= D * (u53 * K + m * eta64)) by (apply Rmult_le_compat_l; assumption).
    assert (2 * w * (D * KI) <= 2 * w * (D * ((1 + u53) * K + m * eta64))).
    { apply Rmult_le_compat_l; [lra|]. apply Rmult_le_compat_l; assumption. }
    replace (2 * (INR n + 1) * u53 * (D * KI)) with (2 * w * (D * KI)) in Dv by (unfold w; ring). lra. }
  apply Rle_trans with (1 := G1). clear G1 Dv.
  assert (DK : 0 <= D * K) by (apply Rmult_le_pos; assumption).
  assert (DE : 0 <= D * eta64) by (apply Rmult_le_pos; assumption).
  assert (DME : 0 <= D * (m * eta64)) by (apply Rmult_le_pos; [|apply Rmult_le_pos]; assumption).
  assert (P1 : w * (u53 * (D * K)) <= / 500 * (u53 * (D * K))) by (apply Rmult_le_compat_r; [apply Rmult_le_pos; lra|lra]).
  assert (P2 : w * (D * (m * eta64)) <= / 500 * (D * (m * eta64))) by (apply Rmult_le_compat_r; lra).
  assert (P3 : 0 <= u53 * (D * K)) by (apply Rmult_le_pos; lra).
  assert (P4 : D * (m * eta64) <= D * (INR n * eta64)) by (apply Rmult_le_compat_l; [assumption|]; apply Rmult_le_compat_r; assumption).
  assert (P5 : 0 <= D * (INR n * eta64)) by lra.
  replace (2 * (INR n + 2) * u53 * (D * K)) with (2 * (w * (D * K)) + 2 * (u53 * (D * K))) by (unfold w; ring).
  replace (2 * eta64 * (D * (INR n + 1) + 1)) with (2 * (D * (INR n * eta64)) + 2 * (D * eta64) + 2 * eta64) by ring.
  replace (2 * w * (D * ((1 + u53) * K + m * eta64)) + 2 * eta64 * (D + 1) + D * (u53 * K + m * eta64))
    with (2 * (w * (D * K)) + 2 * (w * (u53 * (D * K))) + 2 * (w * (D * (m * eta64))) + 2 * (D * eta64) + 2 * eta64 + u53 * (D * K) + D * (m * eta64)) by ring.
  lra.
Qed.
End Conv.

(** ** Final forms *)
Lemma nmax_le (n : nat) : (Z.of_nat n <= 2 ^ 43)%Z -> INR n <= nmax.
Proof. intros H. rewrite INR_IZR_INZ. apply IZR_le. exact H. Qed.

Lemma trapz_uniform_double_lemma : forall (y : list f64) (dx : f64),
  (2 <= length y)%nat -> (Z.of_nat (length y) <= 2 ^ 43)%Z -> ordinary (2 ^ 400) y -> ordinary (2 ^ 400) [dx] ->
  exists v, trapz_uniform y dx = Ok v /\ is_finite v = true /\
    Rabs (dvalue v - areas (grid 0 (dvalue dx) (length y)) (dvalues y)) <=
      2 * (INR (length y) + 1) * uround * areas_abs (grid 0 (dvalue dx) (length y)) (dvalues y) + 2 * uflow * (Rabs (dvalue dx) + 1).
Proof.
  intros y dx Hn HN Hy Hd. rewrite mag_pow in *. rewrite uround_u53, uflow_eta. inversion_clear Hd as [|? ? (Fd & Bd) _].
  exact (trapz_uniform_f y dx Hn (nmax_le _ HN) Hy Fd Bd).
Qed.

Lemma trapz_xy_double_lemma : forall bm (x y : list f64),
  (2 <= length y)%nat -> (Z.of_nat (length y) <= 2 ^ 43)%Z -> length x = length y -> ordinary (2 ^ 400) x -> ordinary (2 ^ 400) y ->
  exists v, trapz_xy bm x y = Ok v /\ is_finite v = true /\
    Rabs (dvalue v - areas (dvalues x) (dvalues y)) <=
      2 * (INR (length y) + 2) * uround * areas_abs (dvalues x) (dvalues y) + (INR (length y) + 2) * uflow.
Proof.
  intros bm x y Hn HN HL Hx Hy. rewrite mag_pow in *. rewrite uround_u53, uflow_eta.
  apply trapz_xy_f; auto. apply nmax_le, HN.
Qed.

Lemma convolution_double_lemma : forall bm (kernel signal : list f64) (dt : f64) straight,
  (2 <= length kernel)%nat -> (Z.of_nat (length kernel) <= 2 ^ 43)%Z -> (length kernel <= length signal)%nat ->
  ordinary (2 ^ 190) kernel -> ordinary (2 ^ 190) signal -> ordinary (2 ^ 400) [dt] ->
  exists v, naive_convolution bm kernel signal dt straight = Ok v /\ is_finite v = true /\
    let g := grid 0 (dvalue dt) (length kernel) in let w := lagged (dvalues kernel) (dvalues signal) straight in
    Rabs (dvalue v - areas g w) <= 2 * (INR (length kernel) + 2) * uround * areas_abs g w
      + 2 * uflow * (Rabs (dvalue dt) * (INR (length kernel) + 1) + 1).
Proof.
  intros bm k s dt st Hn HN Hl Hk Hs Hd. rewrite mag_pow, cmag_pow in *. cbv zeta. rewrite uround_u53, uflow_eta.
  inversion_clear Hd as [|? ? (Fd & Bd) _]. apply conv_f; auto. apply nmax_le, HN.
Qed.

Lemma fsum_nan (t : nat -> f64) k : forall a, a = B754_nan \/ (exists i, (i < k)%nat /\ t i = B754_nan) -> fsum a t k = B754_nan.
Proof.
  induction k as [|k IH]; intros a H.
  - destruct H as [->|(i & Hi & _)]; [reflexivity|lia].
  - cbn [fsum]. destruct H as [->|(i & Hi & E)]; [rewrite IH by auto; apply plus_nan_l|].
    destruct (Nat.eq_dec i k) as [->|N]; [rewrite E; apply L_Interp2d64.plus_nan_r|].
    rewrite IH; [apply plus_nan_l|]. right. exists i. split; [lia|exact E].
Qed.
Lemma trapz_nan_lemma : forall (y : list f64) (dx : f64), (2 <= length y)%nat ->
  is_nan dx = true \/ Exists (fun v => is_nan v = true) y -> exists v, trapz_uniform y dx = Ok v /\ is_nan v = true.
Proof.
  intros y dx Hn H. set (n := length y) in *. eexists. split.
  - unfold trapz_uniform. fold n. rewrite (proj2 (Nat.eqb_neq n 0)) by lia.
    rewrite foldM_fsum by (fold n; lia). cbn [bind]. rewrite (vidx_lt y 0 f0) by (fold n; lia). cbn [bind].
    unfold vidx_sub. rewrite (proj2 (Nat.leb_le 1 n)) by lia. rewrite (vidx_lt y (n - 1) f0) by (fold n; lia). cbn [bind]. reflexivity.
  - destruct H as [D|E].
    + rewrite (is_nan_eq _ D). change (is_nan (B754_nan *! (fsum (f64_ofZ 0) (fun j => nth (1 + j) y f0) (n - 2) +! (nlit 1 2 *! (nth 0 y f0 +! nth (n - 1) y f0)))) = true).
      rewrite L_Interp2d64.mult_nan_l. reflexivity.
    + change (is_nan (dx *! (fsum (f64_ofZ 0) (fun j => nth (1 + j) y f0) (n - 2) +! (nlit 1 2 *! (nth 0 y f0 +! nth (n - 1) y f0)))) = true).
      apply Exists_nth in E. destruct E as (i & d & Hi & E). fold n in Hi. apply is_nan_eq in E. rewrite (nth_indep y d f0 Hi) in E.
      destruct (Nat.eq_dec i 0) as [->|N0]; [|destruct (Nat.eq_dec i (n - 1)) as [->|N1]].
      * rewrite E, plus_nan_l, mult_nan_r, L_Interp2d64.plus_nan_r, mult_nan_r. reflexivity.
      * rewrite E, L_Interp2d64.plus_nan_r, mult_nan_r, L_Interp2d64.plus_nan_r, mult_nan_r. reflexivity.
      * rewrite fsum_nan, plus_nan_l, mult_nan_r; [reflexivity|]. right. exists (i - 1)%nat. split; [lia|]. replace (1 + (i - 1))%nat with i by lia. exact E.
Qed.

Definition fof (r : outcome f64) : f64 := match r with Ok v => v | _ => f0 end.
Lemma fof_ok (r : outcome f64) : (match r with Ok _ => true | _ => false end) = true -> r = Ok (fof r).
Proof. destruct r; try discriminate. reflexivity. Qed.
Lemma rules_refuted_pf : exists (x y : list f64) (dx v w : f64), dvalues x = grid 0 (dvalue dx) (length y) /\
  trapz_uniform y dx = Ok v /\ trapz_xy Debug x y = Ok w /\ dvalue v <> dvalue w.
Proof.
  set (t := L_Arange64.tenth). set (y := [t; t; t; t]). set (x := map f64_ofZ [0; 1; 2; 3]%Z).
  exists x, y, (f64_ofZ 1), (fof (trapz_uniform y (f64_ofZ 1))), (fof (trapz_xy Debug x y)).
  destruct (ofZ_ok 0 ltac:(lia)) as (_ & V0). destruct (ofZ_ok 1 ltac:(lia)) as (_ & V1). destruct (ofZ_ok 2 ltac:(lia)) as (_ & V2). destruct (ofZ_ok 3 ltac:(lia)) as (_ & V3).
  split; [|split; [|split]].
  - unfold x, y, dvalues, grid, dvalue. cbn [map length seq]. rewrite V0, V1, V2, V3. cbn [INR]. repeat f_equal; ring.
  - apply fof_ok. vm_compute. reflexivity.
  - apply fof_ok. vm_compute. reflexivity.
  - unfold dvalue. intros E.
    assert (F1 : is_finite (fof (trapz_uniform y (f64_ofZ 1))) = true) by (vm_compute; reflexivity).
    assert (F2 : is_finite (fof (trapz_xy Debug x y)) = true) by (vm_compute; reflexivity).
    assert (C := Bcompare_correct 53 1024 _ _ F1 F2). rewrite E, Rcompare_Eq in C by reflexivity. revert C. clear. vm_compute. discriminate.
Qed.
