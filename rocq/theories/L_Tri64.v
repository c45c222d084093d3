(** Quadrature over a triangle in binary64. *)
From Coq Require Import List Arith ZArith Reals Bool Lia Lra Psatz.
From Flocq Require Import Core.Core IEEE754.BinarySingleNaN.
From Verif Require Import Outcome Num NumFun F64 L_F64 L_Linspace64 L_F64Err L_Interp64 L_Apx L_Ser64 M_Triangle M_Vec S_Triangle L_Triangle L_Triangle2 S_Angles S_Double S_Vec S_Vec64 L_Vec64 S_Tri64.
Import ListNotations.
Local Open Scope R_scope.

(** ** Literals of the tables *)
Definition lit_ok (z : Z * Z) : bool := ((0 <? snd z) && (snd z <? 2 ^ 53) && (Z.abs (fst z) <=? snd z) && (snd z <=? 1000 * Z.abs (fst z)))%Z.
Definition pt_ok (x : zpt) : bool := lit_ok (fst (fst x)) && lit_ok (snd (fst x)) && lit_ok (snd x).
Lemma lits_all : forallb (fun d => forallb pt_ok (ztab d) && (length (ztab d) <=? 16)%nat) orders = true.
Proof. vm_compute. reflexivity. Qed.
Lemma lit_apx z : lit_ok z = true -> apx (nlit (fst z) (snd z)) (lr z) (Rabs (lr z)) (103 / 100) /\ / 1000 <= Rabs (lr z) <= 1.
Proof.
  unfold lit_ok. intros H. apply andb_prop in H as (H & H4). apply andb_prop in H as (H & H3). apply andb_prop in H as (H1 & H2).
  apply Z.ltb_lt in H1, H2. apply Z.leb_le in H3, H4. destruct z as (n, d). cbn [fst snd] in *.
  destruct (ofZ_ok n ltac:(lia)) as (Fn & En). destruct (ofZ_ok d ltac:(lia)) as (Fd & Ed).
  assert (D0 : 0 < IZR d) by (apply IZR_lt; lia). assert (E1 : Rabs (IZR n) <= IZR d) by (rewrite <- abs_IZR; apply IZR_le; lia).
  assert (E2 : IZR d <= 1000 * Rabs (IZR n)) by (rewrite <- abs_IZR, <- mult_IZR; apply IZR_le; lia).
  assert (Q : Rabs (lr (n, d)) = Rabs (IZR n) / IZR d) by (unfold lr; cbn [fst snd]; unfold Rdiv; rewrite Rabs_mult, (Rabs_pos_eq (/ IZR d)); [reflexivity|left; apply Rinv_0_lt_compat, D0]).
  assert (B : / 1000 <= Rabs (lr (n, d)) <= 1).
  { rewrite Q. split; apply Rmult_le_reg_r with (IZR d); auto; unfold Rdiv; rewrite Rmult_assoc, Rinv_l; lra. }
  split; [|exact B]. unfold nlit. change (ndiv (nofZ n) (nofZ d)) with (f64_ofZ n /! f64_ofZ d).
  assert (A := apx_div (f64_ofZ n) (f64_ofZ d) (IZR n) (IZR d) (Rabs (IZR n)) 0 0).
  replace (103 / 100) with (0 + 0 + 103 / 100) by ring. rewrite Q. rewrite <- (Rabs_pos_eq (IZR d)) at 1 by lra. unfold lr. cbn [fst snd]. apply A.
  - rewrite <- En. apply apx_id; [exact Fn|lra].
  - rewrite <- Ed. apply apx_id; [exact Fd|lra].
  - lra.
  - lra.
  - lra.
  - rewrite (Rabs_pos_eq (IZR d)) by lra. rewrite <- Q. assert (T : tau <= / 1024) by (change (/ 1024) with (bpow radix2 (-10)); apply bpow_le; discriminate).
    assert (1 <= big) by (change 1 with (bpow radix2 0); apply bpow_le; discriminate). lra.
Qed.

(** ** Points *)
Definition lim2 : R := bpow radix2 200.
Section Tri.
Variables (M F : R).
Hypothesis HM : / lim2 <= M <= lim2.
Hypothesis HF : / (lim2 * lim2) <= F <= lim2 * lim2.
Lemma lim2_pos : 0 < lim2. Proof. apply bpow_gt_0. Qed.
Lemma M_pos : 0 < M. Proof. assert (L := lim2_pos). assert (0 < / lim2) by (apply Rinv_0_lt_compat, L). lra. Qed.
Lemma F_pos : 0 < F. Proof. assert (L := lim2_pos). assert (0 < / (lim2 * lim2)) by (apply Rinv_0_lt_compat, Rmult_lt_0_compat; exact L). lra. Qed.
(** Everything is a monomial in M and F of moderate size. *)
Lemma ranges : bpow radix2 (-200) <= M <= bpow radix2 200 /\ bpow radix2 (-400) <= F <= bpow radix2 400 /\
  bpow radix2 (-400) <= M * M <= bpow radix2 400 /\ bpow radix2 (-800) <= F * (M * M) <= bpow radix2 800.
Proof.
  assert (MP := M_pos). assert (FP := F_pos).
  assert (ML : bpow radix2 (-200) <= M <= bpow radix2 200) by (change (-200)%Z with (- (200))%Z; rewrite (bpow_opp radix2 200); exact HM).
  assert (FL : bpow radix2 (-400) <= F <= bpow radix2 400).
  { change (-400)%Z with (-(200 + 200))%Z. rewrite bpow_opp. change 400%Z with (200 + 200)%Z. rewrite bpow_plus. exact HF. }
  assert (A1 := bpow_gt_0 radix2 (-200)). assert (A2 := bpow_gt_0 radix2 (-400)).
  assert (MM : bpow radix2 (-400) <= M * M <= bpow radix2 400).
  { change (-400)%Z with (-200 + -200)%Z. change 400%Z with (200 + 200)%Z. rewrite !bpow_plus. split; apply Rmult_le_compat; lra. }
  repeat split; try lra.
  - change (-800)%Z with (-400 + -400)%Z. rewrite bpow_plus. apply Rmult_le_compat; lra.
  - change 800%Z with (400 + 400)%Z. rewrite bpow_plus. apply Rmult_le_compat; lra.
Qed.
Lemma tau_range x c : bpow radix2 (-800) <= x <= bpow radix2 800 -> / 1000 <= c <= 1000 -> tau <= c * x <= big.
Proof.
  intros (X1 & X2) (C1 & C2). assert (A1 := bpow_gt_0 radix2 (-800)). assert (A2 := bpow_gt_0 radix2 (-810)).
  assert (T : tau <= / 1000 * bpow radix2 (-800)).
  { apply Rle_trans with (bpow radix2 (-10 + -800)); [apply bpow_le; discriminate|]. rewrite bpow_plus. apply Rmult_le_compat_r; [lra|]. simpl. lra. }
  assert (B : 1000 * bpow radix2 800 <= big).
  { apply Rle_trans with (bpow radix2 (10 + 800)); [|apply bpow_le; discriminate]. rewrite bpow_plus. apply Rmult_le_compat_r; [left; apply bpow_gt_0|]. simpl. lra. }
  split; [apply Rle_trans with (1 := T)|apply Rle_trans with (2 := B)]; apply Rmult_le_compat; lra.
Qed.
Lemma wide e x : (0 <= e <= 800)%Z -> bpow radix2 (- e) <= x <= bpow radix2 e -> bpow radix2 (-800) <= x <= bpow radix2 800.
Proof. intros He (X1 & X2). split; [apply Rle_trans with (2 := X1)|apply Rle_trans with (1 := X2)]; apply bpow_le; lia. Qed.
Lemma rM c : / 1000 <= c <= 1000 -> tau <= c * M <= big.
Proof. intros H. apply tau_range; [|exact H]. apply (wide 200); [lia|]. apply ranges. Qed.
Lemma rMM c : / 1000 <= c <= 1000 -> tau <= c * (M * M) <= big.
Proof. intros H. apply tau_range; [|exact H]. apply (wide 400); [lia|]. apply ranges. Qed.
Lemma rF c : / 1000 <= c <= 1000 -> tau <= c * F <= big.
Proof. intros H. apply tau_range; [|exact H]. apply (wide 400); [lia|]. apply ranges. Qed.
Lemma rFMM c : / 1000 <= c <= 1000 -> tau <= c * (F * (M * M)) <= big.
Proof. intros H. apply tau_range; [|exact H]. apply (wide 800); [lia|]. apply ranges. Qed.

(** One coordinate of a point. *)
Definition pt64 (a b x y z : f64) : f64 := ((f64_ofZ 1 -! a -! b) *! x +! a *! y) +! b *! z.
Lemma coord_point (a b x y z : f64) ra rb : apx a ra (Rabs ra) (103 / 100) -> apx b rb (Rabs rb) (103 / 100) -> 0 <= ra -> 0 <= rb -> ra + rb <= 1 -> / 1000 <= ra -> / 1000 <= rb ->
  is_finite x = true -> is_finite y = true -> is_finite z = true -> Rabs (val x) <= M -> Rabs (val y) <= M -> Rabs (val z) <= M ->
  is_finite (pt64 a b x y z) = true /\ Rabs (val (pt64 a b x y z) - (val x + ra * (val y - val x) + rb * (val z - val x))) <= 31 * u53 * M /\
  Rabs (val x + ra * (val y - val x) + rb * (val z - val x)) <= M.
Proof.
  intros Ha Hb A0 B0 AB A1 B1 Fx Fy Fz Mx My Mz. assert (MP := M_pos). assert (U := u_tiny). rewrite (Rabs_pos_eq ra) in Ha by lra. rewrite (Rabs_pos_eq rb) in Hb by lra.
  assert (BG : 1000 <= big) by (change big with (bpow radix2 (10 + 990)); rewrite bpow_plus; assert (1 <= bpow radix2 990) by (change 1 with (bpow radix2 0); apply bpow_le; discriminate); simpl (bpow radix2 10); lra).
  assert (a1 := apx_weaken _ _ _ _ 1 (103 / 100) Ha ltac:(lra) ltac:(lra) ltac:(lra)).
  assert (b1 := apx_weaken _ _ _ _ 1 (103 / 100) Hb ltac:(lra) ltac:(lra) ltac:(lra)).
  assert (R1 := rM 1 ltac:(lra)). assert (R3 := rM 3 ltac:(lra)). assert (R5 := rM 5 ltac:(lra)). rewrite Rmult_1_l in R1.
  assert (C1 := apx_minus _ _ _ _ _ _ _ _ (103 / 100) apx_one a1 ltac:(lra) ltac:(lra) ltac:(lra) ltac:(lra)).
  assert (C2 := apx_minus _ _ _ _ _ _ _ _ (103 / 100 + 101 / 100) C1 b1 ltac:(lra) ltac:(lra) ltac:(lra) ltac:(lra)).
  assert (D1 := apx_mult _ _ _ _ _ _ _ _ C2 (apx_id x M Fx Mx) ltac:(lra) ltac:(lra) ltac:(lra)).
  assert (D2 := apx_mult _ _ _ _ _ _ _ _ a1 (apx_id y M Fy My) ltac:(lra) ltac:(lra) ltac:(lra)).
  assert (D3 := apx_mult _ _ _ _ _ _ _ _ b1 (apx_id z M Fz Mz) ltac:(lra) ltac:(lra) ltac:(lra)).
  assert (E1 := apx_plus _ _ _ _ _ _ _ _ (407 / 100) D1 D2 ltac:(lra) ltac:(lra) ltac:(lra) ltac:(lra)).
  assert (E2 := apx_plus _ _ _ _ _ _ _ _ (508 / 100) E1 D3 ltac:(lra) ltac:(lra) ltac:(lra) ltac:(lra)).
  destruct E2 as (F2 & _ & B2). fold (pt64 a b x y z) in F2, B2.
  replace (val x + ra * (val y - val x) + rb * (val z - val x)) with ((1 - ra - rb) * val x + ra * val y + rb * val z) by ring.
  split; [exact F2|]. split.
  - apply Rle_trans with (1 := B2). assert (0 <= u53 * M) by (apply Rmult_le_pos; lra). replace ((508 / 100 + 101 / 100) * u53 * ((1 + 1 + 1) * M + 1 * M + 1 * M)) with (3045 / 100 * (u53 * M)) by field. lra.
  - apply Rabs_le_inv in Mx, My, Mz. assert (G : forall c t, 0 <= c -> - M <= t <= M -> - (c * M) <= c * t <= c * M).
    { intros c t Hc (T1 & T2). split; [replace (- (c * M)) with (c * - M) by ring|]; apply Rmult_le_compat_l; lra. }
    assert (G1 := G (1 - ra - rb) (val x) ltac:(lra) Mx). assert (G2 := G ra (val y) A0 My). assert (G3 := G rb (val z) B0 Mz). apply Rabs_le. lra.
Qed.

(** ** The norm, small vectors included *)
Lemma sqrt_le_of x y : 0 <= y -> x <= y * y -> sqrt x <= y.
Proof. intros Hy H. rewrite <- (sqrt_Rsqr y Hy). apply sqrt_le_1_alt, H. Qed.
Lemma norm_abs (x y w : f64) : is_finite x = true -> is_finite y = true -> is_finite w = true -> Rabs (val x) <= lim -> Rabs (val y) <= lim -> Rabs (val w) <= lim ->
  let n := Bsqrt mode_NE (x *! x +! y *! y +! w *! w) in let N := sqrt (val x * val x + val y * val y + val w * val w) in
  is_finite n = true /\ Rabs (val n - N) <= 26 / 10 * u53 * N + 4 * low.
Proof.
  intros Fx Fy Fw Hx Hy Hw n N. assert (U := u_tiny). assert (LP : 0 < low) by apply bpow_gt_0. assert (N0 : 0 <= N) by apply sqrt_pos.
  assert (UN : 0 <= u53 * N) by (apply Rmult_le_pos; lra).
  destruct (Rle_or_lt low (Rabs (val x))) as [L1|L1]; [|destruct (Rle_or_lt low (Rabs (val y))) as [L2|L2]; [|destruct (Rle_or_lt low (Rabs (val w))) as [L3|L3]]].
  1-3: destruct (v3_norm_rel x y w Fx Fy Fw Hx Hy Hw) as (A & B); [tauto|]; split; [exact A|fold n N in B; lra].
  destruct (sumsq3_ok x y w Fx Fy Fw Hx Hy Hw) as (Fz & Pz & Ez). destruct (sqrt_rel _ Fz Pz) as (Fn & En & Pn). fold n in Fn, En, Pn. split; [exact Fn|].
  set (Z := val x * val x + val y * val y + val w * val w) in *. set (z := x *! x +! y *! y +! w *! w) in *.
  assert (SQ : forall t, Rabs t < low -> t * t <= low * low) by (intros t Ht; assert (T0 := Rabs_pos t); rewrite <- (Rabs_pos_eq (t * t)) by (apply sq_pos); rewrite Rabs_mult; apply Rmult_le_compat; lra).
  assert (S1 := SQ _ L1). assert (S2 := SQ _ L2). assert (S3 := SQ _ L3).
  assert (Z3 : 0 <= Z <= 3 * (low * low)) by (unfold Z; assert (Q1 := sq_pos (val x)); assert (Q2 := sq_pos (val y)); assert (Q3 := sq_pos (val w)); lra).
  assert (LE := low_eta (low * low) (Rle_refl _)). assert (LL : 0 < low * low) by (apply Rmult_lt_0_compat; lra).
  assert (UL : u53 * (low * low) <= / 1000 * (low * low)) by (apply Rmult_le_compat_r; lra).
  assert (UZ : u53 * Z <= / 1000 * Z) by (apply Rmult_le_compat_r; lra).
  assert (N2 : N <= 2 * low) by (apply sqrt_le_of; lra).
  assert (n2 : sqrt (val z) <= 2 * low). { apply sqrt_le_of; [lra|]. apply Rabs_le_inv in Ez. lra. }
  assert (s0 := sqrt_pos (val z)). assert (u53 * sqrt (val z) <= / 1000 * sqrt (val z)) by (apply Rmult_le_compat_r; lra).
  apply Rabs_le_inv in En. apply Rabs_le. lra.
Qed.
Lemma norm3_tri (a b : vec3 R) t : each3 (fun x y => Rabs (x - y) <= t) a b -> Rabs (norm3 a - norm3 b) <= 174 / 100 * t.
Proof.
  intros (H1 & H2 & H3). assert (T0 : 0 <= t) by (apply Rle_trans with (2 := H1); apply Rabs_pos).
  assert (G : forall a b : vec3 R, Rabs (vx a - vx b) <= t -> Rabs (vy a - vy b) <= t -> Rabs (vz a - vz b) <= t -> norm3 a <= norm3 b + 174 / 100 * t).
  { clear. intros a b H1 H2 H3. assert (T0 : 0 <= t) by (apply Rle_trans with (2 := H1); apply Rabs_pos).
    unfold norm3, dot3. set (n := sqrt (vx b * vx b + vy b * vy b + vz b * vz b)). assert (n0 : 0 <= n) by apply sqrt_pos.
    assert (nn : n * n = vx b * vx b + vy b * vy b + vz b * vz b) by (unfold n; rewrite sqrt_def; [reflexivity|assert (Q1 := sq_pos (vx b)); assert (Q2 := sq_pos (vy b)); assert (Q3 := sq_pos (vz b)); lra]).
    apply sqrt_le_of; [lra|].
    set (d1 := vx a - vx b) in *. set (d2 := vy a - vy b) in *. set (d3 := vz a - vz b) in *. replace (vx a) with (vx b + d1) by (unfold d1; ring). replace (vy a) with (vy b + d2) by (unfold d2; ring). replace (vz a) with (vz b + d3) by (unfold d3; ring).
    clearbody d1 d2 d3. set (x := vx b) in *. set (y := vy b) in *. set (z := vz b) in *. clearbody x y z n.
    assert (SQ : forall d, Rabs d <= t -> d * d <= t * t) by (intros d Hd; assert (D0 := Rabs_pos d); rewrite <- (Rabs_pos_eq (d * d)) by apply sq_pos; rewrite Rabs_mult; apply Rmult_le_compat; lra).
    assert (S1 := SQ _ H1). assert (S2 := SQ _ H2). assert (S3 := SQ _ H3).
    assert (CS : x * d1 + y * d2 + z * d3 <= n * (174 / 100 * t)).
    { apply Rsqr_incr_0_var; [|apply Rmult_le_pos; lra]. unfold Rsqr.
      assert (LG : (x * d1 + y * d2 + z * d3) * (x * d1 + y * d2 + z * d3) <= (x * x + y * y + z * z) * (d1 * d1 + d2 * d2 + d3 * d3)).
      { assert (Q1 := sq_pos (x * d2 - y * d1)). assert (Q2 := sq_pos (x * d3 - z * d1)). assert (Q3 := sq_pos (y * d3 - z * d2)). lra. }
      apply Rle_trans with (1 := LG). rewrite <- nn. assert (Q : d1 * d1 + d2 * d2 + d3 * d3 <= (174 / 100 * t) * (174 / 100 * t)) by (assert (0 <= t * t) by apply sq_pos; lra).
      replace (n * (174 / 100 * t) * (n * (174 / 100 * t))) with (n * n * ((174 / 100 * t) * (174 / 100 * t))) by ring. apply Rmult_le_compat_l; [apply sq_pos|exact Q]. }
    assert (0 <= t * t) by apply sq_pos. lra. }
  assert (A := G a b H1 H2 H3). assert (B := G b a ltac:(rewrite Rabs_minus_sym; exact H1) ltac:(rewrite Rabs_minus_sym; exact H2) ltac:(rewrite Rabs_minus_sym; exact H3)).
  apply Rabs_le. lra.
Qed.

(** One coordinate of the cross product of two edges. *)
Definition cr64 (a b c d a' b' c' d' : f64) : f64 := (a -! a') *! (b -! b') -! (c -! c') *! (d -! d').
Definition okc (x : f64) : Prop := is_finite x = true /\ Rabs (dvalue x) <= M.
Lemma coord_cross (a b c d a' b' c' d' : f64) : okc a -> okc b -> okc c -> okc d -> okc a' -> okc b' -> okc c' -> okc d' ->
  apx (cr64 a b c d a' b' c' d') ((dvalue a - dvalue a') * (dvalue b - dvalue b') - (dvalue c - dvalue c') * (dvalue d - dvalue d')) (8 * (M * M)) (407 / 100).
Proof.
  intros. assert (MP := M_pos).
  assert (R2 := rM 2 ltac:(lra)). assert (R4 := rMM 4 ltac:(lra)). assert (R8 := rMM 8 ltac:(lra)).
  assert (SB : forall x y : f64, okc x -> okc y -> apx (x -! y) (val x - val y) (M + M) (101 / 100)).
  { intros x y (Fx & Bx) (Fy & By). assert (A := apx_minus _ _ _ _ _ _ _ _ 0 (apx_id x M Fx Bx) (apx_id y M Fy By) ltac:(lra) ltac:(lra) ltac:(lra) ltac:(lra)). rewrite Rplus_0_l in A. exact A. }
  assert (P1 := apx_mult _ _ _ _ _ _ _ _ (SB a a' ltac:(assumption) ltac:(assumption)) (SB b b' ltac:(assumption) ltac:(assumption)) ltac:(lra) ltac:(lra) ltac:(lra)).
  assert (P2 := apx_mult _ _ _ _ _ _ _ _ (SB c c' ltac:(assumption) ltac:(assumption)) (SB d d' ltac:(assumption) ltac:(assumption)) ltac:(lra) ltac:(lra) ltac:(lra)).
  assert (Q := apx_minus _ _ _ _ _ _ _ _ (304 / 100) P1 P2 ltac:(lra) ltac:(lra) ltac:(lra) ltac:(lra)).
  apply apx_weaken with (1 := Q); lra.
Qed.
Lemma b3M v : bounded3 M v -> okc (vx v) /\ okc (vy v) /\ okc (vz v).
Proof. intros H. unfold bounded3, coords3 in H. assert (H' := Forall_inv_tail H). assert (H'' := Forall_inv_tail H'). exact (conj (Forall_inv H) (conj (Forall_inv H') (Forall_inv H''))). Qed.
Lemma norm_cross (TT : NumTr f64) (p q r : vec3 f64) : ieee_sqrt TT -> bounded3 M p -> bounded3 M q -> bounded3 M r ->
  apx (v3_norm (v3_cross (v3_sub p r) (v3_sub q r))) (2 * area (dvec3 p) (dvec3 q) (dvec3 r)) (14 * (M * M)) 8.
Proof.
  intros HT Hp Hq Hr. assert (MP := M_pos). assert (U := u_tiny). unfold v3_norm. rewrite HT. destruct p as [p1 p2 p3], q as [q1 q2 q3], r as [r1 r2 r3].
  destruct (b3M _ Hp) as (P1 & P2 & P3). destruct (b3M _ Hq) as (Q1 & Q2 & Q3). destruct (b3M _ Hr) as (R1 & R2 & R3). cbn [vx vy vz] in *.
  set (c1 := cr64 p2 q3 p3 q2 r2 r3 r3 r2). set (c2 := cr64 p3 q1 p1 q3 r3 r1 r1 r3). set (c3 := cr64 p1 q2 p2 q1 r1 r2 r2 r1).
  assert (A1 := coord_cross p2 q3 p3 q2 r2 r3 r3 r2 P2 Q3 P3 Q2 R2 R3 R3 R2). fold c1 in A1.
  assert (A2 := coord_cross p3 q1 p1 q3 r3 r1 r1 r3 P3 Q1 P1 Q3 R3 R1 R1 R3). fold c2 in A2.
  assert (A3 := coord_cross p1 q2 p2 q1 r1 r2 r2 r1 P1 Q2 P2 Q1 R1 R2 R2 R1). fold c3 in A3.
  change (apx (Bsqrt mode_NE (c1 *! c1 +! c2 *! c2 +! c3 *! c3)) (2 * area (dvec3 (mkV3 p1 p2 p3)) (dvec3 (mkV3 q1 q2 q3)) (dvec3 (mkV3 r1 r2 r3))) (14 * (M * M)) 8).
  set (e1 := _ - _) in A1. set (e2 := _ - _) in A2. set (e3 := _ - _) in A3.
  assert (EA : 2 * area (dvec3 (mkV3 p1 p2 p3)) (dvec3 (mkV3 q1 q2 q3)) (dvec3 (mkV3 r1 r2 r3)) = norm3 (mkV3 e1 e2 e3)).
  { rewrite <- area_ok. unfold norm3, v3_norm, dot3, e1, e2, e3. cbn [v3_cross v3_sub vx vy vz dvec3 nsqrt RNumTr]. cbv [nadd nsub nmul RNum RNum_at]. lra. }
  rewrite EA. clear EA. clearbody c1 c2 c3 e1 e2 e3. clear - A1 A2 A3 U HM HF MP.
  assert (MM := rMM 1 ltac:(lra)). destruct ranges as (_ & _ & (M1 & M2) & _). assert (MP2 : 0 < M * M) by (apply Rmult_lt_0_compat; lra).
  assert (V1 := apx_val _ _ _ _ A1 ltac:(lra)). assert (V2 := apx_val _ _ _ _ A2 ltac:(lra)). assert (V3 := apx_val _ _ _ _ A3 ltac:(lra)).
  destruct A1 as (F1 & B1 & E1), A2 as (F2 & B2 & E2), A3 as (F3 & B3 & E3).
  assert (LM : 9 * (M * M) <= lim).
  { apply Rle_trans with (bpow radix2 4 * bpow radix2 400); [apply Rmult_le_compat; simpl (bpow radix2 4); lra|]. rewrite <- bpow_plus. apply bpow_le. discriminate. }
  destruct (norm_abs c1 c2 c3 F1 F2 F3 ltac:(lra) ltac:(lra) ltac:(lra)) as (Fn & En).
  assert (NM : forall x y z, Rabs x <= 801 / 100 * (M * M) -> Rabs y <= 801 / 100 * (M * M) -> Rabs z <= 801 / 100 * (M * M) -> norm3 (mkV3 x y z) <= 1395 / 100 * (M * M)).
  { clear - MP2. intros x y z X Y Z. assert (G := norm3_tri (mkV3 x y z) (mkV3 0 0 0) (801 / 100 * (M * M))). unfold each3 in G. cbn [vx vy vz] in G. rewrite !Rminus_0_r in G.
    specialize (G (conj X (conj Y Z))). replace (norm3 (mkV3 0 0 0)) with 0 in G by (unfold norm3, dot3; cbn [vx vy vz]; rewrite !Rmult_0_l, !Rplus_0_l, sqrt_0; reflexivity).
    apply Rabs_le_inv in G. lra. }
  assert (N1 := NM e1 e2 e3 ltac:(lra) ltac:(lra) ltac:(lra)). assert (N2 := NM (val c1) (val c2) (val c3) ltac:(lra) ltac:(lra) ltac:(lra)).
  assert (NT := norm3_tri (mkV3 (val c1) (val c2) (val c3)) (mkV3 e1 e2 e3) (407 / 100 * u53 * (8 * (M * M))) (conj E1 (conj E2 E3))).
  assert (N0 : 0 <= norm3 (mkV3 e1 e2 e3)) by apply sqrt_pos. assert (UM : 0 <= u53 * (M * M)) by (apply Rmult_le_pos; lra).
  assert (LU : 4 * low <= u53 * (M * M)).
  { apply Rle_trans with (u53 * bpow radix2 (-400)); [|apply Rmult_le_compat_l; lra]. replace u53 with (bpow radix2 (-53)) by (unfold u53; rewrite bpow_powerRZ; simpl; reflexivity).
    rewrite <- bpow_plus. change 4 with (bpow radix2 2). unfold low. rewrite <- bpow_plus. apply bpow_le. discriminate. }
  change (sqrt (val c1 * val c1 + val c2 * val c2 + val c3 * val c3)) with (norm3 (mkV3 (val c1) (val c2) (val c3))) in En.
  split; [exact Fn|]. split; [rewrite Rabs_pos_eq; lra|].
  assert (UN : u53 * norm3 (mkV3 (val c1) (val c2) (val c3)) <= u53 * (1395 / 100 * (M * M))) by (apply Rmult_le_compat_l; lra).
  apply Rabs_le_inv in NT, En. apply Rabs_le. lra.
Qed.

(** ** The sum *)
Definition dz : Z * Z := (1, 1)%Z.
Definition lit (z : Z * Z) : f64 := nlit (fst z) (snd z).
Definition X64 (v1 v2 v3 : vec3 f64) (za zb : Z * Z) : vec3 f64 :=
  v3_add (v3_add (v3_scal (nofZ 1 - lit za - lit zb)%num v1) (v3_scal (lit za) v2)) (v3_scal (lit zb) v3).
Definition step64 (f : vec3 f64 -> f64) (v1 v2 v3 : vec3 f64) (alpha beta weight : list f64) (res : option f64) (i : nat) : outcome (option f64) :=
  let* a := vat alpha i in
  let* b := vat beta i in
  let x := v3_add (v3_add (v3_scal (nofZ 1 - a - b)%num v1) (v3_scal a v2)) (v3_scal b v3) in
  let* w := vat weight i in
  match i with
  | O => Ok (Some (vmull w (f x)))
  | S _ => match res with
           | None => UB
           | Some r => Ok (Some (vadd r (vmulr (f x) w)))
           end
  end.
Lemma vat_map (l : list (Z * Z)) i : (i < length l)%nat -> vat (map lit l) i = Ok (lit (nth i l dz)).
Proof. intros H. rewrite (vat_lt _ i (lit dz)) by (rewrite map_length; exact H). rewrite map_nth. reflexivity. Qed.
Lemma lsum_index (G : Z * Z -> Z * Z -> Z * Z -> R) (a b w : list (Z * Z)) : length a = length w -> length b = length w ->
  lsum (fun i => G (nth i a dz) (nth i b dz) (nth i w dz)) (seq 0 (length w)) = lsum (fun p => G (fst (fst p)) (snd (fst p)) (snd p)) (combine (combine a b) w).
Proof.
  revert a b. induction w as [|w0 w IH]; intros [|a0 a] [|b0 b] La Lb; try discriminate; [reflexivity|].
  cbn [length seq combine lsum nth fst snd]. f_equal. rewrite <- seq_shift, lsum_map. cbn [nth]. apply IH; cbn in *; lia.
Qed.
Lemma fold64 (f : vec3 f64 -> f64) v1 v2 v3 (a b w : list (Z * Z)) : length a = length w -> length b = length w ->
  let X i := X64 v1 v2 v3 (nth i a dz) (nth i b dz) in
  (forall i, (i < length w)%nat -> lit_ok (nth i w dz) = true /\ is_finite (f (X i)) = true /\ Rabs (val (f (X i))) <= F) ->
  forall k m r S A K, (m + k = length w)%nat -> (0 < m)%nat -> (k <= 16)%nat -> apx r S A K -> 205 / 100 <= K -> K + 101 / 100 * INR k <= 100 -> A + INR k * F <= 100 * F ->
  exists r', foldM (step64 f v1 v2 v3 (map lit a) (map lit b) (map lit w)) (Some r) (seq m k) = Ok (Some r') /\
    apx r' (S + lsum (fun i => lr (nth i w dz) * val (f (X i))) (seq m k)) (A + lsum (fun i => Rabs (lr (nth i w dz)) * F) (seq m k)) (K + 101 / 100 * INR k).
Proof.
  intros La Lb X HX. assert (FP := F_pos). assert (RB := rF 100 ltac:(lra)). induction k as [|k IH]; intros m r S A K Hm Hp Hk HA HK HKk HB.
  - exists r. split; [reflexivity|]. cbn [seq lsum]. change (INR 0) with 0. rewrite !Rplus_0_r, Rmult_0_r, Rplus_0_r. exact HA.
  - cbn [seq foldM]. unfold step64 at 1. rewrite !vat_map by lia. cbn [bind]. destruct m as [|m]; [lia|]. cbn [bind].
    destruct (HX (Datatypes.S m) ltac:(lia)) as (LO & Ff & Bf). destruct (lit_apx _ LO) as (LA & L1 & L2).
    assert (PR := apx_mult _ _ _ _ _ _ _ _ (apx_id _ F Ff Bf) LA ltac:(lra) ltac:(lra)).
    set (aw := Rabs (lr (nth (Datatypes.S m) w dz))) in *. assert (AW : 0 <= aw) by lra.
    assert (FW : F * aw <= F) by (rewrite <- (Rmult_1_r F) at 2; apply Rmult_le_compat_l; lra).
    assert (K0 : 0 <= INR k <= 16) by (split; [apply pos_INR|replace 16 with (INR 16) by (simpl; lra); apply le_INR; lia]). rewrite S_INR in HB, HKk |- *.
    assert (INR k * F >= 0) by (apply Rle_ge, Rmult_le_pos; lra).
    assert (A0 := apx_A _ _ _ _ HA).
    assert (RG := rF aw ltac:(lra)). rewrite Rmult_comm in RG.
    assert (SM := apx_plus _ _ _ _ _ _ _ _ K HA (PR RG) ltac:(lra) ltac:(lra) ltac:(lra) ltac:(lra)).
    destruct (IH (Datatypes.S (Datatypes.S m)) _ _ _ (K + 101 / 100) ltac:(lia) ltac:(lia) ltac:(lia) SM ltac:(lra) ltac:(lra) ltac:(lra)) as (r' & E & Ar).
    exists r'. split; [exact E|]. cbn [lsum]. rewrite <- !Rplus_assoc. replace (K + 101 / 100 * (INR k + 1)) with (K + 101 / 100 + 101 / 100 * INR k) by ring.
    rewrite (Rmult_comm (lr _) (val _)), (Rmult_comm (Rabs (lr _)) F). exact Ar.
Qed.
Definition mass (d : nat) : R := if existsb (Nat.eqb d) positive_orders then 1 + 1 / 10 ^ 13 else 22 / 10.
Lemma mass_ok d : (1 <= d <= 8)%nat -> lsum (fun x => Rabs (pw x)) (ztab d) <= mass d.
Proof.
  intros Hd. rewrite wsum_ok by exact Hd. pose proof den_pos as D. apply (Rmult_le_reg_r (IZR den)); [exact D|]. unfold Rdiv. rewrite Rmult_assoc, Rinv_l, Rmult_1_r by lra.
  unfold mass. destruct (existsb _ _) eqn:E.
  - apply existsb_exists in E. destruct E as (d' & Hd' & E). apply Nat.eqb_eq in E. subst d'.
    pose proof positive_all as C. rewrite forallb_forall in C. specialize (C d Hd'). apply andb_prop in C. destruct C as [_ C].
    apply Z.leb_le, IZR_le in C. rewrite !mult_IZR in C. lra.
  - pose proof stable_all as C. rewrite forallb_forall in C. specialize (C d (order_in d Hd)).
    apply Z.leb_le, IZR_le in C. rewrite !mult_IZR in C. lra.
Qed.
Lemma mass_range d : 1 <= mass d <= 22 / 10.
Proof. unfold mass. destruct (existsb _ _); lra. Qed.
Lemma ztab_facts d x : (1 <= d <= 8)%nat -> In x (ztab d) -> pt_ok x = true.
Proof. intros Hd Hx. assert (C := lits_all). rewrite forallb_forall in C. specialize (C d (order_in d Hd)). apply andb_prop in C as (C & _). rewrite forallb_forall in C. apply C, Hx. Qed.
Lemma ztab_length d : (1 <= d <= 8)%nat -> (length (ztab d) <= 16)%nat.
Proof. intros Hd. assert (C := lits_all). rewrite forallb_forall in C. specialize (C d (order_in d Hd)). apply andb_prop in C as (_ & C). apply Nat.leb_le, C. Qed.
Lemma tab64 d : (1 <= d <= 8)%nat -> exists a b w, nth (d - 1) tri_tables ([], [], []) = (a, b, w) /\
  length a = length w /\ length b = length w /\ (0 < length w)%nat /\ tri_table (T := f64) (Z.of_nat d) = Ok (map lit a, map lit b, map lit w).
Proof.
  intros Hd. destruct (table_ok d Hd) as (a & b & w & E & La & Lb & Lw & _). exists a, b, w. repeat split; auto.
  unfold tri_table. destruct (Z.ltb_spec (Z.of_nat d) 1); [lia|]. rewrite Nat2Z.id. unfold vidx. rewrite (nth_error_nth' tri_tables ([], [], [])) by (change (length tri_tables) with 8%nat; lia). rewrite E. reflexivity.
Qed.

(** A point of the table. *)
Lemma point64 d x p q r : (1 <= d <= 8)%nat -> In x (ztab d) -> bounded3 M p -> bounded3 M q -> bounded3 M r ->
  let X := X64 p q r (fst (fst x)) (snd (fst x)) in let P := point (dvec3 p) (dvec3 q) (dvec3 r) (pa x) (pb x) in
  bounded3 (2 * M) X /\ in_box (2 * M) P /\ each3 (fun a b => Rabs (a - b) <= 31 * uround * M) (dvec3 X) P.
Proof.
  intros Hd Hx Hp Hq Hr X P. assert (T := ztab_facts d x Hd Hx). unfold pt_ok in T. apply andb_prop in T as (T & _). apply andb_prop in T as (T1 & T2).
  destruct (lit_apx _ T1) as (A1 & A2 & A3). destruct (lit_apx _ T2) as (B1 & B2 & B3). destruct (pt_inside_ok d x Hd Hx) as (I1 & I2 & I3). unfold pa, pb in I1, I2, I3.
  rewrite (Rabs_pos_eq (lr (fst (fst x)))) in A2, A3 by lra. rewrite (Rabs_pos_eq (lr (snd (fst x)))) in B2, B3 by lra.
  destruct (b3M _ Hp) as ((P1 & P1') & (P2 & P2') & P3 & P3'). destruct (b3M _ Hq) as ((Q1 & Q1') & (Q2 & Q2') & Q3 & Q3'). destruct (b3M _ Hr) as ((R1 & R1') & (R2 & R2') & R3 & R3').
  assert (MP := M_pos). assert (U := u_tiny). assert (UM : 31 * u53 * M <= M / 2) by (apply Rle_trans with (/ 2 * M); [apply Rmult_le_compat_r; lra|lra]).
  destruct (coord_point _ _ (vx p) (vx q) (vx r) _ _ A1 B1 I1 I2 I3 A2 B2 P1 Q1 R1 P1' Q1' R1') as (F1 & E1 & C1).
  destruct (coord_point _ _ (vy p) (vy q) (vy r) _ _ A1 B1 I1 I2 I3 A2 B2 P2 Q2 R2 P2' Q2' R2') as (F2 & E2 & C2).
  destruct (coord_point _ _ (vz p) (vz q) (vz r) _ _ A1 B1 I1 I2 I3 A2 B2 P3 Q3 R3 P3' Q3' R3') as (F3 & E3 & C3).
  assert (G : forall a b, Rabs (a - b) <= 31 * u53 * M -> Rabs b <= M -> Rabs a <= 2 * M) by (intros a b H1 H2; apply Rabs_le_inv in H1, H2; apply Rabs_le; lra).
  split; [|split].
  - unfold bounded3, coords3. repeat (apply Forall_cons; [split; [assumption|eapply G; eassumption]|]). apply Forall_nil.
  - unfold in_box, coords3. repeat (apply Forall_cons; [match goal with |- Rabs ?c <= _ => assert (Rabs c <= M) by assumption; lra end|]). apply Forall_nil.
  - exact (conj E1 (conj E2 E3)).
Qed.

Lemma half_apx : apx (nlit 1 2 : f64) (1 / 2) (1 / 2) (103 / 100).
Proof. destruct (lit_apx (1, 2)%Z eq_refl) as (A & _). unfold lr in A. cbn [fst snd] in A. rewrite Rabs_pos_eq in A by lra. exact A. Qed.
Lemma two_apx : apx (f64_ofZ 2) 2 2 0.
Proof. destruct (ofZ_ok 2 ltac:(reflexivity)) as (A & B). change (dvalue (f64_ofZ 2)) with (val (f64_ofZ 2)) in B. split; [exact A|]. rewrite B. split; [rewrite Rabs_pos_eq; lra|]. rewrite Rminus_diag_eq, Rabs_R0 by reflexivity. lra. Qed.

Lemma tri_double (TT : NumTr f64) (f : vec3 f64 -> f64) (g : vec3 R -> R) d p q r eps L : ieee_sqrt TT -> (1 <= d <= 8)%nat -> bounded3 M p -> bounded3 M q -> bounded3 M r ->
  approximates f g (2 * M) eps F -> slope_le g (2 * M) L ->
  exists v, (let* t := tri_new f (Z.of_nat d) in tri_compute t p q r) = Ok v /\ is_finite v = true /\
    Rabs (dvalue v - 2 * area (dvec3 p) (dvec3 q) (dvec3 r) * rule d (fun a b => g (point (dvec3 p) (dvec3 q) (dvec3 r) a b))) <=
      mass d * area (dvec3 p) (dvec3 q) (dvec3 r) * (eps + 31 * uround * M * L) + 500 * uround * (F * (M * M)).
Proof.
  intros HT Hd Hp Hq Hr Hf Hg. assert (MP := M_pos). assert (FP := F_pos). assert (U := u_tiny). assert (BF := rF 100 ltac:(lra)). assert (BFM := rFMM 16 ltac:(lra)). assert (BMM := rMM 14 ltac:(lra)). assert (BF1 := rF 1 ltac:(lra)). assert (BFM1 := rFMM 1 ltac:(lra)). assert (BMM1 := rMM 1 ltac:(lra)).
  assert (HX : forall x, In x (ztab d) -> let X := X64 p q r (fst (fst x)) (snd (fst x)) in is_finite (f X) = true /\ Rabs (val (f X)) <= F /\
    Rabs (val (f X) - g (point (dvec3 p) (dvec3 q) (dvec3 r) (pa x) (pb x))) <= eps + 31 * u53 * M * L).
  { intros x Hx X. destruct (point64 d x p q r Hd Hx Hp Hq Hr) as (X1 & X2 & X3). fold X in X1, X3. destruct (Hf X X1) as (Y1 & Y2 & Y3). split; [exact Y1|]. split; [exact Y2|].
    assert (Y4 := Hg (dvec3 X) _ _ ltac:(clear - X1; unfold in_box, bounded3, coords3 in *; cbn [vx vy vz dvec3] in *; repeat (apply Forall_cons_iff in X1 as ((_ & ?) & X1)); repeat (apply Forall_cons; [assumption|]); apply Forall_nil) X2 X3).
    change uround with u53 in Y4. change (dvalue (f X)) with (val (f X)) in Y3. apply Rabs_le_inv in Y3, Y4. apply Rabs_le. lra. }
  destruct (tab64 d Hd) as (a & b & w & E & La & Lb & Lw & Et).
  assert (ZT : ztab d = combine (combine a b) w) by (unfold ztab; rewrite E; reflexivity).
  assert (LZ : length (ztab d) = length w) by (rewrite ZT; change (length (combine (combine a b) w) = length w); rewrite !combine_length; lia). assert (L16 := ztab_length d Hd). rewrite LZ in L16.
  assert (HI : forall i, (i < length w)%nat -> In (nth i a dz, nth i b dz, nth i w dz) (ztab d)).
  { intros i Hi. assert (N : nth i (ztab d) (dz, dz, dz) = (nth i a dz, nth i b dz, nth i w dz)) by (rewrite ZT; change (nth i (combine (combine a b) w) (dz, dz, dz) = (nth i a dz, nth i b dz, nth i w dz)); rewrite combine_nth by (rewrite combine_length; lia); rewrite combine_nth by lia; reflexivity). rewrite <- N. apply nth_In. lia. }
  assert (HW : forall i, (i < length w)%nat -> lit_ok (nth i w dz) = true /\ is_finite (f (X64 p q r (nth i a dz) (nth i b dz))) = true /\ Rabs (val (f (X64 p q r (nth i a dz) (nth i b dz)))) <= F).
  { intros i Hi. assert (T := ztab_facts d _ Hd (HI i Hi)). unfold pt_ok in T. apply andb_prop in T as (_ & T). destruct (HX _ (HI i Hi)) as (Y1 & Y2 & _). auto. }
  unfold tri_new. change (Z.of_nat (length tri_tables)) with 8%Z. destruct (Z.ltb_spec 8 (Z.of_nat d)); [lia|]. destruct (Z.ltb_spec (Z.of_nat d) 1); [lia|]. cbn [bind].
  unfold tri_compute, tri_standard. cbn [t_order t_f]. rewrite Et. cbn [bind]. rewrite map_length.
  change (foldM _ None (seq 0 (length w))) with (foldM (step64 f p q r (map lit a) (map lit b) (map lit w)) None (seq 0 (length w))).
  destruct (length w) as [|n] eqn:LN; [lia|]. cbn [seq foldM]. unfold step64 at 1. rewrite !vat_map by lia. cbn [bind].
  destruct (HW 0%nat ltac:(lia)) as (LO & Ff & Bf). destruct (lit_apx _ LO) as (LA & L1 & L2).
  set (w0 := lr (nth 0 w dz)) in *. change (nlit (fst (nth 0 w dz)) (snd (nth 0 w dz)) : f64) with (lit (nth 0 w dz)) in LA. change (v3_add (v3_add (v3_scal (nofZ 1 - lit (nth 0 a dz) - lit (nth 0 b dz))%num p) (v3_scal (lit (nth 0 a dz)) q)) (v3_scal (lit (nth 0 b dz)) r)) with (X64 p q r (nth 0 a dz) (nth 0 b dz)).
  assert (P0 := apx_mult _ _ _ _ _ _ _ _ LA (apx_id _ F Ff Bf) ltac:(lra) ltac:(lra) (rF (Rabs w0) ltac:(lra))).
  assert (N16 : 0 <= INR n <= 15) by (split; [apply pos_INR|replace 15 with (INR 15) by (simpl; lra); apply le_INR; lia]).
  assert (NF : INR n * F <= 15 * F) by (apply Rmult_le_compat_r; lra). assert (WF : Rabs w0 * F <= 1 * F) by (apply Rmult_le_compat_r; lra).
  destruct (fold64 f p q r a b w ltac:(lia) ltac:(lia) ltac:(rewrite LN; exact HW) n 1%nat _ _ _ (103 / 100 + 0 + 102 / 100) ltac:(lia) ltac:(lia) ltac:(lia) P0 ltac:(lra) ltac:(lra) ltac:(lra)) as (s & Es & As).
  change (vmull (lit (nth 0 w dz)) (f (X64 p q r (nth 0 a dz) (nth 0 b dz)))) with (lit (nth 0 w dz) *! f (X64 p q r (nth 0 a dz) (nth 0 b dz))). rewrite Es. cbn [bind].
  eexists. split; [reflexivity|].
  set (c := fun i => val (f (X64 p q r (nth i a dz) (nth i b dz)))) in As.
  assert (S1 : w0 * val (f (X64 p q r (nth 0 a dz) (nth 0 b dz))) + lsum (fun i => lr (nth i w dz) * val (f (X64 p q r (nth i a dz) (nth i b dz)))) (seq 1 n) =
    lsum (fun x => pw x * val (f (X64 p q r (fst (fst x)) (snd (fst x))))) (ztab d)).
  { rewrite ZT, <- (lsum_index (fun za zb zw => lr zw * val (f (X64 p q r za zb)))) by lia. rewrite LN. reflexivity. }
  assert (S2 : Rabs w0 * F + lsum (fun i => Rabs (lr (nth i w dz)) * F) (seq 1 n) = F * lsum (fun x => Rabs (pw x)) (ztab d)).
  { rewrite <- lsum_scal, ZT, (lsum_ext (fun x => F * Rabs (pw x)) (fun x => Rabs (lr (snd x)) * F)) by (intros; unfold pw; ring). rewrite <- (lsum_index (fun za zb zw => Rabs (lr zw) * F)) by lia. rewrite LN. reflexivity. }
  cbv beta zeta in As. rewrite S1, S2 in As. set (T := lsum _ (ztab d)) in As.
  assert (MS := mass_ok d Hd). assert (MR := mass_range d).
  assert (FS : F * lsum (fun x => Rabs (pw x)) (ztab d) <= 22 / 10 * F) by (rewrite Rmult_comm; apply Rmult_le_compat_r; lra).
  assert (As' := apx_weaken _ _ _ _ (22 / 10 * F) 18 As ltac:(lra) FS ltac:(lra)).
  assert (H1 := apx_mult _ _ _ _ _ _ _ _ As' half_apx ltac:(lra) ltac:(lra) ltac:(split; lra)).
  assert (NC := norm_cross TT p q r HT Hp Hq Hr). set (Ar := area _ _ _) in *.
  assert (H2 := apx_mult _ _ _ _ _ _ _ _ half_apx NC ltac:(lra) ltac:(lra) ltac:(split; lra)).
  assert (H3 := apx_mult _ _ _ _ _ _ _ _ two_apx H2 ltac:(lra) ltac:(lra) ltac:(split; lra)).
  assert (H4 := apx_mult _ _ _ _ _ _ _ _ H1 H3 ltac:(lra) ltac:(lra)).
  replace (22 / 10 * F * (1 / 2) * (2 * (1 / 2 * (14 * (M * M))))) with (154 / 10 * (F * (M * M))) in H4 by field. specialize (H4 ltac:(split; lra)).
  destruct H4 as (F4 & _ & B4). split; [exact F4|].
  assert (DT : Rabs (T - lsum (fun x => pw x * g (point (dvec3 p) (dvec3 q) (dvec3 r) (pa x) (pb x))) (ztab d)) <= mass d * (eps + 31 * u53 * M * L)).
  { set (e := eps + 31 * u53 * M * L) in *. assert (e0 : 0 <= e) by (destruct (HX _ (HI 0%nat ltac:(lia))) as (_ & _ & Y); apply Rle_trans with (2 := Y); apply Rabs_pos).
    replace (T - _) with (lsum (fun x => pw x * (val (f (X64 p q r (fst (fst x)) (snd (fst x)))) - g (point (dvec3 p) (dvec3 q) (dvec3 r) (pa x) (pb x)))) (ztab d)).
    - apply Rle_trans with (1 := lsum_Rabs _ _). apply Rle_trans with (lsum (fun x => e * Rabs (pw x)) (ztab d)).
      + apply lsum_le. intros x Hx. rewrite Rabs_mult, Rmult_comm. apply Rmult_le_compat_r; [apply Rabs_pos|]. apply (HX x Hx).
      + rewrite lsum_scal, Rmult_comm. apply Rmult_le_compat_r; [exact e0|exact MS].
    - unfold T. rewrite (lsum_ext _ (fun x => pw x * val (f (X64 p q r (fst (fst x)) (snd (fst x)))) + (-1) * (pw x * g (point (dvec3 p) (dvec3 q) (dvec3 r) (pa x) (pb x))))) by (intros; ring). rewrite lsum_plus, lsum_scal. ring. }
  unfold rule. set (Gs := lsum (fun x => pw x * g _) (ztab d)) in *.
  assert (A0 : 0 <= Ar) by apply area_pos.
  assert (D2 : Rabs (T * (1 / 2) * (2 * (1 / 2 * (2 * Ar))) - 2 * Ar * (Gs / 2)) <= mass d * Ar * (eps + 31 * u53 * M * L)).
  { replace (T * (1 / 2) * (2 * (1 / 2 * (2 * Ar))) - 2 * Ar * (Gs / 2)) with (Ar * (T - Gs)) by field. rewrite Rabs_mult, (Rabs_pos_eq Ar) by exact A0.
    replace (mass d * Ar * (eps + 31 * u53 * M * L)) with (Ar * (mass d * (eps + 31 * u53 * M * L))) by ring. apply Rmult_le_compat_l; [exact A0|exact DT]. }
  change uround with u53. assert (UP : 0 <= u53 * (F * (M * M))) by (apply Rmult_le_pos; [lra|apply Rmult_le_pos; [lra|apply Rmult_le_pos; lra]]).
  match type of B4 with Rabs (val ?v - _) <= _ => match goal with |- Rabs (dvalue ?v' - _) <= _ => change (Rabs (val v - 2 * Ar * (Gs / 2)) <= mass d * Ar * (eps + 31 * u53 * M * L) + 500 * u53 * (F * (M * M))); set (vv := val v) in * end end.
  clearbody vv. set (Q := mass d * Ar * (eps + 31 * u53 * M * L)) in *. clearbody Q.
  match type of B4 with Rabs (_ - ?z) <= ?k * _ * _ => set (zz := z) in *; assert (Z5 : Rabs (vv - zz) <= 500 * (u53 * (F * (M * M)))) end.
  { apply Rle_trans with (1 := B4). match goal with |- ?k * _ * _ <= _ => assert (k <= 3245 / 100) by lra; apply Rle_trans with (3245 / 100 * u53 * (154 / 10 * (F * (M * M)))) end; [|lra].
    apply Rmult_le_compat_r; [assert (0 <= F * (M * M)) by (apply Rmult_le_pos; [lra|apply Rmult_le_pos; lra]); lra|]. apply Rmult_le_compat_r; lra. }
  apply Rabs_le_inv in D2, Z5. apply Rabs_le. lra.
Qed.
End Tri.

Lemma lim2_pow : 2 ^ 200 = lim2.
Proof. unfold lim2. rewrite bpow_powerRZ, pow_powerRZ. reflexivity. Qed.
Lemma lim2_sq : 2 ^ 400 = lim2 * lim2.
Proof. rewrite <- lim2_pow, <- pow_add. reflexivity. Qed.
Lemma tri_double_lemma : forall (TT : NumTr f64), ieee_sqrt TT -> forall (f : vec3 f64 -> f64) (g : vec3 R -> R) d p q r M F eps L, (1 <= d <= 8)%nat ->
  / 2 ^ 200 <= M <= 2 ^ 200 -> / 2 ^ 400 <= F <= 2 ^ 400 -> bounded3 M p -> bounded3 M q -> bounded3 M r ->
  approximates f g (2 * M) eps F -> slope_le g (2 * M) L ->
  exists v w, (let* t := tri_new f (Z.of_nat d) in tri_compute t p q r) = Ok v /\ is_finite v = true /\
    (let* t := tri_new g (Z.of_nat d) in tri_compute t (dvec3 p) (dvec3 q) (dvec3 r)) = Ok w /\
    Rabs (dvalue v - w) <= (if existsb (Nat.eqb d) [1; 2; 4; 5; 6; 8]%nat then 1 + 1 / 10 ^ 13 else 22 / 10) * area (dvec3 p) (dvec3 q) (dvec3 r) * (eps + 31 * uround * M * L) + 500 * uround * (F * (M * M)).
Proof.
  intros TT HT f g d p q r M F eps L Hd HM HF Hp Hq Hr Hf Hg. rewrite lim2_pow in HM. rewrite lim2_sq in HF.
  destruct (tri_double M F HM HF TT f g d p q r eps L HT Hd Hp Hq Hr Hf Hg) as (v & E & Fv & B). exists v. eexists. split; [exact E|]. split; [exact Fv|]. split; [apply compute_value, Hd|exact B].
Qed.
Lemma tri_poly_lemma : forall (TT : NumTr f64), ieee_sqrt TT -> forall (f : vec3 f64 -> f64) l d p q r M F eps L, (1 <= d <= 8)%nat -> degree_le d l ->
  / 2 ^ 200 <= M <= 2 ^ 200 -> / 2 ^ 400 <= F <= 2 ^ 400 -> bounded3 M p -> bounded3 M q -> bounded3 M r ->
  approximates f (poly3 l) (2 * M) eps F -> slope_le (poly3 l) (2 * M) L ->
  exists v, (let* t := tri_new f (Z.of_nat d) in tri_compute t p q r) = Ok v /\ is_finite v = true /\
    Rabs (dvalue v - surface_integral (poly3 l) (dvec3 p) (dvec3 q) (dvec3 r)) <=
      area (dvec3 p) (dvec3 q) (dvec3 r) * ((if existsb (Nat.eqb d) [1; 2; 4; 5; 6; 8]%nat then 1 + 1 / 10 ^ 13 else 22 / 10) * (eps + 31 * uround * M * L) + 4 / 10 ^ 14 * size l (dvec3 p) (dvec3 q) (dvec3 r)) +
      500 * uround * (F * (M * M)).
Proof.
  intros TT HT f l d p q r M F eps L Hd Hl HM HF Hp Hq Hr Hf Hg. destruct (tri_double_lemma TT HT f (poly3 l) d p q r M F eps L Hd HM HF Hp Hq Hr Hf Hg) as (v & w & E & Fv & Ew & B).
  destruct (degree_lemma d l (dvec3 p) (dvec3 q) (dvec3 r) Hd Hl) as (w' & Ew' & B'). rewrite Ew in Ew'. assert (w' = w) by congruence. subst w'.
  exists v. split; [exact E|]. split; [exact Fv|]. set (k := if existsb _ _ then _ else _) in *. clearbody k. apply Rabs_le_inv in B, B'. apply Rabs_le. lra.
Qed.

(** ** A sliver *)
Lemma val_f x m e : B2SF x = SpecFloat.S754_finite false m e -> dvalue x = F2R (Float radix2 (Zpos m) e).
Proof. intros H. unfold dvalue. rewrite <- SF2R_B2SF, H. reflexivity. Qed.
Lemma sliver_pf : forall (TT : NumTr f64), ieee_sqrt TT -> exists p q r v, bounded3 2 p /\ bounded3 2 q /\ bounded3 2 r /\
  0 < area (dvec3 p) (dvec3 q) (dvec3 r) /\ (let* t := tri_new (fun _ => f64_ofZ 1) 1 in tri_compute t p q r) = Ok v /\ dvalue v = 0.
Proof.
  intros TT HT. set (o := f64_ofZ 0). set (i := f64_ofZ 1). set (a := binary_normalize 53 1024 eq_refl eq_refl mode_NE 4503599627370497 (-52) false : f64). set (b := binary_normalize 53 1024 eq_refl eq_refl mode_NE 9007199254740991 (-53) false : f64).
  assert (Va : dvalue a = 4503599627370497 / 4503599627370496).
  { rewrite (val_f a 4503599627370497 (-52)) by (vm_compute; reflexivity). unfold F2R. cbn [Fnum Fexp bpow]. change (Z.pow_pos radix2 52) with 4503599627370496%Z. reflexivity. }
  assert (Vb : dvalue b = 9007199254740991 / 9007199254740992).
  { rewrite (val_f b 9007199254740991 (-53)) by (vm_compute; reflexivity). unfold F2R. cbn [Fnum Fexp bpow]. change (Z.pow_pos radix2 53) with 9007199254740992%Z. reflexivity. }
  assert (Vo : dvalue o = 0) by (unfold o; vz; reflexivity). assert (Vi : dvalue i = 1) by (unfold i; vz; reflexivity).
  exists (mkV3 a i o), (mkV3 i b o), (mkV3 o o o).
  assert (Z : match (let* t := tri_new (fun _ => f64_ofZ 1) 1 in tri_compute t (mkV3 a i o) (mkV3 i b o) (mkV3 o o o)) with Ok v => B2SF v = SpecFloat.S754_zero false | _ => False end).
  { unfold tri_compute, v3_norm. change (tri_new (fun _ : vec3 f64 => f64_ofZ 1) 1) with (Ok (mkTri (T := f64) 1 (fun _ => f64_ofZ 1))). cbn [bind]. rewrite HT. vm_compute. reflexivity. }
  match type of Z with match ?e with _ => _ end => destruct e as [v| | | |] eqn:E; try contradiction end. exists v.
  assert (BD : forall x y z : f64, is_finite x = true -> is_finite y = true -> is_finite z = true -> Rabs (dvalue x) <= 2 -> Rabs (dvalue y) <= 2 -> Rabs (dvalue z) <= 2 -> bounded3 2 (mkV3 x y z))
    by (intros; unfold bounded3, coords3; repeat (apply Forall_cons; [split; assumption|]); apply Forall_nil).
  assert (Fa : is_finite a = true) by (vm_compute; reflexivity). assert (Fb : is_finite b = true) by (vm_compute; reflexivity). assert (Fo : is_finite o = true) by (vm_compute; reflexivity). assert (Fi : is_finite i = true) by (vm_compute; reflexivity).
  split; [apply BD; rewrite ?Va, ?Vb, ?Vo, ?Vi, ?Rabs_pos_eq; first [assumption|lra]|]. split; [apply BD; rewrite ?Va, ?Vb, ?Vo, ?Vi, ?Rabs_pos_eq; first [assumption|lra]|].
  split; [apply BD; rewrite ?Va, ?Vb, ?Vo, ?Vi, ?Rabs_pos_eq; first [assumption|lra]|]. split; [|split; [exact E|unfold dvalue; rewrite <- SF2R_B2SF, Z; reflexivity]].
  unfold area, sq, dvec3. cbn [vx vy vz]. rewrite Va, Vb, Vo, Vi. apply Rmult_lt_0_compat; [|lra]. apply sqrt_lt_R0. lra.
Qed.

(** ** Example *)
Lemma ex_tri : forall (TT : NumTr f64), ieee_sqrt TT -> exists v,
  (let* t := tri_new (fun x : vec3 f64 => vx x) 2 in tri_compute t (mkV3 (f64_ofZ 1) (f64_ofZ 0) (f64_ofZ 0)) (mkV3 (f64_ofZ 3) (f64_ofZ 0) (f64_ofZ 0)) (mkV3 (f64_ofZ 1) (f64_ofZ 4) (f64_ofZ 0))) = Ok v /\
  Rabs (dvalue v - surface_integral (fun x => vx x) (mkV3 1 0 0) (mkV3 3 0 0) (mkV3 1 4 0)) <= 1 / 10 ^ 10.
Proof.
  intros TT HT. assert (U := u_tiny).
  assert (BD : forall x y z, (Z.abs x <= 4)%Z -> (Z.abs y <= 4)%Z -> (Z.abs z <= 4)%Z -> bounded3 4 (mkV3 (f64_ofZ x) (f64_ofZ y) (f64_ofZ z))).
  { intros x y z Hx Hy Hz. unfold bounded3, coords3. cbn [vx vy vz].
    assert (G : forall n, (Z.abs n <= 4)%Z -> is_finite (f64_ofZ n) = true /\ Rabs (dvalue (f64_ofZ n)) <= 4) by (intros n Hn; destruct (ofZ_ok n ltac:(lia)) as (A & B); split; [exact A|]; unfold dvalue; rewrite B, <- abs_IZR; apply IZR_le, Hn).
    repeat (apply Forall_cons; [apply G; assumption|]). apply Forall_nil. }
  set (l := [mkM3 1 1 0 0]). assert (PL : forall x, poly3 l x = vx x) by (intros x; unfold poly3, l, mono_at; cbn [fold_right m_c m_i m_j m_k pow]; ring).
  destruct (tri_poly_lemma TT HT (fun x => vx x) l 2 (mkV3 (f64_ofZ 1) (f64_ofZ 0) (f64_ofZ 0)) (mkV3 (f64_ofZ 3) (f64_ofZ 0) (f64_ofZ 0)) (mkV3 (f64_ofZ 1) (f64_ofZ 4) (f64_ofZ 0)) 4 8 0 1) as (v & E & _ & B).
  - lia.
  - repeat constructor.
  - rewrite lim2_pow. assert (1024 <= lim2) by (change 1024 with (bpow radix2 10); apply bpow_le; discriminate). assert (/ lim2 <= / 1024) by (apply Rinv_le_contravar; lra). lra.
  - rewrite lim2_sq. assert (1024 <= lim2) by (change 1024 with (bpow radix2 10); apply bpow_le; discriminate). assert (1024 * 1024 <= lim2 * lim2) by (apply Rmult_le_compat; lra). assert (/ (lim2 * lim2) <= / (1024 * 1024)) by (apply Rinv_le_contravar; lra). lra.
  - apply BD; lia.
  - apply BD; lia.
  - apply BD; lia.
  - intros x Hx. destruct (b3M _ _ Hx) as ((A1 & A2) & _). split; [exact A1|]. split; [lra|]. rewrite PL. unfold dvec3. cbn [vx]. rewrite Rminus_diag_eq, Rabs_R0 by reflexivity. lra.
  - intros x y t _ _ (H & _). rewrite !PL. lra.
  - exists v. split; [exact E|]. unfold dvec3 in B. cbn [vx vy vz] in B.
    assert (V0 : dvalue (f64_ofZ 0) = 0) by (vz; reflexivity). assert (V1 : dvalue (f64_ofZ 1) = 1) by (vz; reflexivity). assert (V3 : dvalue (f64_ofZ 3) = 3) by (vz; reflexivity). assert (V4 : dvalue (f64_ofZ 4) = 4) by (vz; reflexivity). rewrite V0, V1, V3, V4 in B.
    assert (EI : surface_integral (poly3 l) (mkV3 1 0 0) (mkV3 3 0 0) (mkV3 1 4 0) = surface_integral (fun x => vx x) (mkV3 1 0 0) (mkV3 3 0 0) (mkV3 1 4 0)).
    { unfold surface_integral. f_equal. apply Coquelicot.RInt.RInt_ext. intros a _. apply Coquelicot.RInt.RInt_ext. intros b _. apply PL. }
    rewrite EI in B. apply Rle_trans with (1 := B).
    replace (area (mkV3 1 0 0) (mkV3 3 0 0) (mkV3 1 4 0)) with 4 by (unfold area, sq; cbn [vx vy vz]; replace (_ * _ - _) with (8 * 8) by ring; rewrite sqrt_square; lra).
    replace (size l (mkV3 1 0 0) (mkV3 3 0 0) (mkV3 1 4 0)) with 3.
    + cbn [existsb Nat.eqb orb]. change uround with u53. lra.
    + unfold size, l, reach. cbn [fold_right m_c m_i m_j m_k vx vy vz pow]. replace (3 - 1) with 2 by ring. replace (1 - 1) with 0 by ring. rewrite Rabs_R0, !Rabs_pos_eq by lra. ring.
Qed.
