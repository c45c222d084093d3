(** Quadratures over the parts of a triangle; examples. *)
From Coq Require Import List Arith ZArith Reals Lra Lia Bool.
From Coquelicot Require Import Coquelicot.
From Verif Require Import Outcome Num NumFun M_Triangle S_Triangle L_Triangle L_Triangle2 S_TriErr S_TriSub L_TriErr L_TriSub L_TriSub2.
Import ListNotations.
Local Open Scope R_scope.

(** *** Polynomials are continuous *)
Lemma ci_const A c : continuous_in A (fun _ => c).
Proof. intros v _ eps He. exists 1. split; [lra|]. intros w _ _. rewrite Rminus_diag_eq, Rabs_R0 by reflexivity. lra. Qed.
Lemma ci_plus A f g : continuous_in A f -> continuous_in A g -> continuous_in A (fun v => f v + g v).
Proof.
  intros F G v Hv eps He. destruct (F v Hv (eps / 2) ltac:(lra)) as (d1 & P1 & Q1). destruct (G v Hv (eps / 2) ltac:(lra)) as (d2 & P2 & Q2).
  exists (Rmin d1 d2). split; [now apply Rmin_pos|]. intros w Hw (C1 & C2 & C3). pose proof (Rmin_l d1 d2). pose proof (Rmin_r d1 d2).
  assert (A1 : Rabs (f w - f v) <= eps / 2) by (apply Q1; auto; repeat split; lra). assert (A2 : Rabs (g w - g v) <= eps / 2) by (apply Q2; auto; repeat split; lra).
  apply Rabs_le_between in A1. apply Rabs_le_between in A2. apply Rabs_le. lra.
Qed.
Lemma ci_mult A f g : continuous_in A f -> continuous_in A g -> continuous_in A (fun v => f v * g v).
Proof.
  intros F G v Hv eps He. set (M := Rabs (f v) + Rabs (g v) + 1). pose proof (Rabs_pos (f v)). pose proof (Rabs_pos (g v)). assert (HM : 1 <= M) by (unfold M; lra).
  assert (P0 : 0 < Rmin 1 (eps / (2 * M))) by (apply Rmin_pos; [lra|apply Rdiv_lt_0_compat; lra]).
  destruct (F v Hv _ P0) as (d1 & P1 & Q1). destruct (G v Hv _ P0) as (d2 & P2 & Q2). set (e := Rmin 1 (eps / (2 * M))) in *.
  assert (E1 : e <= 1) by apply Rmin_l. assert (E2 : e * (2 * M) <= eps). { apply Rle_trans with (eps / (2 * M) * (2 * M)); [apply Rmult_le_compat_r; [lra|apply Rmin_r]|right; field; lra]. }
  exists (Rmin d1 d2). split; [now apply Rmin_pos|]. intros w Hw (C1 & C2 & C3). pose proof (Rmin_l d1 d2). pose proof (Rmin_r d1 d2).
  assert (A1 : Rabs (f w - f v) <= e) by (apply Q1; auto; repeat split; lra). assert (A2 : Rabs (g w - g v) <= e) by (apply Q2; auto; repeat split; lra).
  replace (f w * g w - f v * g v) with ((f w - f v) * (g w - g v) + (f w - f v) * g v + f v * (g w - g v)) by ring.
  apply Rle_trans with (1 := Rabs_triang _ _). pose proof (Rabs_triang ((f w - f v) * (g w - g v)) ((f w - f v) * g v)) as T. rewrite !Rabs_mult in *.
  assert (Rabs (f w - f v) * Rabs (g w - g v) <= e * 1) by (apply Rmult_le_compat; try apply Rabs_pos; lra).
  assert (Rabs (f w - f v) * Rabs (g v) <= e * Rabs (g v)) by (apply Rmult_le_compat_r; lra).
  assert (Rabs (f v) * Rabs (g w - g v) <= Rabs (f v) * e) by (apply Rmult_le_compat_l; lra). unfold M in E2. lra.
Qed.
Lemma ci_pow A f n : continuous_in A f -> continuous_in A (fun v => f v ^ n).
Proof. intros H. induction n as [|n IH]; simpl; [apply ci_const|now apply ci_mult]. Qed.
Lemma ci_x A : continuous_in A (fun v => vx v). Proof. intros v _ eps He. exists eps. split; [exact He|]. intros w _ (C & _). lra. Qed.
Lemma ci_y A : continuous_in A (fun v => vy v). Proof. intros v _ eps He. exists eps. split; [exact He|]. intros w _ (_ & C & _). lra. Qed.
Lemma ci_z A : continuous_in A (fun v => vz v). Proof. intros v _ eps He. exists eps. split; [exact He|]. intros w _ (_ & _ & C). lra. Qed.
Lemma ci_poly A l : continuous_in A (poly3 l).
Proof.
  induction l as [|m l IH]; [apply ci_const|]. apply (ci_plus A (mono_at m) (poly3 l)); [|exact IH].
  unfold mono_at. repeat apply ci_mult; [apply ci_const|apply ci_pow, ci_x|apply ci_pow, ci_y|apply ci_pow, ci_z].
Qed.

(** *** Cutting *)
Lemma side_sub1 p q r t v : 0 <= t <= 1 -> inside p q (on_side t p r) v -> inside p q r v.
Proof. intros Ht. apply inside_sub; [apply vert_p|apply vert_q|apply side_in; [exact Ht|apply vert_p|apply vert_r]]. Qed.
Lemma side_sub2 p q r t v : 0 <= t <= 1 -> inside (on_side t p r) q r v -> inside p q r v.
Proof. intros Ht. apply inside_sub; [apply side_in; [exact Ht|apply vert_p|apply vert_r]|apply vert_q|apply vert_r]. Qed.
Lemma cut_lemma : forall f d l p q r t eps, (1 <= d <= 8)%nat -> degree_le d l -> 0 <= t <= 1 -> continuous_in (inside p q r) f ->
  (forall v, inside p q r v -> Rabs (f v - poly3 l v) <= eps) -> let m := on_side t p r in
  exists v v1 v2, quadrature f d p q r = Ok v /\ quadrature f d p q m = Ok v1 /\ quadrature f d m q r = Ok v2 /\
    Rabs (v - (v1 + v2)) <= area p q r * (2 * (weights d + 1) * eps + 4 / 10 ^ 14 * (size l p q r + Rmax (size l p q m) (size l m q r))).
Proof.
  intros f d l p q r t eps Hd Hl Ht HC HB m.
  destruct (best_lemma f d l p q r eps Hd Hl HC HB) as (v & Ev & Bv).
  destruct (best_lemma f d l p q m eps Hd Hl (continuous_sub _ _ f (fun v => side_sub1 p q r t v Ht) HC) (fun v H => HB v (side_sub1 p q r t v Ht H))) as (v1 & Ev1 & Bv1).
  destruct (best_lemma f d l m q r eps Hd Hl (continuous_sub _ _ f (fun v => side_sub2 p q r t v Ht) HC) (fun v H => HB v (side_sub2 p q r t v Ht H))) as (v2 & Ev2 & Bv2).
  exists v, v1, v2. repeat split; auto.
  rewrite (surface_cut f p q r t Ht HC) in Bv. fold m in Bv. unfold m in Bv1, Bv2. rewrite area_part1 in Bv1 by lra. rewrite area_part2 in Bv2 by lra. fold m in Bv1, Bv2.
  pose proof (area_pos p q r) as HA. set (A := area p q r) in *. set (W := (weights d + 1) * eps) in *. set (X := Rmax (size l p q m) (size l m q r)).
  assert (B1 : t * A * (W + 4 / 10 ^ 14 * size l p q m) <= t * A * (W + 4 / 10 ^ 14 * X)).
  { apply Rmult_le_compat_l; [apply Rmult_le_pos; lra|]. pose proof (Rmax_l (size l p q m) (size l m q r)). fold X in H. lra. }
  assert (B2 : (1 - t) * A * (W + 4 / 10 ^ 14 * size l m q r) <= (1 - t) * A * (W + 4 / 10 ^ 14 * X)).
  { apply Rmult_le_compat_l; [apply Rmult_le_pos; lra|]. pose proof (Rmax_r (size l p q m) (size l m q r)). fold X in H. lra. }
  replace (A * (2 * (weights d + 1) * eps + 4 / 10 ^ 14 * (size l p q r + X))) with (A * (W + 4 / 10 ^ 14 * size l p q r) + A * (W + 4 / 10 ^ 14 * X)) by (unfold W; ring).
  apply Rabs_le_between in Bv. apply Rabs_le_between in Bv1. apply Rabs_le_between in Bv2. apply Rabs_le. split; lra.
Qed.
Lemma cut_poly : forall d l p q r t, (1 <= d <= 8)%nat -> degree_le d l -> 0 <= t <= 1 -> let m := on_side t p r in
  exists v v1 v2, quadrature (poly3 l) d p q r = Ok v /\ quadrature (poly3 l) d p q m = Ok v1 /\ quadrature (poly3 l) d m q r = Ok v2 /\
    Rabs (v - (v1 + v2)) <= area p q r * (4 / 10 ^ 14 * (size l p q r + Rmax (size l p q m) (size l m q r))).
Proof.
  intros d l p q r t Hd Hl Ht m. destruct (cut_lemma (poly3 l) d l p q r t 0 Hd Hl Ht (ci_poly _ l)) as (v & v1 & v2 & E & E1 & E2 & B).
  - intros v _. rewrite Rminus_diag_eq, Rabs_R0 by reflexivity. lra.
  - exists v, v1, v2. repeat split; auto. rewrite Rmult_0_r, Rplus_0_l in B. exact B.
Qed.
Lemma surface_perm : forall f p q r, continuous_in (inside p q r) f -> surface_integral f p q r = surface_integral f p r q /\ surface_integral f p q r = surface_integral f r q p /\ surface_integral f p q r = surface_integral f q p r.
Proof.
  intros f p q r H. split; [now apply surface_swap|]. split; [now apply surface_turn|].
  rewrite (surface_turn f p q r H). rewrite surface_swap by (apply (continuous_sub _ (inside p q r)); [intros v; apply inside_sub; [apply vert_r|apply vert_q|apply vert_p]|exact H]).
  apply surface_turn. apply (continuous_sub _ (inside p q r)); [intros v; apply inside_sub; [apply vert_r|apply vert_p|apply vert_q]|exact H].
Qed.

(** *** Examples *)
Definition u0 := mkV3 0 0 0. Definition u1 := mkV3 1 0 0. Definition u2 := mkV3 0 1 0.
Lemma u_area : area u0 u1 u2 = 1 / 2.
Proof. exact area_std. Qed.
Lemma ex_cut : exists v v1 v2, quadrature (poly3 [mkM3 1 1 1 0]) 2 u0 u1 u2 = Ok v /\ quadrature (poly3 [mkM3 1 1 1 0]) 2 u0 u1 (mkV3 0 (1 / 3) 0) = Ok v1 /\
  quadrature (poly3 [mkM3 1 1 1 0]) 2 (mkV3 0 (1 / 3) 0) u1 u2 = Ok v2 /\ Rabs (v - (v1 + v2)) <= 1 / 10 ^ 12.
Proof.
  destruct (cut_poly 2 [mkM3 1 1 1 0] u0 u1 u2 (1 / 3)) as (v & v1 & v2 & E & E1 & E2 & B); [lia|constructor; [simpl; lia|constructor]|lra|].
  assert (M : on_side (1 / 3) u0 u2 = mkV3 0 (1 / 3) 0) by (apply vec_eq; unfold on_side, u0, u2; simpl; field). rewrite M in *.
  exists v, v1, v2. repeat split; auto. apply Rle_trans with (1 := B). rewrite u_area.
  unfold size, reach, u0, u1, u2. cbn [fold_right m_c m_i m_j m_k vx vy vz].
  assert (X : Rmax (Rabs 1 * (Rabs 0 + Rabs (1 - 0) + Rabs (0 - 0)) ^ 1 * (Rabs 0 + Rabs (0 - 0) + Rabs (1 / 3 - 0)) ^ 1 * (Rabs 0 + Rabs (0 - 0) + Rabs (0 - 0)) ^ 0 + 0)
    (Rabs 1 * (Rabs 0 + Rabs (1 - 0) + Rabs (0 - 0)) ^ 1 * (Rabs (1 / 3) + Rabs (0 - 1 / 3) + Rabs (1 - 1 / 3)) ^ 1 * (Rabs 0 + Rabs (0 - 0) + Rabs (0 - 0)) ^ 0 + 0) <= 2).
  { apply Rmax_lub; simpl; unfold Rabs; repeat destruct Rcase_abs; lra. }
  assert (Y : Rabs 1 * (Rabs 0 + Rabs (1 - 0) + Rabs (0 - 0)) ^ 1 * (Rabs 0 + Rabs (0 - 0) + Rabs (1 - 0)) ^ 1 * (Rabs 0 + Rabs (0 - 0) + Rabs (0 - 0)) ^ 0 + 0 <= 2).
  { simpl; unfold Rabs; repeat destruct Rcase_abs; lra. }
  lra.
Qed.
Lemma sq_local : locally_polynomial 1 2 (inside u0 u1 u2) (fun v => vx v ^ 2) 1 7.
Proof.
  intros h p q r ((A & _) & (B & _) & C & _) HI. exists [mkM3 (2 * vx p) 1 0 0; mkM3 (- vx p ^ 2) 0 0 0].
  assert (U : forall v, inside p q r v -> 0 <= vx v <= 1). { intros v Hv. destruct (HI v Hv) as (a & b & Ha & Hb & Hab & ->). unfold point, u0, u1, u2. cbn [vx]. lra. }
  assert (P := U p (vert_p p q r)). assert (Q := U q (vert_q p q r)). assert (S := U r (vert_r p q r)).
  split; [repeat constructor|]. split.
  - unfold size. cbn [fold_right m_c m_i m_j m_k pow]. unfold reach.
    assert (X1 : Rabs (vx p) <= 1) by (apply Rabs_le; lra). assert (X2 : Rabs (vx q - vx p) <= 1) by (apply Rabs_le; lra). assert (X3 : Rabs (vx r - vx p) <= 1) by (apply Rabs_le; lra).
    pose proof (Rabs_pos (vx p)). pose proof (Rabs_pos (vx q - vx p)). pose proof (Rabs_pos (vx r - vx p)).
    rewrite Rabs_Ropp, !Rabs_mult, Rabs_R1, (Rabs_right 2) by lra.
    assert (Rabs (vx p) * (Rabs (vx p) + Rabs (vx q - vx p) + Rabs (vx r - vx p)) <= 1 * 3) by (apply Rmult_le_compat; lra).
    assert (Rabs (vx p) * Rabs (vx p) <= 1 * 1) by (apply Rmult_le_compat; lra). lra.
  - intros v Hv. unfold poly3, mono_at. cbn [fold_right m_c m_i m_j m_k pow].
    replace (vx v * (vx v * 1) - _) with ((vx v - vx p) * (vx v - vx p)) by ring. destruct Hv as (a & b & Ha & Hb & Hab & ->). unfold point. cbn [vx].
    set (e := vx p + a * (vx q - vx p) + b * (vx r - vx p) - vx p).
    assert (E : Rabs e <= h).
    { apply Rabs_le_between in A. apply Rabs_le_between in C. assert (0 <= h) by lra. unfold e.
      assert (a * (vx q - vx p) <= a * h) by (apply Rmult_le_compat_l; lra). assert (a * (- h) <= a * (vx q - vx p)) by (apply Rmult_le_compat_l; lra).
      assert (b * (vx r - vx p) <= b * h) by (apply Rmult_le_compat_l; lra). assert (b * (- h) <= b * (vx r - vx p)) by (apply Rmult_le_compat_l; lra).
      assert ((a + b) * h <= 1 * h) by (apply Rmult_le_compat_r; lra). apply Rabs_le. lra. }
    rewrite Rabs_mult. pose proof (Rabs_pos e). assert (Rabs e * Rabs e <= h * h) by (apply Rmult_le_compat; lra). lra.
Qed.
Lemma ex_rate : forall n, exists s, mesh_quadrature (fun v => vx v ^ 2) 1 (refine n [(u0, u1, u2)]) = Ok s /\
  Rabs (s - surface_integral (fun v => vx v ^ 2) u0 u1 u2) <= 11 / 10 / 4 ^ n + 1 / 10 ^ 12.
Proof.
  intros n. destruct (refine_rate (fun v => vx v ^ 2) 1 2 u0 u1 u2 1 7 1 n ltac:(lia) (ci_pow _ _ 2 (ci_x _)) sq_local) as (s & Es & Bs).
  - unfold spans, apart_le, u0, u1, u2. cbn [vx vy vz]. repeat split; unfold Rabs; repeat destruct Rcase_abs; lra.
  - exists s. split; [exact Es|]. apply Rle_trans with (1 := Bs). rewrite u_area.
    assert (P : 0 < 4 ^ n) by (apply pow_lt; lra).
    replace ((1 / 2 ^ n) ^ 2) with (/ 4 ^ n). 2:{ replace 4 with (2 * 2) by ring. rewrite Rpow_mult_distr. simpl. field. apply pow_nonzero. lra. }
    change (weights 1) with (1 + 1 / 10 ^ 13). assert (0 < / 4 ^ n) by now apply Rinv_0_lt_compat.
    replace (11 / 10 / 4 ^ n) with (11 / 10 * / 4 ^ n) by (unfold Rdiv; ring). set (z := / 4 ^ n) in *. clearbody z. lra.
Qed.
Lemma ex_abs_refine : exists N, forall n d, (N <= n)%nat -> (1 <= d <= 8)%nat -> exists s, mesh_quadrature (fun v => Rabs (vx v - 1 / 3)) d (refine n [(u0, u1, u2)]) = Ok s /\
  Rabs (s - surface_integral (fun v => Rabs (vx v - 1 / 3)) u0 u1 u2) <= 1 / 1000.
Proof.
  destruct (refine_converges (fun v => Rabs (vx v - 1 / 3)) u0 u1 u2 1) with (eps := 1 / 1000) as (N & HN).
  - intros v _ eps He. exists eps. split; [exact He|]. intros w _ (C & _). apply Rabs_def2 in C. apply Rabs_le. unfold Rabs. repeat destruct Rcase_abs; lra.
  - intros v (a & b & Ha & Hb & Hab & ->). unfold point, u0, u1, u2. cbn [vx]. rewrite Rabs_Rabsolu. apply Rabs_le. lra.
  - lra.
  - exists N. intros n d Hn Hd. destruct (HN n d Hn Hd) as (s & Es & Bs). exists s. split; [exact Es|]. rewrite u_area in Bs. lra.
Qed.
