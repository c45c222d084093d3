(** Vectors in binary64: norms, normalisation, products. *)
From Coq Require Import List Arith ZArith Reals Bool Lia Lra Psatz.
From Flocq Require Import Core.Core IEEE754.BinarySingleNaN.
From Verif Require Import Outcome Num NumFun F64 M_Basics M_Triangle M_Geometry M_Vec S_Basics S_Vec
  L_F64 L_Linspace64 L_F64Err S_Angles S_Double S_Vec64 L_Series64 L_Interp64 L_Special64 L_Apx L_Sum64.
From Verif Require L_Arange64 L_Sampled64 L_Interp2d64.
Import ListNotations.
Local Open Scope R_scope.

(** ** Square root *)
Lemma sqrt_fin (z : f64) : is_finite z = true -> 0 <= val z -> is_finite (Bsqrt mode_NE z) = true /\ val (Bsqrt mode_NE z) = rnd64 (sqrt (val z)).
Proof.
  intros F P. destruct (Bsqrt_correct 53 1024 _ _ mode_NE z) as (A & B & _). split; [|exact A]. rewrite B.
  destruct z as [|[]| |[] m e H]; try discriminate; auto. exfalso. revert P. simpl. apply Rlt_not_le, F2R_lt_0. reflexivity.
Qed.
Lemma fmt_min x : fmt64 x -> 0 < x -> bpow radix2 (-1074) <= x.
Proof.
  intros H P. assert (A := mag_generic_gt radix2 fexp64 x (Rgt_not_eq _ _ P) H). unfold cexp in A. destruct (mag radix2 x) as (e & He). simpl in A.
  specialize (He (Rgt_not_eq _ _ P)). rewrite Rabs_pos_eq in He by lra. apply Rle_trans with (2 := proj1 He). apply bpow_le.
  unfold SpecFloat.fexp, SpecFloat.emin in A. lia.
Qed.
Lemma sqrt_rel (z : f64) : is_finite z = true -> 0 <= val z ->
  is_finite (Bsqrt mode_NE z) = true /\ Rabs (val (Bsqrt mode_NE z) - sqrt (val z)) <= u53 * sqrt (val z) /\ 0 <= val (Bsqrt mode_NE z).
Proof.
  intros F P. destruct (sqrt_fin z F P) as (A & B). split; [exact A|]. rewrite B. destruct P as [P|P].
  - assert (M := fmt_min _ (fmt64_val z) P).
    assert (S : bpow radix2 (-1022) <= sqrt (val z)).
    { apply Rle_trans with (bpow radix2 (-537)); [apply bpow_le; discriminate|].
      rewrite <- (sqrt_Rsqr (bpow radix2 (-537))) by apply bpow_ge_0. apply sqrt_le_1_alt. unfold Rsqr. rewrite <- bpow_plus. exact M. }
    assert (S0 := sqrt_pos (val z)).
    split; [|apply round_ge_generic; auto with typeclass_instances; [apply generic_format_0]].
    assert (R := rel_err (sqrt (val z))). rewrite (Rabs_pos_eq (sqrt (val z))) in R by exact S0. apply R, S.
  - rewrite <- P, sqrt_0, round_0 by auto with typeclass_instances. rewrite Rminus_0_r, Rabs_R0. lra.
Qed.

Lemma sqrt_near (z Z c : R) : 0 < Z -> 0 <= c <= / 100 -> Rabs (z - Z) <= c * Z -> Rabs (sqrt z - sqrt Z) <= 51 / 100 * c * sqrt Z.
Proof.
  intros HZ Hc H. apply Rabs_le_inv in H. assert (N := sqrt_lt_R0 Z HZ). set (n := sqrt Z) in *.
  assert (ZZ : Z = n * n) by (unfold n; rewrite sqrt_def; lra).
  assert (C : c * Z <= / 100 * Z) by (apply Rmult_le_compat_r; lra).
  assert (L : 99 / 100 * n <= sqrt z).
  { rewrite <- (sqrt_Rsqr (99 / 100 * n)) by lra. apply sqrt_le_1_alt. unfold Rsqr. replace (99 / 100 * n * (99 / 100 * n)) with (9801 / 10000 * Z) by (rewrite ZZ; field). lra. }
  assert (z0 : 0 <= z) by lra. set (s := sqrt z) in *. assert (SS : z = s * s) by (unfold s; rewrite sqrt_def; lra).
  assert (E : (s - n) * (s + n) = z - Z) by (rewrite SS, ZZ; ring).
  assert (AB : Rabs (s - n) * (s + n) <= c * Z).
  { rewrite <- (Rabs_pos_eq (s + n)) by lra. rewrite <- Rabs_mult, E. apply Rabs_le. lra. }
  assert (A0 := Rabs_pos (s - n)).
  assert (Rabs (s - n) * (199 / 100 * n) <= c * Z) by (apply Rle_trans with (2 := AB); apply Rmult_le_compat_l; lra).
  apply Rmult_le_reg_r with (199 / 100 * n); [lra|]. apply Rle_trans with (1 := H0). rewrite ZZ.
  assert (0 <= c * (n * n)) by (apply Rmult_le_pos; [lra|apply Rmult_le_pos; lra]).
  replace (51 / 100 * c * n * (199 / 100 * n)) with (51 * 199 / 10000 * (c * (n * n))) by field. lra.
Qed.

(** ** Sums of squares *)
Definition lim : R := bpow radix2 500.
Lemma lim_pow : 2 ^ 500 = lim.
Proof. symmetry. apply (bpow_powerRZ radix2 500). Qed.
Lemma lim_big : lim * lim = big.
Proof. unfold lim, big. rewrite <- bpow_plus. reflexivity. Qed.
Lemma sq_big x : Rabs x <= lim -> x * x <= big.
Proof. intros H. rewrite <- lim_big. replace (x * x) with (Rabs x * Rabs x) by (rewrite <- Rabs_mult; apply Rabs_pos_eq; nra). apply Rmult_le_compat; auto; apply Rabs_pos. Qed.
Lemma sq_pos x : 0 <= x * x.
Proof. nra. Qed.
Lemma val_mult_pos (x : f64) : is_finite (x *! x) = true -> 0 <= val (x *! x).
Proof.
  intros F. destruct (fin_mult x x F) as (_ & _ & V). change (Bmult mode_NE x x) with (x *! x) in V. rewrite V.
  apply round_ge_generic; auto with typeclass_instances; [apply generic_format_0|apply sq_pos].
Qed.
Lemma sq_ok (x : f64) : is_finite x = true -> Rabs (val x) <= lim ->
  is_finite (x *! x) = true /\ 0 <= val (x *! x) /\ Rabs (val (x *! x) - val x * val x) <= u53 * (val x * val x) + eta64 /\ val (x *! x) <= 2 * big.
Proof.
  intros F H. assert (B := sq_big _ H). assert (P := sq_pos (val x)). assert (BP := big_pos). assert (U := u_tiny). assert (ES := L_Arange64.eta_small).
  destruct (mult_rel x x F F) as (A & E); [rewrite Rabs_pos_eq; lra|]. rewrite (Rabs_pos_eq _ P) in E.
  split; [exact A|]. split; [apply val_mult_pos, A|]. split; [exact E|]. apply Rabs_le_inv in E.
  assert (u53 * (val x * val x) <= / 4 * big) by (apply Rmult_le_compat; lra).
  assert (1 <= big) by (change 1 with (bpow radix2 0); apply bpow_le; discriminate). lra.
Qed.
Lemma val_plus_pos (x y : f64) : is_finite (x +! y) = true -> 0 <= val x -> 0 <= val y -> 0 <= val (x +! y).
Proof.
  intros F X Y. destruct (fin_plus x y F) as (_ & _ & V). change (Bplus mode_NE x y) with (x +! y) in V. rewrite V.
  apply round_ge_generic; auto with typeclass_instances; [apply generic_format_0|lra].
Qed.

Lemma sumsq2_ok (x y : f64) : is_finite x = true -> is_finite y = true -> Rabs (val x) <= lim -> Rabs (val y) <= lim ->
  let z := x *! x +! y *! y in let Z := val x * val x + val y * val y in
  is_finite z = true /\ 0 <= val z /\ Rabs (val z - Z) <= 201 / 100 * u53 * Z + 3 * eta64 /\ val z <= 5 * big.
Proof.
  intros Fx Fy Hx Hy z Z. destruct (sq_ok x Fx Hx) as (Fa & Pa & Ea & Ba). destruct (sq_ok y Fy Hy) as (Fb & Pb & Eb & Bb).
  assert (U := u_tiny). assert (ES := L_Arange64.eta_small). assert (BP := big_pos).
  destruct (plus_rel (x *! x) (y *! y) Fa Fb) as (Fz & Ez); [rewrite Rabs_pos_eq; lra|]. fold z in Fz, Ez.
  assert (Pz : 0 <= val z) by (apply val_plus_pos; auto).
  split; [exact Fz|]. split; [exact Pz|]. rewrite (Rabs_pos_eq (val (x *! x) + val (y *! y))) in Ez by lra.
  assert (Sx := sq_pos (val x)). assert (Sy := sq_pos (val y)). set (a := val (x *! x)) in *. set (b := val (y *! y)) in *.
  apply Rabs_le_inv in Ea. apply Rabs_le_inv in Eb.
  assert (UZ : 0 <= u53 * Z) by (apply Rmult_le_pos; unfold Z; lra).
  assert (UU : u53 * (u53 * Z) <= / 1000 * (u53 * Z)) by (apply Rmult_le_compat_r; lra).
  assert (UE : u53 * eta64 <= / 1000 * eta64) by (apply Rmult_le_compat_r; lra).
  assert (S : u53 * (a + b) <= u53 * ((1 + u53) * Z + 2 * eta64)) by (apply Rmult_le_compat_l; unfold Z; lra).
  split.
  - replace (val z - Z) with ((val z - (a + b)) + (a + b - Z)) by ring. apply Rle_trans with (1 := Rabs_triang _ _).
    assert (Rabs (a + b - Z) <= u53 * Z + 2 * eta64) by (apply Rabs_le; unfold Z; lra). lra.
  - apply Rabs_le_inv in Ez. assert (u53 * (a + b) <= / 4 * (4 * big)) by (apply Rmult_le_compat; lra). lra.
Qed.

Lemma sumsq3_ok (x y w : f64) : is_finite x = true -> is_finite y = true -> is_finite w = true ->
  Rabs (val x) <= lim -> Rabs (val y) <= lim -> Rabs (val w) <= lim ->
  let z := x *! x +! y *! y +! w *! w in let Z := val x * val x + val y * val y + val w * val w in
  is_finite z = true /\ 0 <= val z /\ Rabs (val z - Z) <= 302 / 100 * u53 * Z + 5 * eta64.
Proof.
  intros Fx Fy Fw Hx Hy Hw z Z. destruct (sumsq2_ok x y Fx Fy Hx Hy) as (Fa & Pa & Ea & Ba). destruct (sq_ok w Fw Hw) as (Fb & Pb & Eb & Bb).
  assert (U := u_tiny). assert (ES := L_Arange64.eta_small). assert (BP := big_pos).
  destruct (plus_rel (x *! x +! y *! y) (w *! w) Fa Fb) as (Fz & Ez); [rewrite Rabs_pos_eq; lra|]. fold z in Fz, Ez.
  assert (Pz : 0 <= val z) by (apply val_plus_pos; auto).
  split; [exact Fz|]. split; [exact Pz|]. rewrite (Rabs_pos_eq (val (x *! x +! y *! y) + val (w *! w))) in Ez by lra.
  assert (Sx := sq_pos (val x)). assert (Sy := sq_pos (val y)). assert (Sw := sq_pos (val w)).
  set (a := val (x *! x +! y *! y)) in *. set (b := val (w *! w)) in *.
  set (Z2 := val x * val x + val y * val y) in *. assert (Z2p : 0 <= Z2) by (unfold Z2; lra).
  set (W := val w * val w) in *. assert (ZE : Z = Z2 + W) by reflexivity.
  apply Rabs_le_inv in Ea. apply Rabs_le_inv in Eb.
  assert (U2 : 0 <= u53 * Z2) by (apply Rmult_le_pos; lra). assert (UW : 0 <= u53 * W) by (apply Rmult_le_pos; lra).
  assert (UU2 : u53 * (u53 * Z2) <= / 1000 * (u53 * Z2)) by (apply Rmult_le_compat_r; lra).
  assert (UUW : u53 * (u53 * W) <= / 1000 * (u53 * W)) by (apply Rmult_le_compat_r; lra).
  assert (UE : u53 * eta64 <= / 1000 * eta64) by (apply Rmult_le_compat_r; lra).
  assert (S : u53 * (a + b) <= u53 * (Z2 + 201 / 100 * (u53 * Z2) + 3 * eta64 + (W + u53 * W + eta64))) by (apply Rmult_le_compat_l; lra).
  replace (val z - Z) with ((val z - (a + b)) + (a + b - Z)) by ring. apply Rle_trans with (1 := Rabs_triang _ _).
  assert (Rabs (a + b - Z) <= 201 / 100 * (u53 * Z2) + u53 * W + 4 * eta64) by (apply Rabs_le; rewrite ZE; lra).
  replace (302 / 100 * u53 * Z) with (302 / 100 * (u53 * Z2) + 302 / 100 * (u53 * W)) by (rewrite ZE; ring). lra.
Qed.

(** ** Norm *)
Definition low : R := bpow radix2 (-500).
Lemma low_pow : / 2 ^ 500 = low.
Proof. unfold low. change (-500)%Z with (- (500))%Z. rewrite bpow_opp, (bpow_powerRZ radix2 500). reflexivity. Qed.
Lemma low_eta Z : low * low <= Z -> 1000 * eta64 <= u53 * Z.
Proof.
  intros H. assert (T := eta_tau). assert (TP := tau_pos). assert (U := u_tiny).
  assert (L : tau <= low * low) by (unfold tau, low; rewrite <- bpow_plus; apply bpow_le; discriminate).
  assert (u53 * tau <= u53 * Z) by (apply Rmult_le_compat_l; lra). lra.
Qed.

Lemma norm_gen (z : f64) (Z k : R) : is_finite z = true -> 0 <= val z -> low * low <= Z -> 0 <= k <= 100 ->
  Rabs (val z - Z) <= k * u53 * Z + 5 * eta64 ->
  is_finite (Bsqrt mode_NE z) = true /\ Rabs (val (Bsqrt mode_NE z) - sqrt Z) <= (51 / 100 * k + 102 / 100) * u53 * sqrt Z.
Proof.
  intros F P HL Hk H. assert (E := low_eta Z HL). assert (U := u_tiny).
  assert (LP : 0 < low * low) by (unfold low; rewrite <- bpow_plus; apply bpow_gt_0). assert (ZP : 0 < Z) by lra.
  set (c := (k + / 100) * u53). assert (C : 0 <= c <= / 100).
  { unfold c. split; [apply Rmult_le_pos; lra|]. apply Rle_trans with (101 * u53); [apply Rmult_le_compat_r; lra|lra]. }
  assert (H' : Rabs (val z - Z) <= c * Z).
  { apply Rle_trans with (1 := H). replace (c * Z) with (k * u53 * Z + / 100 * (u53 * Z)) by (unfold c; ring). assert (ES := eta64_pos). lra. }
  assert (N := sqrt_near (val z) Z c ZP C H'). destruct (sqrt_rel z F P) as (A & B & _). split; [exact A|].
  set (s := sqrt (val z)) in *. set (n := sqrt Z) in *. assert (np : 0 < n) by (apply sqrt_lt_R0; lra).
  replace (val (Bsqrt mode_NE z) - n) with ((val (Bsqrt mode_NE z) - s) + (s - n)) by ring. apply Rle_trans with (1 := Rabs_triang _ _).
  assert (N' := N). apply Rabs_le_inv in N'.
  assert (CN : c * n <= / 100 * n) by (apply Rmult_le_compat_r; lra).
  assert (u53 * s <= u53 * (1006 / 1000 * n)) by (apply Rmult_le_compat_l; lra).
  assert (UN : 0 <= u53 * n) by (apply Rmult_le_pos; lra).
  replace (51 / 100 * c * n) with (51 / 100 * k * (u53 * n) + 51 / 10000 * (u53 * n)) in N by (unfold c; field).
  replace ((51 / 100 * k + 102 / 100) * u53 * n) with (51 / 100 * k * (u53 * n) + 102 / 100 * (u53 * n)) by ring. lra.
Qed.

Lemma reach_sq (x y w : R) : (low <= Rabs x \/ low <= Rabs y \/ low <= Rabs w) -> low * low <= x * x + y * y + w * w.
Proof.
  assert (LP : 0 < low) by apply bpow_gt_0.
  assert (Q : forall t, low <= Rabs t -> low * low <= t * t).
  { intros t H. replace (t * t) with (Rabs t * Rabs t) by (rewrite <- Rabs_mult; apply Rabs_pos_eq, sq_pos). apply Rmult_le_compat; lra. }
  assert (A := sq_pos x). assert (B := sq_pos y). assert (C := sq_pos w). intros [H|[H|H]]; apply Q in H; lra.
Qed.

Section V3.
Context (x y w : f64).
Hypothesis Fx : is_finite x = true.
Hypothesis Fy : is_finite y = true.
Hypothesis Fw : is_finite w = true.
Hypothesis Hx : Rabs (val x) <= lim.
Hypothesis Hy : Rabs (val y) <= lim.
Hypothesis Hw : Rabs (val w) <= lim.
Hypothesis HR : low <= Rabs (val x) \/ low <= Rabs (val y) \/ low <= Rabs (val w).
Let z := x *! x +! y *! y +! w *! w.
Let Z := val x * val x + val y * val y + val w * val w.
Let N := sqrt Z.
Let n := Bsqrt mode_NE z.

Lemma v3_norm_rel : is_finite n = true /\ Rabs (val n - N) <= 26 / 10 * u53 * N.
Proof.
  destruct (sumsq3_ok x y w Fx Fy Fw Hx Hy Hw) as (F & P & E).
  destruct (norm_gen z Z (302 / 100) F P (reach_sq _ _ _ HR) ltac:(lra) E) as (A & B). split; [exact A|]. apply Rle_trans with (1 := B).
  assert (0 <= u53 * N) by (apply Rmult_le_pos; [assert (U := u_tiny); lra|apply sqrt_pos]). change (sqrt Z) with N. lra.
Qed.
Lemma v3_N : low <= N /\ N * N = Z /\ 0 < N.
Proof.
  assert (LP : 0 < low) by apply bpow_gt_0. assert (R := reach_sq _ _ _ HR). fold Z in R.
  assert (Z0 : 0 <= Z) by nra. split; [|split].
  - unfold N. rewrite <- (sqrt_Rsqr low) by lra. apply sqrt_le_1_alt. exact R.
  - apply sqrt_def. exact Z0.
  - apply sqrt_lt_R0. nra.
Qed.
Lemma v3_z_pos : nlt (f64_ofZ 0) z = true.
Proof.
  destruct (sumsq3_ok x y w Fx Fy Fw Hx Hy Hw) as (F & P & E). fold z Z in F, P, E. destruct (ofZ_ok 0 ltac:(lia)) as (F0 & V0).
  apply nlt_lt; auto. rewrite V0. assert (U := u_tiny). assert (R := reach_sq _ _ _ HR). fold Z in R. assert (L := low_eta Z R).
  assert (LP : 0 < low * low) by (unfold low; rewrite <- bpow_plus; apply bpow_gt_0). apply Rabs_le_inv in E.
  assert (u53 * Z <= / 1000 * Z) by (apply Rmult_le_compat_r; lra). lra.
Qed.

(** One coordinate of the normalised vector. *)
Lemma coord_rel (t : f64) : is_finite t = true -> Rabs (val t) <= N ->
  is_finite (t /! n) = true /\ Rabs (val (t /! n) - val t / N) <= 37 / 10 * u53 * Rabs (val t / N) + eta64.
Proof.
  intros Ft Ht. destruct v3_norm_rel as (Fn & En). destruct v3_N as (NL & _ & NP). assert (U := u_tiny). assert (LP : 0 < low) by apply bpow_gt_0.
  assert (En' := En). apply Rabs_le_inv in En'. assert (UN : 0 <= u53 * N <= / 1000000 * N) by (split; [apply Rmult_le_pos; lra|apply Rmult_le_compat_r; lra]).
  assert (np : 999 / 1000 * N <= val n) by lra. assert (n0 : 0 < val n) by lra.
  set (q := val t / N). set (r := val t / val n).
  assert (q1 : Rabs q <= 1).
  { unfold q, Rdiv. rewrite Rabs_mult, Rabs_inv, (Rabs_pos_eq N) by lra. apply Rmult_le_reg_r with N; [exact NP|]. rewrite Rmult_assoc, Rinv_l, Rmult_1_r, Rmult_1_l by lra. exact Ht. }
  assert (D : Rabs (r - q) <= 2603 / 1000 * u53 * Rabs q).
  { replace (r - q) with (q * ((N - val n) * / val n)) by (unfold r, q; field; lra). rewrite Rabs_mult, Rmult_comm. apply Rmult_le_compat_r; [apply Rabs_pos|].
    rewrite Rabs_mult, Rabs_inv, (Rabs_pos_eq (val n)) by lra. rewrite Rabs_minus_sym. apply Rmult_le_reg_r with (val n); [exact n0|].
    rewrite Rmult_assoc, Rinv_l, Rmult_1_r by lra. apply Rle_trans with (1 := En).
    assert (2603 / 1000 * u53 * (999 / 1000 * N) <= 2603 / 1000 * u53 * val n) by (apply Rmult_le_compat_l; lra). lra. }
  assert (Q0 := Rabs_pos q). assert (UQ : 0 <= u53 * Rabs q <= / 1000000 * Rabs q) by (split; [apply Rmult_le_pos; lra|apply Rmult_le_compat_r; lra]).
  assert (Ar : Rabs r <= 1001 / 1000 * Rabs q).
  { replace r with ((r - q) + q) by ring. apply Rle_trans with (1 := Rabs_triang _ _). lra. }
  destruct (L_Sampled64.div_rel t n Ft Fn) as (F & E); [lra| |].
  { fold r. assert (1 <= big) by (change 1 with (bpow radix2 0); apply bpow_le; discriminate). lra. }
  fold r in E. split; [exact F|]. replace (val (t /! n) - q) with ((val (t /! n) - r) + (r - q)) by ring.
  apply Rle_trans with (1 := Rabs_triang _ _).
  assert (u53 * Rabs r <= u53 * (1001 / 1000 * Rabs q)) by (apply Rmult_le_compat_l; lra). lra.
Qed.
Lemma coord_le : Rabs (val x) <= N /\ Rabs (val y) <= N /\ Rabs (val w) <= N.
Proof.
  assert (A := sq_pos (val x)). assert (B := sq_pos (val y)). assert (C := sq_pos (val w)).
  assert (Q : forall t, t * t <= Z -> Rabs t <= N).
  { intros t H. unfold N. rewrite <- (sqrt_Rsqr (Rabs t)) by apply Rabs_pos. apply sqrt_le_1_alt. unfold Rsqr. rewrite <- Rabs_mult, Rabs_pos_eq by apply sq_pos. exact H. }
  repeat split; apply Q; unfold Z; lra.
Qed.
End V3.

(** Square of a perturbed coordinate. *)
Lemma sq_perturb r q k : 0 <= k <= 10 -> Rabs q <= 1 -> Rabs (r - q) <= k * u53 * Rabs q + eta64 ->
  Rabs (r * r - q * q) <= 201 / 100 * k * u53 * (q * q) + 3 * eta64.
Proof.
  intros Hk Hq H. assert (U := u_tiny). assert (ES := L_Arange64.eta_small). assert (Q0 := Rabs_pos q).
  set (d := r - q) in *. replace (r * r - q * q) with (2 * (q * d) + d * d) by (unfold d; ring).
  assert (A : Rabs (2 * (q * d)) = 2 * (Rabs q * Rabs d)) by (rewrite !Rabs_mult, (Rabs_pos_eq 2) by lra; ring).
  assert (B : Rabs (d * d) = Rabs d * Rabs d) by apply Rabs_mult.
  apply Rle_trans with (1 := Rabs_triang _ _). rewrite A, B. set (c := Rabs q) in *. set (e := Rabs d) in *.
  assert (CC : q * q = c * c) by (unfold c; rewrite <- Rabs_mult; symmetry; apply Rabs_pos_eq, sq_pos). rewrite CC.
  assert (E0 : 0 <= e) by apply Rabs_pos.
  assert (KU : 0 <= k * u53 <= / 1000000) by (split; [apply Rmult_le_pos; lra|]; apply Rle_trans with (10 * u53); [apply Rmult_le_compat_r|]; lra).
  assert (P1 : c * e <= c * (k * u53 * c + eta64)) by (apply Rmult_le_compat_l; lra).
  assert (KC : 0 <= k * u53 * c) by (apply Rmult_le_pos; lra).
  assert (P2 : e * e <= (k * u53 * c + eta64) * (k * u53 * c + eta64)) by (apply Rmult_le_compat; lra).
  set (m := k * u53) in *. assert (C2 : 0 <= c * c) by (apply Rmult_le_pos; lra).
  assert (MC : 0 <= m * (c * c)) by (apply Rmult_le_pos; lra).
  assert (M1 : m * (m * (c * c)) <= / 1000000 * (m * (c * c))) by (apply Rmult_le_compat_r; lra).
  assert (CE : c * eta64 <= 1 * eta64) by (apply Rmult_le_compat_r; lra).
  assert (EE : eta64 * eta64 <= / 1000 * eta64) by (apply Rmult_le_compat_r; lra).
  assert (MCE : m * (c * eta64) <= / 1000000 * (1 * eta64)) by (apply Rmult_le_compat; try lra; apply Rmult_le_pos; lra).
  replace (c * (m * c + eta64)) with (m * (c * c) + c * eta64) in P1 by ring.
  replace ((m * c + eta64) * (m * c + eta64)) with (m * (m * (c * c)) + 2 * (m * (c * eta64)) + eta64 * eta64) in P2 by ring.
  replace (201 / 100 * k * u53 * (c * c)) with (201 / 100 * (m * (c * c))) by (unfold m; ring). lra.
Qed.

(** ** Reading the specification *)
Lemma b3 v : bounded3 (2 ^ 500) v -> (is_finite (vx v) = true /\ is_finite (vy v) = true /\ is_finite (vz v) = true) /\
  Rabs (val (vx v)) <= lim /\ Rabs (val (vy v)) <= lim /\ Rabs (val (vz v)) <= lim.
Proof.
  intros H. unfold bounded3, coords3 in H. rewrite lim_pow in H. inversion H as [|? ? (A & B) H1]; subst. inversion H1 as [|? ? (C & D) H2]; subst.
  inversion H2 as [|? ? (F & G) H3]; subst. repeat split; assumption.
Qed.
Lemma r3 v : reaches3 (/ 2 ^ 500) v -> low <= Rabs (val (vx v)) \/ low <= Rabs (val (vy v)) \/ low <= Rabs (val (vz v)).
Proof.
  intros H. unfold reaches3, coords3 in H. rewrite low_pow in H. inversion H as [? ? A|? ? H1]; subst; [left; exact A|right].
  inversion H1 as [? ? A|? ? H2]; subst; [left; exact A|right]. inversion H2 as [? ? A|? ? H3]; subst; [exact A|inversion H3].
Qed.
Lemma b3_intro v : is_finite (vx v) = true -> is_finite (vy v) = true -> is_finite (vz v) = true ->
  Rabs (val (vx v)) <= 2 -> Rabs (val (vy v)) <= 2 -> Rabs (val (vz v)) <= 2 -> bounded3 (2 ^ 500) v.
Proof.
  intros. unfold bounded3, coords3. rewrite lim_pow. assert (2 <= lim) by (change 2 with (bpow radix2 1); apply bpow_le; discriminate).
  constructor; [|constructor; [|constructor; [|constructor]]]; unfold dvalue; split; auto; lra.
Qed.

Lemma norm_double_lemma : forall (TT : NumTr f64), ieee_sqrt TT -> forall v, bounded3 (2 ^ 500) v -> reaches3 (/ 2 ^ 500) v ->
  is_finite (v3_norm v) = true /\ Rabs (dvalue (v3_norm v) - norm3 (dvec3 v)) <= 3 * uround * norm3 (dvec3 v).
Proof.
  intros TT HT v HB HR. destruct (b3 v HB) as ((Fx & Fy & Fz) & Hx & Hy & Hz). apply r3 in HR.
  unfold v3_norm. rewrite HT. destruct (v3_norm_rel _ _ _ Fx Fy Fz Hx Hy Hz HR) as (A & B). split; [exact A|].
  unfold dvalue, norm3, dot3, dvec3 in *. cbn [vx vy vz] in *. change uround with u53. apply Rle_trans with (1 := B).
  set (N := sqrt _). assert (0 <= u53 * N) by (apply Rmult_le_pos; [assert (U := u_tiny); lra|apply sqrt_pos]). lra.
Qed.

(** ** Normalize *)
Definition fz3 (v : vec3 f64) : f64 := vx v *! vx v +! vy v *! vy v +! vz v *! vz v.
Lemma Normalize_f (TT : NumTr f64) : ieee_sqrt TT -> forall v, Normalize v =
  if nlt f0 (fz3 v) then mkV3 (vx v /! Bsqrt mode_NE (fz3 v)) (vy v /! Bsqrt mode_NE (fz3 v)) (vz v /! Bsqrt mode_NE (fz3 v)) else v.
Proof. intros HT v. unfold Normalize. cbv zeta. rewrite HT. reflexivity. Qed.
Section Nrm.
Context (TT : NumTr f64) (HT : ieee_sqrt TT) (v : vec3 f64) (HB : bounded3 (2 ^ 500) v) (HR : reaches3 (/ 2 ^ 500) v).
Let N := norm3 (dvec3 v).
Let w := Normalize v.

Lemma nrm_coord : each3 (fun r x => is_finite r = true /\ Rabs (val r - val x / N) <= 37 / 10 * u53 * Rabs (val x / N) + eta64 /\ Rabs (val x / N) <= 1) w v /\
  val (vx v) / N * (val (vx v) / N) + val (vy v) / N * (val (vy v) / N) + val (vz v) / N * (val (vz v) / N) = 1.
Proof.
  destruct (b3 v HB) as ((Fx & Fy & Fz) & Hx & Hy & Hz). assert (HR' := r3 v HR).
  assert (P := v3_z_pos _ _ _ Fx Fy Fz Hx Hy Hz HR').
  destruct (v3_N _ _ _ HR') as (NL & NN & NP). destruct (coord_le (vx v) (vy v) (vz v)) as (Cx & Cy & Cz).
  assert (Q : forall t, Rabs t <= N -> Rabs (t / N) <= 1).
  { intros t H. unfold Rdiv. change (0 < N) in NP. rewrite Rabs_mult, Rabs_inv, (Rabs_pos_eq N) by lra. apply Rmult_le_reg_r with N; [exact NP|]. rewrite Rmult_assoc, Rinv_l, Rmult_1_r, Rmult_1_l by lra. exact H. }
  split.
  - unfold w. rewrite Normalize_f by exact HT. unfold fz3. rewrite P. unfold each3. cbn [vx vy vz].
    destruct (coord_rel _ _ _ Fx Fy Fz Hx Hy Hz HR' _ Fx Cx) as (A1 & A2).
    destruct (coord_rel _ _ _ Fx Fy Fz Hx Hy Hz HR' _ Fy Cy) as (B1 & B2).
    destruct (coord_rel _ _ _ Fx Fy Fz Hx Hy Hz HR' _ Fz Cz) as (D1 & D2).
    repeat split; auto.
  - change (0 < N) in NP. replace (val (vx v) / N * (val (vx v) / N) + val (vy v) / N * (val (vy v) / N) + val (vz v) / N * (val (vz v) / N))
      with ((val (vx v) * val (vx v) + val (vy v) * val (vy v) + val (vz v) * val (vz v)) / (N * N)) by (field; lra).
    rewrite <- NN. change (N * N / (N * N) = 1). field. lra.
Qed.
Lemma nrm_norm : Rabs (norm3 (dvec3 w) - 1) <= 4 * u53.
Proof.
  destruct nrm_coord as (((_ & Ex & Bx) & (_ & Ey & By) & (_ & Ez & Bz)) & S1).
  apply sq_perturb in Ex; [|lra|exact Bx]. apply sq_perturb in Ey; [|lra|exact By]. apply sq_perturb in Ez; [|lra|exact Bz].
  assert (U := u_tiny). assert (ES := L_Arange64.eta_small).
  set (qx := val (vx v) / N) in *. set (qy := val (vy v) / N) in *. set (qz := val (vz v) / N) in *.
  set (W := dot3 (dvec3 w) (dvec3 w)).
  assert (D : Rabs (W - 1) <= 75 / 10 * u53 * 1).
  { apply Rabs_le. apply Rabs_le_inv in Ex. apply Rabs_le_inv in Ey. apply Rabs_le_inv in Ez.
    assert (E : W = val (vx w) * val (vx w) + val (vy w) * val (vy w) + val (vz w) * val (vz w)) by reflexivity.
    assert (u53 * (qx * qx) + u53 * (qy * qy) + u53 * (qz * qz) = u53) by (rewrite <- (Rmult_1_r u53) at 4; rewrite <- S1; ring).
    assert (201 / 100 * (37 / 10) * u53 * (qx * qx) + 201 / 100 * (37 / 10) * u53 * (qy * qy) + 201 / 100 * (37 / 10) * u53 * (qz * qz) = 7437 / 1000 * u53).
    { transitivity (7437 / 1000 * (u53 * (qx * qx) + u53 * (qy * qy) + u53 * (qz * qz))); [field|]. rewrite H. reflexivity. }
    rewrite E. lra. }
  apply sqrt_near in D; [|lra|lra]. rewrite sqrt_1 in D. unfold norm3. fold W. lra.
Qed.
Lemma nrm_bounded : bounded3 (2 ^ 500) w /\ reaches3 (/ 2 ^ 500) w.
Proof.
  assert (NN := nrm_norm). destruct nrm_coord as (((F1 & Ex & Bx) & (F2 & Ey & By) & (F3 & Ez & Bz)) & S1).
  assert (U := u_tiny). assert (ES := L_Arange64.eta_small).
  assert (Q : forall r q, Rabs (r - q) <= 37 / 10 * u53 * Rabs q + eta64 -> Rabs q <= 1 -> Rabs r <= 2).
  { intros r q H H1. replace r with ((r - q) + q) by ring. apply Rle_trans with (1 := Rabs_triang _ _).
    assert (u53 * Rabs q <= / 1000 * 1) by (apply Rmult_le_compat; try lra; apply Rabs_pos). lra. }
  split; [apply b3_intro; eauto|].
  unfold reaches3, coords3. rewrite low_pow. assert (LL : 0 < low <= / 4).
  { split; [apply bpow_gt_0|]. apply Rle_trans with (bpow radix2 (-2)); [apply bpow_le; discriminate|]. right. simpl. lra. }
  destruct (Rle_or_lt low (Rabs (val (vx w)))) as [H|H1]; [apply Exists_cons_hd, H|apply Exists_cons_tl].
  destruct (Rle_or_lt low (Rabs (val (vy w)))) as [H|H2]; [apply Exists_cons_hd, H|apply Exists_cons_tl].
  destruct (Rle_or_lt low (Rabs (val (vz w)))) as [H|H3]; [apply Exists_cons_hd, H|exfalso].
  assert (SQ : forall t, Rabs t < low -> t * t <= / 16).
  { intros t H. replace (t * t) with (Rabs t * Rabs t) by (rewrite <- Rabs_mult; apply Rabs_pos_eq, sq_pos). replace (/ 16) with (/ 4 * / 4) by field.
    assert (P := Rabs_pos t). apply Rmult_le_compat; lra. }
  apply SQ in H1. apply SQ in H2. apply SQ in H3.
  assert (norm3 (dvec3 w) <= / 2).
  { unfold norm3. rewrite <- (sqrt_Rsqr (/ 2)) by lra. apply sqrt_le_1_alt. unfold Rsqr, dot3, dvec3, dvalue. cbn [vx vy vz]. lra. }
  apply Rabs_le_inv in NN. lra.
Qed.
Lemma nrm_isunit : IsUnit w = true.
Proof.
  destruct nrm_bounded as (B & R). destruct (norm_double_lemma TT HT w B R) as (F & E). assert (NN := nrm_norm).
  assert (U := u_tiny). assert (ES := L_Arange64.eta_small). unfold IsUnit.
  destruct (ofZ_ok 1 ltac:(lia)) as (F1 & V1).
  assert (T5 : is_finite (nlit 1 100000 : f64) = true /\ / 200000 <= val (nlit 1 100000 : f64) <= 1).
  { destruct (ofZ_ok 100000 ltac:(lia)) as (G1 & G2). destruct (L_Sampled64.div_rel (f64_ofZ 1) (f64_ofZ 100000) F1 G1) as (A & D); [rewrite G2; lra| |].
    - rewrite V1, G2. rewrite Rabs_pos_eq by lra. assert (1 <= big) by (change 1 with (bpow radix2 0); apply bpow_le; discriminate). lra.
    - split; [exact A|]. rewrite V1, G2 in D. rewrite (Rabs_pos_eq (1 / 100000)) in D by lra. apply Rabs_le_inv in D.
      change (nlit 1 100000 : f64) with (f64_ofZ 1 /! f64_ofZ 100000). lra. }
  assert (T8 : is_finite (nlit 1 100000000 : f64) = true /\ 0 <= val (nlit 1 100000000 : f64) <= 1).
  { destruct (ofZ_ok 100000000 ltac:(lia)) as (G1 & G2). destruct (L_Sampled64.div_rel (f64_ofZ 1) (f64_ofZ 100000000) F1 G1) as (A & D); [rewrite G2; lra| |].
    - rewrite V1, G2. rewrite Rabs_pos_eq by lra. assert (1 <= big) by (change 1 with (bpow radix2 0); apply bpow_le; discriminate). lra.
    - split; [exact A|]. rewrite V1, G2 in D. rewrite (Rabs_pos_eq (1 / 100000000)) in D by lra. apply Rabs_le_inv in D.
      change (nlit 1 100000000 : f64) with (f64_ofZ 1 /! f64_ofZ 100000000). lra. }
  destruct T5 as (F5 & V5). destruct T8 as (F8 & V8). unfold dvalue in *. change uround with u53 in E.
  assert (P : 1 <= 2 ^ 1000) by (apply pow_R1_Rle; lra). assert (P2 : 2 <= 2 ^ 1000) by (rewrite <- (pow_1 2) at 1; apply Rle_pow; [lra|lia]).
  apply Rabs_le_inv in NN.
  assert (UN : u53 * norm3 (dvec3 w) <= u53 * 2) by (apply Rmult_le_compat_l; lra).
  assert (E' := E). apply Rabs_le_inv in E'.
  refine (proj2 (isclose_double_lemma (v3_norm w) (nofZ 1) (nlit 1 100000) (nlit 1 100000000) F F1 F5 F8 _ _ _ _) _); unfold dvalue.
  - apply Rabs_le. lra.
  - change (nofZ 1 : f64) with (f64_ofZ 1). rewrite V1, Rabs_pos_eq; lra.
  - lra.
  - lra.
  - change (nofZ 1 : f64) with (f64_ofZ 1). rewrite V1. change uround with u53. rewrite uflow_eta. rewrite (Rabs_pos_eq 1) by lra.
    set (t := val (nlit 1 100000000) + val (nlit 1 100000) * 1). assert (Ht : / 200000 <= t) by (unfold t; lra).
    assert (u53 * t <= / 1000 * t) by (apply Rmult_le_compat_r; lra). apply Rabs_le. lra.
Qed.
End Nrm.

Lemma normalize_double_lemma : forall (TT : NumTr f64), ieee_sqrt TT -> forall v, bounded3 (2 ^ 500) v -> reaches3 (/ 2 ^ 500) v ->
  each3 (fun r x => is_finite r = true /\ Rabs (dvalue r - dvalue x / norm3 (dvec3 v)) <= 4 * uround * Rabs (dvalue x / norm3 (dvec3 v)) + uflow) (Normalize v) v /\
  Rabs (norm3 (dvec3 (Normalize v)) - 1) <= 4 * uround /\ IsUnit (Normalize v) = true.
Proof.
  intros TT HT v HB HR. split; [|split; [exact (nrm_norm TT HT v HB HR)|exact (nrm_isunit TT HT v HB HR)]].
  destruct (nrm_coord TT HT v HB HR) as ((X & Y & Z) & _). rewrite uflow_eta. change uround with u53. assert (U := u_tiny).
  assert (G : forall (r x : f64), is_finite r = true /\ Rabs (val r - val x / norm3 (dvec3 v)) <= 37 / 10 * u53 * Rabs (val x / norm3 (dvec3 v)) + eta64 /\
    Rabs (val x / norm3 (dvec3 v)) <= 1 -> is_finite r = true /\ Rabs (dvalue r - dvalue x / norm3 (dvec3 v)) <= 4 * u53 * Rabs (dvalue x / norm3 (dvec3 v)) + eta64).
  { intros r x (A & B & _). split; [exact A|]. apply Rle_trans with (1 := B). unfold dvalue.
    assert (0 <= u53 * Rabs (val x / norm3 (dvec3 v))) by (apply Rmult_le_pos; [lra|apply Rabs_pos]). lra. }
  split; [|split]; apply G; assumption.
Qed.

(** ** Underflow and overflow in Normalize *)
Lemma rnd_tiny t : 0 <= t <= bpow radix2 (-1076) -> rnd64 t = 0.
Proof.
  intros H. assert (E := L_F64Err.rnd_err t). rewrite (Rabs_pos_eq t) in E by lra. assert (U := u_tiny).
  assert (P : 0 <= rnd64 t) by (apply round_ge_generic; auto with typeclass_instances; [apply generic_format_0|lra]).
  destruct P as [P|P]; [|symmetry; exact P]. exfalso.
  assert (M := fmt_min (rnd64 t) (generic_format_round _ _ _ _) P). apply Rabs_le_inv in E.
  assert (ET : eta64 = / 2 * bpow radix2 (-1074)) by reflexivity. assert (B0 := bpow_gt_0 radix2 (-1076)).
  assert (B1 : bpow radix2 (-1075) = 2 * bpow radix2 (-1076)) by (change (-1075)%Z with (1 + -1076)%Z; rewrite bpow_plus; reflexivity).
  assert (B2 : bpow radix2 (-1074) = 2 * (2 * bpow radix2 (-1076))) by (change (-1074)%Z with (1 + -1075)%Z; rewrite bpow_plus, B1; reflexivity).
  assert (u53 * t <= / 2 * bpow radix2 (-1076)) by (apply Rmult_le_compat; lra). lra.
Qed.
Lemma tiny_sq (x : f64) : is_finite x = true -> Rabs (val x) <= / 2 ^ 538 -> is_finite (x *! x) = true /\ val (x *! x) = 0.
Proof.
  intros F H. assert (E : / 2 ^ 538 = bpow radix2 (-538)) by (change (-538)%Z with (- (538))%Z; rewrite bpow_opp, (bpow_powerRZ radix2 538); reflexivity).
  rewrite E in H. assert (S : 0 <= val x * val x <= bpow radix2 (-1076)).
  { split; [apply sq_pos|]. change (-1076)%Z with (-538 + -538)%Z. rewrite bpow_plus.
    replace (val x * val x) with (Rabs (val x) * Rabs (val x)) by (rewrite <- Rabs_mult; apply Rabs_pos_eq, sq_pos). apply Rmult_le_compat; auto; apply Rabs_pos. }
  destruct (mult_ok x x F F) as (A & B).
  - apply big_over. rewrite Rabs_pos_eq by lra. assert (bpow radix2 (-1076) <= big) by (apply bpow_le; discriminate). assert (BP := big_pos). lra.
  - split; [exact A|]. rewrite B. apply rnd_tiny, S.
Qed.

Lemma Rabs_eq_0_ x : Rabs x = 0 -> x = 0.
Proof. intros H. destruct (Req_dec x 0) as [E|E]; [exact E|]. apply Rabs_no_R0 in E. contradiction. Qed.
Lemma plus_zero (x y : f64) : is_finite x = true -> is_finite y = true -> val x = 0 -> val y = 0 -> is_finite (x +! y) = true /\ val (x +! y) = 0.
Proof.
  intros F G X Y. destruct (plus_rel x y F G) as (A & B).
  { rewrite X, Y, Rplus_0_r, Rabs_R0. assert (BP := big_pos). lra. }
  split; [exact A|]. rewrite X, Y, Rplus_0_r, Rabs_R0, Rmult_0_r, Rminus_0_r in B. assert (P := Rabs_pos (val (x +! y))).
  apply Rabs_eq_0_. lra.
Qed.
Lemma normalize_tiny_lemma : forall (TT : NumTr f64) v, bounded3 (/ 2 ^ 538) v -> Normalize v = v.
Proof.
  intros TT v H. unfold bounded3, coords3 in H. inversion H as [|? ? (A & B) H1]; subst. inversion H1 as [|? ? (C & D) H2]; subst.
  inversion H2 as [|? ? (F & G) H3]; subst. destruct (tiny_sq _ A B) as (A1 & A2). destruct (tiny_sq _ C D) as (C1 & C2). destruct (tiny_sq _ F G) as (F1 & F2).
  destruct (plus_zero _ _ A1 C1 A2 C2) as (S1 & S2). destruct (plus_zero _ _ S1 F1 S2 F2) as (T1 & T2).
  unfold Normalize. cbv zeta. destruct (ofZ_ok 0 ltac:(lia)) as (Z1 & Z2).
  assert (L : nlt (nofZ 0) (vx v *! vx v +! vy v *! vy v +! vz v *! vz v) = false).
  { apply nlt_ge; auto. change (nofZ 0 : f64) with (f64_ofZ 0). rewrite Z2, T2. lra. }
  match goal with |- (if ?c then _ else _) = _ => replace c with false by (symmetry; exact L) end. reflexivity.
Qed.
Lemma normalize_nan_lemma : forall (TT : NumTr f64) v, Exists (fun x => is_nan x = true) (coords3 v) -> Normalize v = v.
Proof.
  intros TT [x y z] H. unfold Normalize. cbv zeta. cbn [vx vy vz].
  assert (E : (nmul x x + nmul y y + nmul z z)%num = B754_nan).
  { change (x *! x +! y *! y +! z *! z = B754_nan). unfold coords3 in H. cbn [vx vy vz] in H.
    inversion H as [? ? A|? ? H1]; subst; [|inversion H1 as [? ? A|? ? H2]; subst; [|inversion H2 as [? ? A|? ? H3]; subst; [|inversion H3]]];
    apply is_nan_eq in A; subst; rewrite mult_nan_r, ?L_Interp2d64.plus_nan_r, ?plus_nan_l; reflexivity. }
  rewrite E. rewrite nlt_nan_r. reflexivity.
Qed.

(** Finite with a clear sign bit, or plus infinity. *)
Definition upos (t : f64) : Prop := t = B754_infinity false \/ is_finite t = true /\ Bsign t = false.
Lemma SF_inf (t : f64) : B2SF t = SpecFloat.S754_infinity false -> t = B754_infinity false.
Proof. destruct t as [|[]| |]; try discriminate; reflexivity. Qed.
Lemma upos_sq (x : f64) : is_finite x = true -> upos (x *! x).
Proof.
  intros F. assert (C := Bmult_correct 53 1024 _ _ mode_NE x x). destruct (Rlt_bool _ _).
  - destruct C as (_ & A & B). right. rewrite F in A. split; [exact A|]. rewrite B, xorb_nilpotent; [reflexivity|].
    change (is_nan (x *! x) = false). destruct (x *! x); simpl in *; try reflexivity; try discriminate.
  - left. rewrite xorb_nilpotent in C. apply SF_inf. exact C.
Qed.
Lemma upos_plus (a b : f64) : upos a -> upos b -> upos (a +! b) /\ (a = B754_infinity false \/ b = B754_infinity false -> a +! b = B754_infinity false).
Proof.
  intros [A|(A & A')] [B|(B & B')].
  - subst. split; [left|intros _]; reflexivity.
  - subst a. assert (E : (B754_infinity false : f64) +! b = B754_infinity false) by (destruct b; try discriminate; reflexivity). split; [left|intros _]; exact E.
  - subst b. assert (E : a +! (B754_infinity false : f64) = B754_infinity false) by (destruct a; try discriminate; reflexivity). split; [left|intros _]; exact E.
  - split; [|intros [E|E]; subst; discriminate].
    assert (C := Bplus_correct 53 1024 _ _ mode_NE a b A B). destruct (Rlt_bool _ _).
    + destruct C as (_ & C1 & C2). right. split; [exact C1|]. rewrite C2, A', B'.
      assert (PA : 0 <= val a) by (destruct a as [|[]| |[] m e H]; try discriminate; simpl; [lra|apply F2R_ge_0; discriminate]).
      assert (PB : 0 <= val b) by (destruct b as [|[]| |[] m e H]; try discriminate; simpl; [lra|apply F2R_ge_0; discriminate]).
      destruct (Rcompare_spec (B2R a + B2R b) 0); try reflexivity. exfalso. lra.
    + left. apply SF_inf. destruct C as (C1 & _). rewrite A' in C1. exact C1.
Qed.
Lemma sq_overflow (x : f64) : is_finite x = true -> 2 ^ 512 <= Rabs (val x) -> x *! x = B754_infinity false.
Proof.
  intros F H. assert (E : 2 ^ 512 = bpow radix2 512) by (symmetry; apply (bpow_powerRZ radix2 512)). rewrite E in H.
  assert (C := Bmult_correct 53 1024 _ _ mode_NE x x). rewrite Rlt_bool_false in C.
  - rewrite xorb_nilpotent in C. apply SF_inf, C.
  - change (bpow radix2 1024 <= Rabs (rnd64 (val x * val x))). rewrite Rabs_pos_eq.
    2: { apply round_ge_generic; auto with typeclass_instances; [apply generic_format_0|apply sq_pos]. }
    apply round_ge_generic; auto with typeclass_instances; [apply generic_format_bpow; unfold SpecFloat.fexp, SpecFloat.emin; lia|].
    replace (bpow radix2 1024) with (bpow radix2 512 * bpow radix2 512) by (rewrite <- bpow_plus; reflexivity). replace (val x * val x) with (Rabs (val x) * Rabs (val x)) by (rewrite <- Rabs_mult; apply Rabs_pos_eq, sq_pos).
    assert (P := bpow_ge_0 radix2 512). apply Rmult_le_compat; auto.
Qed.
Lemma div_inf (t : f64) : is_finite t = true -> is_finite (t /! B754_infinity false) = true /\ val (t /! B754_infinity false) = 0.
Proof. destruct t; try discriminate; intros _; split; reflexivity. Qed.
Lemma normalize_overflow_lemma : forall (TT : NumTr f64), ieee_sqrt TT -> forall v, Forall (fun x => is_finite x = true) (coords3 v) ->
  reaches3 (2 ^ 512) v -> Forall (fun x => is_finite x = true /\ dvalue x = 0) (coords3 (Normalize v)).
Proof.
  intros TT HT v FF HR. unfold coords3 in FF. inversion FF as [|? ? A H1]; subst. inversion H1 as [|? ? B H2]; subst. inversion H2 as [|? ? C H3]; subst.
  assert (E : fz3 v = B754_infinity false).
  { unfold fz3. destruct (upos_plus _ _ (upos_sq _ A) (upos_sq _ B)) as (U1 & U2). destruct (upos_plus _ _ U1 (upos_sq _ C)) as (_ & U3).
    apply U3. unfold reaches3, coords3 in HR. inversion HR as [? ? R|? ? R1]; subst; [left; apply U2; left; apply sq_overflow; auto|].
    inversion R1 as [? ? R|? ? R2]; subst; [left; apply U2; right; apply sq_overflow; auto|].
    inversion R2 as [? ? R|? ? R3]; subst; [right; apply sq_overflow; auto|inversion R3]. }
  rewrite Normalize_f by exact HT. rewrite E. change (nlt f0 (B754_infinity false)) with true.
  change (Bsqrt mode_NE (B754_infinity false : f64)) with (B754_infinity false : f64). cbn [coords3 vx vy vz].
  repeat constructor; apply div_inf; assumption.
Qed.

(** Powers of two as doubles. *)
Definition two_to (e : Z) : f64 := binary_normalize 53 1024 _ _ mode_NE 1 e false.
Lemma two_to_ok e : (-1074 <= e <= 1023)%Z -> is_finite (two_to e) = true /\ val (two_to e) = bpow radix2 e.
Proof.
  intros H. assert (C := binary_normalize_correct 53 1024 _ _ mode_NE 1 e false). fold (two_to e) in C.
  assert (E : F2R (Float radix2 1 e) = bpow radix2 e) by apply F2R_bpow.
  assert (R : rnd64 (bpow radix2 e) = bpow radix2 e).
  { apply round_generic; auto with typeclass_instances. apply generic_format_bpow. unfold SpecFloat.fexp, SpecFloat.emin. lia. }
  cbv zeta in C. rewrite E in C. change (round radix2 (SpecFloat.fexp 53 1024) (round_mode mode_NE) (bpow radix2 e)) with (rnd64 (bpow radix2 e)) in C.
  rewrite R in C. rewrite Rlt_bool_true in C; [split; apply C|].
  rewrite Rabs_pos_eq by apply bpow_ge_0. apply bpow_lt. lia.
Qed.
Lemma norm3_axis a : norm3 (mkV3 a 0 0) = Rabs a.
Proof. unfold norm3, dot3. cbn [vx vy vz]. rewrite Rmult_0_l, !Rplus_0_r. apply sqrt_Rsqr_abs. Qed.
Lemma bounded3_axis a M : is_finite a = true -> Rabs (val a) <= M -> 0 <= M -> bounded3 M (mkV3 a f0 f0).
Proof.
  intros F H P. unfold bounded3, coords3. cbn [vx vy vz]. constructor; [split; assumption|].
  constructor; [|constructor; [|constructor]]; (split; [reflexivity|]); change (dvalue f0) with 0; rewrite Rabs_R0; exact P.
Qed.
Lemma normalize_refuted_pf : forall TT : NumTr f64, ieee_sqrt TT ->
  (exists v, Forall (fun x => is_finite x = true) (coords3 v) /\ 1 < norm3 (dvec3 v) /\ norm3 (dvec3 (Normalize v)) = 0) /\
  (exists v, Forall (fun x => is_finite x = true) (coords3 v) /\ 0 < norm3 (dvec3 v) /\ norm3 (dvec3 (Normalize v)) < / 2).
Proof.
  intros TT HT. split.
  - destruct (two_to_ok 600 ltac:(lia)) as (F & V). set (v := mkV3 (two_to 600) f0 f0).
    assert (FF : Forall (fun x => is_finite x = true) (coords3 v)) by (repeat constructor; exact F).
    exists v. split; [exact FF|]. split.
    + change (dvec3 v) with (mkV3 (val (two_to 600)) 0 0). rewrite norm3_axis, V, Rabs_pos_eq by apply bpow_ge_0. change 1 with (bpow radix2 0). apply bpow_lt. reflexivity.
    + assert (Z := normalize_overflow_lemma TT HT v FF). assert (HR : reaches3 (2 ^ 512) v).
      { apply Exists_cons_hd. change (2 ^ 512 <= Rabs (val (two_to 600))). rewrite V, Rabs_pos_eq by apply bpow_ge_0.
        replace (2 ^ 512) with (bpow radix2 512) by (apply (bpow_powerRZ radix2 512)). apply bpow_le. discriminate. }
      specialize (Z HR). revert Z. generalize (Normalize v). clear. intros w Z. unfold coords3 in Z. inversion Z as [|? ? (_ & A) Z1]. inversion Z1 as [|? ? (_ & B) Z2]. inversion Z2 as [|? ? (_ & C) Z3].
      unfold norm3, dot3, dvec3. cbn [vx vy vz]. rewrite A, B, C, Rmult_0_l, !Rplus_0_r. apply sqrt_0.
  - destruct (two_to_ok (-600) ltac:(lia)) as (F & V). set (v := mkV3 (two_to (-600)) f0 f0).
    assert (FF : Forall (fun x => is_finite x = true) (coords3 v)) by (repeat constructor; exact F).
    assert (P := bpow_gt_0 radix2 (-600)).
    assert (NN : norm3 (dvec3 v) = bpow radix2 (-600)) by (change (dvec3 v) with (mkV3 (val (two_to (-600))) 0 0); rewrite norm3_axis, V, Rabs_pos_eq by apply bpow_ge_0; reflexivity).
    exists v. split; [exact FF|]. rewrite normalize_tiny_lemma.
    + rewrite NN. split; [exact P|]. apply Rlt_le_trans with (bpow radix2 (-1)); [apply bpow_lt; reflexivity|]. right. reflexivity.
    + assert (E : / 2 ^ 538 = bpow radix2 (-538)) by (change (-538)%Z with (- (538))%Z; rewrite bpow_opp, (bpow_powerRZ radix2 538); reflexivity). rewrite E.
      apply bounded3_axis; [exact F| |apply bpow_ge_0]. rewrite V, Rabs_pos_eq by apply bpow_ge_0. apply bpow_le. discriminate.
Qed.

(** ** Products *)
Lemma prod_ok (a b : f64) : is_finite a = true -> is_finite b = true -> Rabs (val a) <= lim -> Rabs (val b) <= lim ->
  is_finite (a *! b) = true /\ Rabs (val (a *! b) - val a * val b) <= u53 * Rabs (val a * val b) + eta64 /\ Rabs (val (a *! b)) <= 2 * big /\
  Rabs (val a * val b) <= big /\ val (a *! b) = val (b *! a).
Proof.
  intros F G A B. assert (H : Rabs (val a * val b) <= big).
  { rewrite Rabs_mult, <- lim_big. apply Rmult_le_compat; auto; apply Rabs_pos. }
  assert (U := u_tiny). assert (ES := L_Arange64.eta_small). assert (BP := big_pos).
  assert (B1 : 1 <= big) by (change 1 with (bpow radix2 0); apply bpow_le; discriminate).
  destruct (mult_rel a b F G) as (M & E); [lra|]. split; [exact M|]. split; [exact E|]. split; [|split; [exact H|]].
  - replace (val (a *! b)) with ((val (a *! b) - val a * val b) + val a * val b) by ring. apply Rle_trans with (1 := Rabs_triang _ _).
    assert (u53 * Rabs (val a * val b) <= / 4 * big) by (apply Rmult_le_compat; try lra; apply Rabs_pos). lra.
  - destruct (mult_ok a b F G) as (_ & V1); [apply big_over; lra|]. destruct (mult_ok b a G F) as (_ & V2); [rewrite Rmult_comm; apply big_over; lra|].
    rewrite V1, V2, Rmult_comm. reflexivity.
Qed.
Lemma diff2_ok (a b c d : f64) : is_finite a = true -> is_finite b = true -> is_finite c = true -> is_finite d = true ->
  Rabs (val a) <= lim -> Rabs (val b) <= lim -> Rabs (val c) <= lim -> Rabs (val d) <= lim ->
  is_finite (a *! b -! c *! d) = true /\
  Rabs (val (a *! b -! c *! d) - (val a * val b - val c * val d)) <= 3 * u53 * (Rabs (val a * val b) + Rabs (val c * val d)) + 3 * eta64 /\
  val (a *! b -! c *! d) = - val (d *! c -! b *! a).
Proof.
  intros Fa Fb Fc Fd Ha Hb Hc Hd. destruct (prod_ok a b) as (F1 & E1 & B1 & X1 & C1); auto. destruct (prod_ok c d) as (F2 & E2 & B2 & X2 & C2); auto.
  destruct (prod_ok b a) as (F3 & _); auto. destruct (prod_ok d c) as (F4 & _); auto.
  assert (U := u_tiny). assert (ES := L_Arange64.eta_small). assert (BP := big_pos).
  assert (BD : Rabs (val (a *! b) - val (c *! d)) <= 8 * big).
  { apply Rle_trans with (1 := Rabs_triang _ _). rewrite Rabs_Ropp. lra. }
  destruct (minus_rel (a *! b) (c *! d) F1 F2 BD) as (F & E). split; [exact F|]. split.
  - set (p := val (a *! b)) in *. set (q := val (c *! d)) in *. set (P := val a * val b) in *. set (Q := val c * val d) in *.
    assert (D : Rabs ((p - q) - (P - Q)) <= u53 * Rabs P + u53 * Rabs Q + 2 * eta64).
    { replace ((p - q) - (P - Q)) with ((p - P) + - (q - Q)) by ring. apply Rle_trans with (1 := Rabs_triang _ _). rewrite Rabs_Ropp. lra. }
    assert (PQ : Rabs (P - Q) <= Rabs P + Rabs Q) by (apply Rle_trans with (1 := Rabs_triang _ _); rewrite Rabs_Ropp; lra).
    assert (pq : Rabs (p - q) <= Rabs P + Rabs Q + (u53 * Rabs P + u53 * Rabs Q + 2 * eta64)).
    { replace (p - q) with (((p - q) - (P - Q)) + (P - Q)) by ring. apply Rle_trans with (1 := Rabs_triang _ _). lra. }
    assert (P0 := Rabs_pos P). assert (Q0 := Rabs_pos Q).
    assert (uP : 0 <= u53 * Rabs P) by (apply Rmult_le_pos; lra). assert (uQ : 0 <= u53 * Rabs Q) by (apply Rmult_le_pos; lra).
    assert (u53 * Rabs (p - q) <= u53 * (Rabs P + Rabs Q + (u53 * Rabs P + u53 * Rabs Q + 2 * eta64))) by (apply Rmult_le_compat_l; lra).
    assert (u53 * (u53 * Rabs P) <= / 1000 * (u53 * Rabs P)) by (apply Rmult_le_compat_r; lra).
    assert (u53 * (u53 * Rabs Q) <= / 1000 * (u53 * Rabs Q)) by (apply Rmult_le_compat_r; lra).
    assert (u53 * eta64 <= / 1000 * eta64) by (apply Rmult_le_compat_r; lra).
    match goal with |- Rabs (?v - _) <= _ => replace (v - (P - Q)) with ((v - (p - q)) + ((p - q) - (P - Q))) by ring end.
    apply Rle_trans with (1 := Rabs_triang _ _). lra.
  - destruct (minus_ok (a *! b) (c *! d) F1 F2) as (_ & V1); [apply big_over, BD|].
    destruct (minus_ok (d *! c) (b *! a) F4 F3) as (_ & V2).
    { apply big_over. rewrite <- C1, <- C2. rewrite Rabs_minus_sym. exact BD. }
    rewrite V1, V2, <- C1, <- C2. rewrite <- round_NE_opp. f_equal. ring.
Qed.
Lemma cross_double_lemma : forall p q : vec3 f64, bounded3 (2 ^ 500) p -> bounded3 (2 ^ 500) q ->
  let c := v3_cross p q in let e := cross3 (dvec3 p) (dvec3 q) in let s := cross3_abs (dvec3 p) (dvec3 q) in
  Forall (fun x => is_finite x = true) (coords3 c) /\
  Rabs (dvalue (vx c) - vx e) <= 3 * uround * vx s + 3 * uflow /\
  Rabs (dvalue (vy c) - vy e) <= 3 * uround * vy s + 3 * uflow /\
  Rabs (dvalue (vz c) - vz e) <= 3 * uround * vz s + 3 * uflow.
Proof.
  intros p q HP HQ. destruct (b3 p HP) as ((Px & Py & Pz) & Lx & Ly & Lz). destruct (b3 q HQ) as ((Qx & Qy & Qz) & Mx & My & Mz).
  cbv zeta. unfold v3_cross, cross3, cross3_abs, dvec3, coords3, dvalue. cbn [vx vy vz]. rewrite uflow_eta. change uround with u53.
  destruct (diff2_ok (vy p) (vz q) (vz p) (vy q)) as (A1 & A2 & _); auto.
  destruct (diff2_ok (vz p) (vx q) (vx p) (vz q)) as (B1 & B2 & _); auto.
  destruct (diff2_ok (vx p) (vy q) (vy p) (vx q)) as (C1 & C2 & _); auto.
Qed.
Lemma cross_anti_lemma : forall p q : vec3 f64, bounded3 (2 ^ 500) p -> bounded3 (2 ^ 500) q ->
  dvec3 (v3_cross q p) = scal3 (-1) (dvec3 (v3_cross p q)) /\ dvec3 (v3_cross p p) = mkV3 0 0 0.
Proof.
  assert (G : forall p q : vec3 f64, bounded3 (2 ^ 500) p -> bounded3 (2 ^ 500) q -> dvec3 (v3_cross q p) = scal3 (-1) (dvec3 (v3_cross p q))).
  { intros p q HP HQ. destruct (b3 p HP) as ((Px & Py & Pz) & Lx & Ly & Lz). destruct (b3 q HQ) as ((Qx & Qy & Qz) & Mx & My & Mz).
    unfold scal3, dvec3, v3_cross, dvalue. cbn [vx vy vz]. f_equal.
    - destruct (diff2_ok (vy q) (vz p) (vz q) (vy p)) as (_ & _ & A); auto. etransitivity; [exact A|]. change (- val (vy p *! vz q -! vz p *! vy q) = -1 * val (vy p *! vz q -! vz p *! vy q)). ring.
    - destruct (diff2_ok (vz q) (vx p) (vx q) (vz p)) as (_ & _ & A); auto. etransitivity; [exact A|]. change (- val (vz p *! vx q -! vx p *! vz q) = -1 * val (vz p *! vx q -! vx p *! vz q)). ring.
    - destruct (diff2_ok (vx q) (vy p) (vy q) (vx p)) as (_ & _ & A); auto. etransitivity; [exact A|]. change (- val (vx p *! vy q -! vy p *! vx q) = -1 * val (vx p *! vy q -! vy p *! vx q)). ring. }
  intros p q HP HQ. split; [apply G; assumption|]. assert (E := G p p HP HP). revert E. generalize (v3_cross p p). clear. intros c E.
  assert (X := f_equal vx E). assert (Y := f_equal vy E). assert (Z := f_equal vz E). unfold scal3, dvec3 in *. cbn [vx vy vz] in *. f_equal; lra.
Qed.

Lemma inner_double_lemma : forall p q : vec3 f64, bounded3 (2 ^ 500) p -> bounded3 (2 ^ 500) q ->
  is_finite (inner p q) = true /\ Rabs (dvalue (inner p q) - dot3 (dvec3 p) (dvec3 q)) <= 4 * uround * dot3_abs (dvec3 p) (dvec3 q) + 6 * uflow /\
  dvalue (inner q p) = dvalue (inner p q).
Proof.
  intros p q HP HQ. destruct (b3 p HP) as ((Px & Py & Pz) & Lx & Ly & Lz). destruct (b3 q HQ) as ((Qx & Qy & Qz) & Mx & My & Mz).
  change (inner p q) with (vx p *! vx q +! vy p *! vy q +! vz p *! vz q). change (inner q p) with (vx q *! vx p +! vy q *! vy p +! vz q *! vz p).
  unfold dot3, dot3_abs, dvec3, dvalue. cbn [vx vy vz]. rewrite uflow_eta. change uround with u53.
  destruct (prod_ok (vx p) (vx q)) as (F1 & E1 & B1 & X1 & C1); auto. destruct (prod_ok (vy p) (vy q)) as (F2 & E2 & B2 & X2 & C2); auto.
  destruct (prod_ok (vz p) (vz q)) as (F3 & E3 & B3 & X3 & C3); auto.
  destruct (prod_ok (vx q) (vx p)) as (G1 & _); auto. destruct (prod_ok (vy q) (vy p)) as (G2 & _); auto. destruct (prod_ok (vz q) (vz p)) as (G3 & _); auto.
  assert (U := u_tiny). assert (ES := L_Arange64.eta_small). assert (BP := big_pos).
  set (a := vx p *! vx q) in *. set (b := vy p *! vy q) in *. set (c := vz p *! vz q) in *.
  set (a' := vx q *! vx p) in *. set (b' := vy q *! vy p) in *. set (c' := vz q *! vz p) in *.
  assert (BD : Rabs (val a + val b) <= 4 * big) by (apply Rle_trans with (1 := Rabs_triang _ _); lra).
  destruct (plus_rel a b F1 F2) as (F & E); [lra|].
  assert (BA : Rabs (val (a +! b)) <= 5 * big).
  { replace (val (a +! b)) with ((val (a +! b) - (val a + val b)) + (val a + val b)) by ring. apply Rle_trans with (1 := Rabs_triang _ _).
    assert (u53 * Rabs (val a + val b) <= / 4 * (4 * big)) by (apply Rmult_le_compat; try lra; apply Rabs_pos). lra. }
  assert (BE : Rabs (val (a +! b) + val c) <= 7 * big) by (apply Rle_trans with (1 := Rabs_triang _ _); lra).
  destruct (plus_rel (a +! b) c F F3) as (FF & EE); [lra|].
  split; [exact FF|]. split.
  - set (P := val (vx p) * val (vx q)) in *. set (Q := val (vy p) * val (vy q)) in *. set (R := val (vz p) * val (vz q)) in *.
    set (s := val (a +! b)) in *. set (t := val (a +! b +! c)) in *.
    assert (P0 := Rabs_pos P). assert (Q0 := Rabs_pos Q). assert (R0 := Rabs_pos R).
    assert (uP : 0 <= u53 * Rabs P <= / 1000 * Rabs P) by (split; [apply Rmult_le_pos|apply Rmult_le_compat_r]; lra).
    assert (uQ : 0 <= u53 * Rabs Q <= / 1000 * Rabs Q) by (split; [apply Rmult_le_pos|apply Rmult_le_compat_r]; lra).
    assert (uR : 0 <= u53 * Rabs R <= / 1000 * Rabs R) by (split; [apply Rmult_le_pos|apply Rmult_le_compat_r]; lra).
    assert (A1 : Rabs (val a) <= 1001 / 1000 * Rabs P + eta64) by (replace (val a) with ((val a - P) + P) by ring; apply Rle_trans with (1 := Rabs_triang _ _); lra).
    assert (A2 : Rabs (val b) <= 1001 / 1000 * Rabs Q + eta64) by (replace (val b) with ((val b - Q) + Q) by ring; apply Rle_trans with (1 := Rabs_triang _ _); lra).
    assert (A3 : Rabs (val c) <= 1001 / 1000 * Rabs R + eta64) by (replace (val c) with ((val c - R) + R) by ring; apply Rle_trans with (1 := Rabs_triang _ _); lra).
    assert (A4 : Rabs (val a + val b) <= 1001 / 1000 * Rabs P + 1001 / 1000 * Rabs Q + 2 * eta64) by (apply Rle_trans with (1 := Rabs_triang _ _); lra).
    assert (uab : u53 * Rabs (val a + val b) <= u53 * (1001 / 1000 * Rabs P + 1001 / 1000 * Rabs Q + 2 * eta64)) by (apply Rmult_le_compat_l; lra).
    assert (ue : u53 * eta64 <= / 1000 * eta64) by (apply Rmult_le_compat_r; lra).
    assert (A5 : Rabs s <= 1003 / 1000 * Rabs P + 1003 / 1000 * Rabs Q + 3 * eta64).
    { replace s with ((s - (val a + val b)) + (val a + val b)) by ring. apply Rle_trans with (1 := Rabs_triang _ _). lra. }
    assert (A6 : Rabs (s + val c) <= 1003 / 1000 * Rabs P + 1003 / 1000 * Rabs Q + 1003 / 1000 * Rabs R + 4 * eta64) by (apply Rle_trans with (1 := Rabs_triang _ _); lra).
    assert (usc : u53 * Rabs (s + val c) <= u53 * (1003 / 1000 * Rabs P + 1003 / 1000 * Rabs Q + 1003 / 1000 * Rabs R + 4 * eta64)) by (apply Rmult_le_compat_l; lra).
    replace (t - (P + Q + R)) with ((t - (s + val c)) + ((s - (val a + val b)) + ((val a - P) + ((val b - Q) + (val c - R))))) by ring.
    assert (T1 := Rabs_triang (t - (s + val c)) ((s - (val a + val b)) + ((val a - P) + ((val b - Q) + (val c - R))))).
    assert (T2 := Rabs_triang (s - (val a + val b)) ((val a - P) + ((val b - Q) + (val c - R)))).
    assert (T3 := Rabs_triang (val a - P) ((val b - Q) + (val c - R))). assert (T4 := Rabs_triang (val b - Q) (val c - R)). lra.
  - destruct (plus_ok a b F1 F2) as (_ & V1); [apply big_over; lra|]. destruct (plus_ok a' b' G1 G2) as (H1 & V2); [rewrite <- C1, <- C2; apply big_over; lra|].
    assert (VV : val (a' +! b') = val (a +! b)) by (rewrite V1, V2, C1, C2; reflexivity).
    destruct (plus_ok (a +! b) c F F3) as (_ & V3); [apply big_over; lra|]. destruct (plus_ok (a' +! b') c' H1 G3) as (_ & V4); [rewrite VV, <- C3; apply big_over; lra|].
    rewrite V3, V4, VV, C3. reflexivity.
Qed.
Lemma orthogonal_refuted_pf : exists p q : vec3 f64, bounded3 (2 ^ 30) p /\ bounded3 (2 ^ 30) q /\ 1 <= dvalue (inner p (v3_cross p q)).
Proof.
  set (k := 134217729%Z).
  assert (B : forall z, (0 <= z <= 134217729)%Z -> is_finite (f64_ofZ z) = true /\ Rabs (dvalue (f64_ofZ z)) <= 2 ^ 30).
  { intros z Hz. destruct (ofZ_ok z ltac:(lia)) as (F & V). split; [exact F|]. unfold dvalue. rewrite V, Rabs_pos_eq by (apply IZR_le; lia).
    apply Rle_trans with (IZR 134217729); [apply IZR_le; lia|]. simpl. lra. }
  exists (mkV3 (f64_ofZ 1) (f64_ofZ 1) (f64_ofZ k)), (mkV3 (f64_ofZ 3) (f64_ofZ k) (f64_ofZ 3)).
  split; [|split].
  - unfold bounded3, coords3, k. cbn [vx vy vz]. constructor; [apply B; lia|]. constructor; [apply B; lia|]. constructor; [apply B; lia|]. constructor.
  - unfold bounded3, coords3, k. cbn [vx vy vz]. constructor; [apply B; lia|]. constructor; [apply B; lia|]. constructor; [apply B; lia|]. constructor.
  - match goal with |- 1 <= dvalue ?t => assert (E : B2SF t = B2SF (f64_ofZ 2)) by (vm_compute; reflexivity) end.
    apply B2SF_inj in E. rewrite E. destruct (ofZ_ok 2 ltac:(lia)) as (_ & V). unfold dvalue. rewrite V. lra.
Qed.

(** ** Infinity norm, amplitude, signed square root *)
Lemma infNorm_double_lemma : forall l : list f64, Forall (fun x => is_finite x = true) l ->
  is_finite (infNorm l) = true /\ is_inf_norm (map dvalue l) (dvalue (infNorm l)).
Proof.
  assert (G : forall (l : list f64) (m : f64), Forall (fun x => is_finite x = true) l -> is_finite m = true ->
    let r := fold_left (fun m x => if nlt m (nfabs x) then nfabs x else m) l m in
    is_finite r = true /\ val m <= val r /\ (forall x, In x l -> Rabs (val x) <= val r) /\ (r = m \/ exists x, In x l /\ Rabs (val x) = val r)).
  { induction l as [|x l IH]; intros m HL Fm; cbn [fold_left]; cbv zeta.
    - split; [exact Fm|]. split; [lra|]. split; [intros ? []|left; reflexivity].
    - inversion HL as [|? ? Fx HL']; subst. change (nfabs x) with (Babs x).
      assert (FA : is_finite (Babs x) = true) by (rewrite abs_fin; exact Fx). assert (VA := abs_val x).
      set (m' := if nlt m (Babs x) then Babs x else m).
      assert (M : is_finite m' = true /\ val m <= val m' /\ Rabs (val x) <= val m' /\ (m' = m \/ Rabs (val x) = val m')).
      { unfold m'. destruct (nlt m (Babs x)) eqn:L.
        - apply nlt_fin in L; auto. rewrite VA in *. repeat split; auto; lra.
        - assert (~ val m < val (Babs x)) by (intros C; apply (nlt_lt m (Babs x) Fm FA) in C; congruence). rewrite VA in *. repeat split; auto; lra. }
      destruct M as (M1 & M2 & M3 & M4). destruct (IH m' HL' M1) as (I1 & I2 & I3 & I4). cbv zeta in I1, I2, I3, I4.
      set (r := fold_left _ l m') in *. split; [exact I1|]. split; [lra|]. split.
      + intros y [E|Hy]; [subst; lra|apply I3, Hy].
      + destruct I4 as [E|(y & Hy & E)]; [|right; exists y; split; [right; exact Hy|exact E]].
        rewrite E. destruct M4 as [M4|M4]; [left; exact M4|right; exists x; split; [left; reflexivity|exact M4]]. }
  intros l HL. destruct (G l (f64_ofZ 0) HL eq_refl) as (A & B & C & D). cbv zeta in *. unfold infNorm. split; [exact A|]. split.
  - intros y Hy. apply in_map_iff in Hy. destruct Hy as (x & E & Hx). subst. apply C, Hx.
  - destruct D as [D|(x & Hx & E)]; [left; etransitivity; [exact (f_equal dvalue D)|reflexivity]|right]. exists (dvalue x). split; [apply in_map, Hx|exact E].
Qed.

Lemma amplitude_double_lemma : forall (TT : NumTr f64), ieee_sqrt TT -> forall (l : list (f64 * f64)) k, (k < length l)%nat ->
  let z := nth k l (f64_ofZ 0, f64_ofZ 0) in let a := nth k (Amplitude l) (f64_ofZ 0) in
  let A := sqrt (dvalue (fst z) * dvalue (fst z) + dvalue (snd z) * dvalue (snd z)) in
  is_finite (fst z) = true -> is_finite (snd z) = true -> Rabs (dvalue (fst z)) <= 2 ^ 500 -> Rabs (dvalue (snd z)) <= 2 ^ 500 ->
  (/ 2 ^ 500 <= Rabs (dvalue (fst z)) \/ / 2 ^ 500 <= Rabs (dvalue (snd z))) ->
  is_finite a = true /\ Rabs (dvalue a - A) <= 5 / 2 * uround * A.
Proof.
  intros TT HT l k Hk. cbv zeta. unfold Amplitude. rewrite (nth_indep _ (f64_ofZ 0) (nsqrt (nadd (nmul (f64_ofZ 0) (f64_ofZ 0)) (nmul (f64_ofZ 0) (f64_ofZ 0))))) by (rewrite map_length; exact Hk).
  rewrite (map_nth (fun z => nsqrt (nadd (nmul (fst z) (fst z)) (nmul (snd z) (snd z)))) l (f64_ofZ 0, f64_ofZ 0) k).
  set (z := nth k l (f64_ofZ 0, f64_ofZ 0)). rewrite HT. unfold dvalue. rewrite low_pow, lim_pow. change uround with u53.
  intros F G HF HG HR. destruct (sumsq2_ok (fst z) (snd z) F G HF HG) as (A & B & C & _). cbv zeta in *.
  assert (ES := eta64_pos). set (w := val (fst z) * val (fst z) + val (snd z) * val (snd z)) in *.
  assert (L : low * low <= w).
  { unfold w. assert (Q := reach_sq (val (fst z)) (val (snd z)) 0). rewrite Rmult_0_l, Rplus_0_r in Q. apply Q. destruct HR as [H|H]; auto. }
  destruct (norm_gen _ w (201 / 100) A B L ltac:(lra) ltac:(lra)) as (N1 & N2). split; [exact N1|]. apply Rle_trans with (1 := N2).
  assert (0 <= u53 * sqrt w) by (apply Rmult_le_pos; [assert (U := u_tiny); lra|apply sqrt_pos]). lra.
Qed.
Lemma amplitude_refuted_pf : forall (TT : NumTr f64), ieee_sqrt TT -> exists l : list (f64 * f64),
  Forall (fun z => is_finite (fst z) = true /\ is_finite (snd z) = true /\ sqrt (dvalue (fst z) * dvalue (fst z) + dvalue (snd z) * dvalue (snd z)) <= 2 ^ 600) l /\
  Forall (fun a => is_finite a = false) (Amplitude l) /\ l <> [].
Proof.
  intros TT HT. destruct (two_to_ok 600 ltac:(lia)) as (F & V). exists [(two_to 600, f64_ofZ 0)]. split; [|split; [|discriminate]].
  - constructor; [|constructor]. cbn [fst snd]. split; [exact F|]. split; [reflexivity|]. change (dvalue (f64_ofZ 0)) with 0. unfold dvalue. rewrite V.
    rewrite Rmult_0_l, Rplus_0_r. right. rewrite sqrt_square by apply bpow_ge_0. symmetry. apply eq_sym, (bpow_powerRZ radix2 600).
  - unfold Amplitude. cbn [map fst snd]. constructor; [|constructor]. rewrite HT.
    assert (S : two_to 600 *! two_to 600 = B754_infinity false).
    { apply sq_overflow; [exact F|]. rewrite V, Rabs_pos_eq by apply bpow_ge_0. replace (2 ^ 512) with (bpow radix2 512) by (apply (bpow_powerRZ radix2 512)). apply bpow_le. discriminate. }
    change (nmul (two_to 600) (two_to 600)) with (two_to 600 *! two_to 600). rewrite S. reflexivity.
Qed.

Lemma mult_unit (x : f64) s : (s = 1 \/ s = -1 \/ s = 0)%Z -> is_finite x = true -> is_finite (f64_ofZ s *! x) = true /\ val (f64_ofZ s *! x) = IZR s * val x.
Proof.
  intros Hs F. destruct (ofZ_ok s ltac:(lia)) as (G & V).
  assert (B : Rabs (IZR s * val x) <= fmax64).
  { rewrite Rabs_mult. apply Rle_trans with (1 * fmax64); [|lra]. apply Rmult_le_compat; try apply Rabs_pos; [|apply abs_val_fmax].
    rewrite <- abs_IZR. apply IZR_le. lia. }
  destruct (mult_ok (f64_ofZ s) x G F) as (A & C).
  - rewrite V. assert (P := bpow_gt_0 radix2 969). lra.
  - split; [exact A|]. rewrite C, V. apply rnd64_id. destruct Hs as [E|[E|E]]; subst s.
    + rewrite Rmult_1_l. apply fmt64_val.
    + replace (-1 * val x) with (- val x) by ring. apply generic_format_opp, fmt64_val.
    + rewrite Rmult_0_l. apply generic_format_0.
Qed.
Lemma sgnsqrt_double_lemma : forall (TT : NumTr f64), ieee_sqrt TT -> forall v : f64, is_finite v = true ->
  let r := dvalue (SgnSqrt v) in let e := sqrt (Rabs (dvalue v)) in
  is_finite (SgnSqrt v) = true /\
  (0 <= dvalue v -> Rabs (r - e) <= uround * e) /\ (dvalue v <= 0 -> Rabs (r + e) <= uround * e) /\ dvalue (SgnSqrt (Bopp v)) = - r.
Proof.
  intros TT HT v F. cbv zeta. unfold SgnSqrt. rewrite !HT. change (nfabs v) with (Babs v). change (nfabs (Bopp v)) with (Babs (Bopp v)).
  assert (FA : is_finite (Babs v) = true) by (rewrite abs_fin; exact F). assert (VA := abs_val v).
  destruct (sqrt_rel (Babs v) FA) as (A & B & C); [rewrite VA; apply Rabs_pos|]. rewrite VA in B.
  assert (AO : Babs (Bopp v) = Babs v) by (destruct v; reflexivity). rewrite AO.
  set (q := Bsqrt mode_NE (Babs v)) in *. unfold dvalue. change uround with u53.
  destruct (sgn_double_lemma v) as (_ & SG). destruct (SG F) as (S1 & S2 & S3).
  assert (FO : is_finite (Bopp v) = true) by (rewrite is_finite_Bopp; exact F). assert (VO : val (Bopp v) = - val v) by apply B2R_Bopp.
  destruct (sgn_double_lemma (Bopp v)) as (_ & SO). destruct (SO FO) as (O1 & O2 & O3). unfold dvalue in *. rewrite VO in *.
  set (e := sqrt (Rabs (val v))) in *.
  change (nmul (nofZ (sgn v)) q) with (f64_ofZ (sgn v) *! q). change (nmul (nofZ (sgn (Bopp v))) q) with (f64_ofZ (sgn (Bopp v)) *! q).
  destruct (Rtotal_order (val v) 0) as [H|[H|H]].
  - rewrite S3, O1 by lra. destruct (mult_unit q (-1)) as (M1 & M2); auto. destruct (mult_unit q 1) as (_ & M3); auto. split; [exact M1|]. rewrite M2, M3.
    split; [intros; lra|]. split; [intros _|ring]. replace (-1 * val q + e) with (- (val q - e)) by ring. rewrite Rabs_Ropp. exact B.
  - rewrite S2, O2 by lra. destruct (mult_unit q 0) as (M1 & M2); auto. split; [exact M1|]. rewrite M2.
    assert (E0 : e = 0) by (unfold e; rewrite H, Rabs_R0; apply sqrt_0). rewrite E0. rewrite !Rmult_0_l, Rmult_0_r, Rminus_0_r, Rplus_0_r, Rabs_R0.
    split; [intros; lra|]. split; [intros; lra|ring].
  - rewrite S1, O3 by lra. destruct (mult_unit q 1) as (M1 & M2); auto. destruct (mult_unit q (-1)) as (_ & M3); auto. split; [exact M1|]. rewrite M2, M3.
    split; [intros _; rewrite Rmult_1_l; exact B|]. split; [intros; lra|ring].
Qed.
