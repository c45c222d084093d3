(** Error of a floating-point accumulation, and the pieces needed for sums of
    products. *)
From Coq Require Import List Arith ZArith Reals Bool Lia Lra Psatz.
From Flocq Require Import Core.Core IEEE754.BinarySingleNaN.
From Verif Require Import Outcome Num NumFun F64 L_F64 L_Linspace64 L_F64Err S_Angles S_Double S_Series L_Series
  L_Series64 L_Interp64 L_Apx.
Import ListNotations.
Local Open Scope R_scope.

(** ((a + t 0) + t 1) + ... *)
Fixpoint fsum (a : f64) (t : nat -> f64) (k : nat) : f64 :=
  match k with O => a | S k' => fsum a t k' +! t k' end.

Lemma fsum_shift a t k : fsum a t (S k) = fsum (a +! t 0%nat) (fun i => t (S i)) k.
Proof. induction k as [|k IH]; [reflexivity|]. change (fsum a t (S k) +! t (S k) = fsum (a +! t 0%nat) (fun i => t (S i)) k +! t (S k)). rewrite IH. reflexivity. Qed.

Lemma fsum_ext a t t' k : (forall i, (i < k)%nat -> t i = t' i) -> fsum a t k = fsum a t' k.
Proof. induction k as [|k IH]; intros H; [reflexivity|]. cbn [fsum]. rewrite IH, H by auto with arith. reflexivity. Qed.

Lemma bsum_nonneg n f : (forall i, (i < n)%nat -> 0 <= f i) -> 0 <= bsum n f.
Proof. induction n as [|n IH]; intros H; simpl; [lra|]. assert (0 <= bsum n f) by auto. assert (0 <= f n) by auto. lra. Qed.
Lemma bsum_le n f g : (forall i, (i < n)%nat -> f i <= g i) -> bsum n f <= bsum n g.
Proof. induction n as [|n IH]; intros H; simpl; [lra|]. assert (bsum n f <= bsum n g) by auto. assert (f n <= g n) by auto. lra. Qed.
Lemma bsum_abs n f : Rabs (bsum n f) <= bsum n (fun i => Rabs (f i)).
Proof. induction n as [|n IH]; simpl; [rewrite Rabs_R0; lra|]. apply Rle_trans with (1 := Rabs_triang _ _). lra. Qed.
Lemma bsum_const n c : bsum n (fun _ => c) = INR n * c.
Proof. induction n as [|n IH]; [simpl; ring|]. cbn [bsum]. rewrite IH, S_INR. ring. Qed.

(** Adding two doubles: no underflow term. *)
Lemma plus_rel (x y : f64) : is_finite x = true -> is_finite y = true -> Rabs (val x + val y) <= 8 * big ->
  is_finite (x +! y) = true /\ Rabs (val (x +! y) - (val x + val y)) <= u53 * Rabs (val x + val y).
Proof.
  intros F G H. destruct (plus_ok x y F G (big_over _ H)) as (A & B). split; [exact A|]. rewrite B.
  apply sum_err; apply fmt64_val.
Qed.
Lemma minus_rel (x y : f64) : is_finite x = true -> is_finite y = true -> Rabs (val x - val y) <= 8 * big ->
  is_finite (x -! y) = true /\ Rabs (val (x -! y) - (val x - val y)) <= u53 * Rabs (val x - val y).
Proof.
  intros F G H. destruct (minus_ok x y F G (big_over _ H)) as (A & B). split; [exact A|]. rewrite B.
  apply (sum_err (val x) (- val y)); [apply fmt64_val|]. apply generic_format_opp, fmt64_val.
Qed.
Lemma mult_rel (x y : f64) : is_finite x = true -> is_finite y = true -> Rabs (val x * val y) <= 8 * big ->
  is_finite (x *! y) = true /\ Rabs (val (x *! y) - val x * val y) <= u53 * Rabs (val x * val y) + eta64.
Proof.
  intros F G H. destruct (mult_ok x y F G (big_over _ H)) as (A & B). split; [exact A|]. rewrite B. apply L_F64Err.rnd_err.
Qed.

Definition nmax : R := bpow radix2 43.
Lemma ku_small k : 0 <= k <= nmax -> 0 <= k * u53 <= / 1000.
Proof.
  intros H. assert (U := u53_pos). split; [apply Rmult_le_pos; lra|].
  apply Rle_trans with (nmax * u53); [apply Rmult_le_compat_r; lra|].
  unfold nmax, u53. change (bpow radix2 43) with (IZR (2 ^ 43)). change (2 ^ 43)%Z with 8796093022208%Z. lra.
Qed.

Section Acc.
Context (a : f64) (t : nat -> f64) (a0 ea A : R) (r e B : nat -> R) (n : nat).
Hypothesis Fa : is_finite a = true.
Hypothesis Ha : Rabs (val a - a0) <= ea.
Hypothesis HA : Rabs a0 <= A.
Hypothesis Ft : forall i, (i < n)%nat -> is_finite (t i) = true.
Hypothesis Ht : forall i, (i < n)%nat -> Rabs (val (t i) - r i) <= e i.
Hypothesis Hr : forall i, (i < n)%nat -> Rabs (r i) <= B i.
Hypothesis Hn : INR n <= nmax.
Let W k := A + ea + bsum k (fun i => B i + e i).
Hypothesis HW : W n <= big.

Lemma W_S k : W (S k) = W k + (B k + e k).
Proof. unfold W. cbn [bsum]. ring. Qed.
Lemma W_mono k l : (k <= l <= n)%nat -> 0 <= W k <= W l.
Proof.
  intros H. assert (N : forall m, (m <= n)%nat -> 0 <= W m).
  { intros m Hm. unfold W. assert (0 <= bsum m (fun i => B i + e i)).
    { apply bsum_nonneg. intros i Hi. assert (P := Hr i ltac:(lia)). assert (Q := Ht i ltac:(lia)).
      assert (P' := Rabs_pos (r i)). assert (Q' := Rabs_pos (val (t i) - r i)). lra. }
    assert (P := Rabs_pos a0). assert (Q := Rabs_pos (val a - a0)). lra. }
  split; [apply N; lia|]. destruct H as (H1 & H2). induction H1 as [|l Hl IH]; [lra|].
  rewrite W_S. assert (P := Hr l ltac:(lia)). assert (Q := Ht l ltac:(lia)).
  assert (P' := Rabs_pos (r l)). assert (Q' := Rabs_pos (val (t l) - r l)). specialize (IH ltac:(lia)). lra.
Qed.

Lemma fsum_err_k k : (k <= n)%nat -> is_finite (fsum a t k) = true /\
  Rabs (val (fsum a t k) - (a0 + bsum k r)) <= ea + bsum k e + 101 / 100 * INR k * u53 * W k.
Proof.
  induction k as [|k IH]; intros Hk.
  - cbn [fsum bsum INR]. split; [exact Fa|]. rewrite Rplus_0_r. replace (101 / 100 * 0 * u53 * W 0) with 0 by ring. lra.
  - destruct (IH ltac:(lia)) as (F & E). clear IH. assert (U := u_tiny).
    assert (M := W_mono k (S k) ltac:(lia)). assert (M' := W_mono (S k) n ltac:(lia)).
    assert (Rk := Hr k ltac:(lia)). assert (Tk := Ht k ltac:(lia)). assert (Fk := Ft k ltac:(lia)).
    assert (K : 0 <= INR k * u53 <= / 1000).
    { apply ku_small. split; [apply pos_INR|]. apply Rle_trans with (2 := Hn). apply le_INR. lia. }
    assert (S1 : Rabs (bsum k r) <= bsum k B).
    { apply Rle_trans with (1 := bsum_abs k r). apply bsum_le. intros i Hi. apply Hr. lia. }
    assert (WE : W k = A + ea + bsum k B + bsum k e) by (unfold W; rewrite bsum_plus; ring).
    assert (WS := W_S k).
    set (s := fsum a t k) in *. set (sk := bsum k r) in *.
    assert (Z1 : 101 / 100 * INR k * u53 * W k = 101 / 100 * (INR k * u53) * W k) by ring.
    assert (Z2 : (INR k * u53) * W k <= / 1000 * W k) by (apply Rmult_le_compat_r; lra).
    assert (Z0 : 0 <= (INR k * u53) * W k) by (apply Rmult_le_pos; lra).
    assert (V : Rabs (val s + val (t k)) <= 101 / 100 * W (S k)).
    { replace (val s + val (t k)) with ((val s - (a0 + sk)) + (val (t k) - r k) + a0 + sk + r k) by ring.
      assert (T1 := Rabs_triang ((val s - (a0 + sk)) + (val (t k) - r k) + a0 + sk) (r k)).
      assert (T2 := Rabs_triang ((val s - (a0 + sk)) + (val (t k) - r k) + a0) sk).
      assert (T3 := Rabs_triang ((val s - (a0 + sk)) + (val (t k) - r k)) a0).
      assert (T4 := Rabs_triang (val s - (a0 + sk)) (val (t k) - r k)).
      assert (P1 := Rabs_pos (val a - a0)).
      assert (P2 := Rabs_pos (r k)).
      rewrite WS.
      set (c1 := INR k * u53 * W k) in *. rewrite Z1 in E.
      assert (E' : Rabs (val s - (a0 + sk)) <= ea + bsum k e + 101 / 100 * c1) by (unfold c1; lra).
      assert (Z3 : 0 <= W k) by lra. assert (0 <= e k) by (assert (X := Rabs_pos (val (t k) - r k)); lra). lra. }
    assert (BG := big_pos).
    destruct (plus_rel s (t k) F Fk) as (F' & E'); [lra|].
    cbn [fsum]. fold s. split; [exact F'|].
    replace (val (s +! t k) - (a0 + bsum (S k) r)) with
      ((val (s +! t k) - (val s + val (t k))) + (val s - (a0 + sk)) + (val (t k) - r k)) by (cbn [bsum]; fold sk; ring).
    apply Rle_trans with (1 := Rabs_triang _ _). apply Rle_trans with (1 := Rplus_le_compat_r _ _ _ (Rabs_triang _ _)).
    assert (Z4 : u53 * Rabs (val s + val (t k)) <= u53 * (101 / 100 * W (S k))) by (apply Rmult_le_compat_l; lra).
    assert (Z5 : INR k * u53 * W k <= INR k * u53 * W (S k)) by (apply Rmult_le_compat_l; lra).
    rewrite Z1 in E. cbn [bsum]. rewrite S_INR.
    replace (101 / 100 * (INR k + 1) * u53 * W (S k)) with (101 / 100 * (INR k * u53 * W (S k)) + u53 * (101 / 100 * W (S k))) by ring.
    lra.
Qed.

Lemma fsum_err : is_finite (fsum a t n) = true /\
  Rabs (val (fsum a t n) - (a0 + bsum n r)) <= ea + bsum n e + 101 / 100 * INR n * u53 * W n.
Proof. exact (fsum_err_k n (le_n n)). Qed.
End Acc.
