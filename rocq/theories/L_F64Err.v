(** Rounding errors of the binary64 operations whose result is finite. *)
From Coq Require Import ZArith Reals Bool Lia Lra Psatz.
From Flocq Require Import Core.Core IEEE754.BinarySingleNaN.
From Flocq Require Import Relative.
From Verif Require Import Num NumFun F64 L_F64 L_Linspace64.
Local Open Scope R_scope.

(** Half of the smallest subnormal. *)
Definition eta64 : R := / 2 * bpow radix2 (-1074).
Lemma eta64_pos : 0 < eta64.
Proof. unfold eta64. assert (0 < bpow radix2 (-1074)) by apply bpow_gt_0. lra. Qed.

Lemma rnd_err x : Rabs (rnd64 x - x) <= u53 * Rabs x + eta64.
Proof.
  assert (P := u53_pos). assert (Q := eta64_pos). assert (A := Rabs_pos x).
  destruct (Rle_or_lt (bpow radix2 (-1022)) (Rabs x)) as [H|H].
  - assert (E := rel_err x H). lra.
  - assert (E : Rabs (rnd64 x - x) <= / 2 * ulp radix2 fexp64 x) by (apply error_le_half_ulp; auto with typeclass_instances).
    assert (U : ulp radix2 fexp64 x = bpow radix2 (-1074)).
    { change (ulp radix2 (FLT_exp (-1074) 53) x = bpow radix2 (-1074)). apply ulp_FLT_small; [reflexivity|].
      apply Rlt_le_trans with (1 := H). apply bpow_le. lia. }
    rewrite U in E. unfold eta64. assert (0 <= u53 * Rabs x) by (apply Rmult_le_pos; lra). lra.
Qed.

Lemma overflow_not_finite (b : f64) s : B2SF b = binary_overflow 53 1024 mode_NE s -> is_finite b = false.
Proof. intros H. rewrite <- is_finite_SF_B2SF, H. reflexivity. Qed.

Lemma fin_plus (x y : f64) : is_finite (Bplus mode_NE x y) = true ->
  is_finite x = true /\ is_finite y = true /\ val (Bplus mode_NE x y) = rnd64 (val x + val y).
Proof.
  intros F.
  assert (Fx : is_finite x = true).
  { destruct x as [| [] | |]; auto; destruct y as [| [] | |]; simpl in F; discriminate. }
  assert (Fy : is_finite y = true).
  { destruct y as [| [] | |]; auto; destruct x as [| [] | |]; simpl in F; discriminate. }
  split; [auto|]. split; [auto|].
  generalize (Bplus_correct 53 1024 _ _ mode_NE x y Fx Fy). simpl round_mode.
  case Rlt_bool_spec; intros H [H1 H2]; [tauto|].
  apply overflow_not_finite in H1. congruence.
Qed.

Lemma fin_minus (x y : f64) : is_finite (Bminus mode_NE x y) = true ->
  is_finite x = true /\ is_finite y = true /\ val (Bminus mode_NE x y) = rnd64 (val x - val y).
Proof.
  intros F.
  assert (Fx : is_finite x = true).
  { destruct x as [| [] | |]; auto; destruct y as [| [] | |]; simpl in F; discriminate. }
  assert (Fy : is_finite y = true).
  { destruct y as [| [] | |]; auto; destruct x as [| [] | |]; simpl in F; discriminate. }
  split; [auto|]. split; [auto|].
  generalize (Bminus_correct 53 1024 _ _ mode_NE x y Fx Fy). simpl round_mode.
  case Rlt_bool_spec; intros H [H1 H2]; [tauto|].
  apply overflow_not_finite in H1. congruence.
Qed.

Lemma fin_mult (x y : f64) : is_finite (Bmult mode_NE x y) = true ->
  is_finite x = true /\ is_finite y = true /\ val (Bmult mode_NE x y) = rnd64 (val x * val y).
Proof.
  intros F.
  assert (Fx : is_finite x = true).
  { destruct x as [| [] | |]; auto; destruct y as [| [] | |]; simpl in F; discriminate. }
  assert (Fy : is_finite y = true).
  { destruct y as [| [] | |]; auto; destruct x as [| [] | |]; simpl in F; discriminate. }
  split; [auto|]. split; [auto|].
  generalize (Bmult_correct 53 1024 _ _ mode_NE x y). simpl round_mode.
  case Rlt_bool_spec; intros H H1; [tauto|].
  apply overflow_not_finite in H1. congruence.
Qed.

(** A quotient can be finite with an infinite divisor. *)
Lemma fin_div (x y : f64) : is_finite y = true -> is_finite (Bdiv mode_NE x y) = true ->
  is_finite x = true /\ val y <> 0 /\ val (Bdiv mode_NE x y) = rnd64 (val x / val y).
Proof.
  intros Fy F.
  assert (Fx : is_finite x = true).
  { destruct x as [| [] | |]; auto; destruct y as [| [] | |]; simpl in F; discriminate. }
  assert (Hy : val y <> 0).
  { intros Z. destruct y as [b| | |s m e B]; try discriminate.
    - destruct x as [| | |]; discriminate.
    - simpl in Z. apply (F2R_neq_0 radix2 (Float radix2 (cond_Zopp s (Zpos m)) e)) in Z; [exact Z|]. destruct s; discriminate. }
  split; [auto|]. split; [auto|].
  generalize (Bdiv_correct 53 1024 _ _ mode_NE x y Hy). simpl round_mode.
  case Rlt_bool_spec; intros H H1; [tauto|].
  apply overflow_not_finite in H1. congruence.
Qed.

Lemma plus_err (x y : f64) : is_finite (Bplus mode_NE x y) = true ->
  Rabs (val (Bplus mode_NE x y) - (val x + val y)) <= u53 * Rabs (val x + val y).
Proof. intros F. destruct (fin_plus x y F) as (_ & _ & E). rewrite E. apply sum_err; apply fmt64_val. Qed.

Lemma minus_err (x y : f64) : is_finite (Bminus mode_NE x y) = true ->
  Rabs (val (Bminus mode_NE x y) - (val x - val y)) <= u53 * Rabs (val x - val y).
Proof.
  intros F. destruct (fin_minus x y F) as (_ & _ & E). rewrite E. unfold Rminus at 2 3.
  apply sum_err; [apply fmt64_val|]. apply generic_format_opp, fmt64_val.
Qed.

Lemma mult_err (x y : f64) : is_finite (Bmult mode_NE x y) = true ->
  Rabs (val (Bmult mode_NE x y) - val x * val y) <= u53 * Rabs (val x * val y) + eta64.
Proof. intros F. destruct (fin_mult x y F) as (_ & _ & E). rewrite E. apply rnd_err. Qed.

Lemma div_err (x y : f64) : is_finite y = true -> is_finite (Bdiv mode_NE x y) = true ->
  Rabs (val (Bdiv mode_NE x y) - val x / val y) <= u53 * Rabs (val x / val y) + eta64.
Proof. intros Fy F. destruct (fin_div x y Fy F) as (_ & _ & E). rewrite E. apply rnd_err. Qed.
