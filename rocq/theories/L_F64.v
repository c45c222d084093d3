(** Facts about the binary64 operations of F64.v. *)
From Coq Require Import ZArith Reals Bool Lia Lra Psatz.
From Flocq Require Import Core.Core IEEE754.BinarySingleNaN.
From Verif Require Import Num NumFun F64.
Open Scope R_scope.

Notation fexp64 := (SpecFloat.fexp 53 1024).
Notation rnd64 := (round radix2 (SpecFloat.fexp 53 1024) ZnearestE).
Notation fmt64 := (generic_format radix2 (SpecFloat.fexp 53 1024)).
Notation "'val' x" := (B2R (prec := 53) (emax := 1024) x) (at level 9).

Global Instance fexp64_valid : Valid_exp (SpecFloat.fexp 53 1024) := fexp_correct 53 1024 _.
Global Instance fexp64_monotone : Monotone_exp (SpecFloat.fexp 53 1024) := FLT_exp_monotone (-1074) 53.

Lemma fmt64_F2R m e : (-1074 <= e)%Z -> (Z.abs m < 2 ^ 53)%Z -> fmt64 (F2R (Float radix2 m e)).
Proof.
  intros He Hm. change (generic_format radix2 (FLT_exp (-1074) 53) (F2R (Float radix2 m e))).
  apply generic_format_FLT. exists (Float radix2 m e); auto.
Qed.

Lemma fmt64_bpow e : (-1074 <= e)%Z -> fmt64 (bpow radix2 e).
Proof.
  intros He. replace (bpow radix2 e) with (F2R (Float radix2 1 e)).
  - apply fmt64_F2R; auto. reflexivity.
  - unfold F2R. simpl. ring.
Qed.

Lemma fmt64_IZR z : (Z.abs z < 2 ^ 53)%Z -> fmt64 (IZR z).
Proof.
  intros H. replace (IZR z) with (F2R (Float radix2 z 0)).
  - apply fmt64_F2R; auto. lia.
  - unfold F2R. simpl. ring.
Qed.

Lemma rnd64_id x : fmt64 x -> rnd64 x = x.
Proof. intros H. apply round_generic; auto with typeclass_instances. Qed.

Lemma rnd64_le x y : x <= y -> rnd64 x <= rnd64 y.
Proof. intros H. apply round_le; auto with typeclass_instances. Qed.

Lemma fmt64_val (x : f64) : fmt64 (val x).
Proof. apply generic_format_B2R. Qed.

(** The largest finite number. *)
Definition fmax64 : R := F2R (Float radix2 (2 ^ 53 - 1) 971).

Lemma fmax64_lt : fmax64 < bpow radix2 1024.
Proof.
  cbv [fmax64 F2R Fnum Fexp].
  replace (bpow radix2 1024) with (IZR (2 ^ 53) * bpow radix2 971).
  - apply Rmult_lt_compat_r; [apply bpow_gt_0|]. apply IZR_lt. lia.
  - change (2 ^ 53)%Z with (Zpower radix2 53). rewrite IZR_Zpower by lia.
    rewrite <- bpow_plus. reflexivity.
Qed.

Lemma fmax64_fmt : fmt64 fmax64.
Proof. apply fmt64_F2R; lia. Qed.

Lemma abs_val_fmax (x : f64) : Rabs (val x) <= fmax64.
Proof.
  replace fmax64 with (bpow radix2 1024 - bpow radix2 (1024 - 53)); [apply abs_B2R_le_emax_minus_prec; exact prec53|].
  cbv [fmax64 F2R Fnum Fexp].
  rewrite (minus_IZR (2 ^ 53) 1). change (2 ^ 53)%Z with (Zpower radix2 53). rewrite IZR_Zpower by lia.
  rewrite Rmult_minus_distr_r, <- bpow_plus. simpl (53 + 971)%Z. change (1024 - 53)%Z with 971%Z. ring.
Qed.

(** No overflow below fmax64 + 2^969 (in fact below fmax64 + 2^970). *)
Lemma no_overflow x : Rabs x <= fmax64 + bpow radix2 969 -> Rabs (rnd64 x) < bpow radix2 1024.
Proof.
  intros H. apply Rle_lt_trans with fmax64; [|apply fmax64_lt].
  assert (Hs : succ radix2 fexp64 fmax64 = fmax64 + bpow radix2 971).
  { rewrite succ_eq_pos.
    - f_equal. rewrite ulp_neq_0.
      + f_equal. unfold cexp. unfold fmax64. rewrite mag_F2R by lia.
        replace (mag radix2 (IZR (2 ^ 53 - 1)) + 971)%Z with 1024%Z; [reflexivity|].
        rewrite (mag_unique_pos radix2 _ 53); [reflexivity|]. simpl. lra.
      + unfold fmax64. apply Rgt_not_eq. apply F2R_gt_0. simpl. lia.
    - unfold fmax64. apply F2R_ge_0. simpl. lia. }
  assert (Hb : 0 < bpow radix2 969) by apply bpow_gt_0.
  assert (Hb2 : bpow radix2 971 = 4 * bpow radix2 969).
  { change 971%Z with (2 + 969)%Z. rewrite bpow_plus. reflexivity. }
  assert (U : forall y, y <= fmax64 + bpow radix2 969 -> rnd64 y <= fmax64).
  { intros y Hy. apply round_N_le_midp; auto with typeclass_instances.
    - apply fmax64_fmt.
    - rewrite Hs, Hb2. lra. }
  apply Rabs_le_inv in H. apply Rabs_le. split.
  - assert (Hz := U (- x) ltac:(lra)). rewrite round_NE_opp in Hz. lra.
  - apply U. lra.
Qed.

Lemma plus_ok (x y : f64) : is_finite x = true -> is_finite y = true ->
  Rabs (val x + val y) <= fmax64 + bpow radix2 969 ->
  is_finite (Bplus mode_NE x y) = true /\ val (Bplus mode_NE x y) = rnd64 (val x + val y).
Proof.
  intros Fx Fy H. generalize (Bplus_correct 53 1024 _ _ mode_NE x y Fx Fy).
  simpl round_mode. rewrite Rlt_bool_true by (apply no_overflow; auto). tauto.
Qed.

Lemma minus_ok (x y : f64) : is_finite x = true -> is_finite y = true ->
  Rabs (val x - val y) <= fmax64 + bpow radix2 969 ->
  is_finite (Bminus mode_NE x y) = true /\ val (Bminus mode_NE x y) = rnd64 (val x - val y).
Proof.
  intros Fx Fy H. generalize (Bminus_correct 53 1024 _ _ mode_NE x y Fx Fy).
  simpl round_mode. rewrite Rlt_bool_true by (apply no_overflow; auto). tauto.
Qed.

Lemma mult_ok (x y : f64) : is_finite x = true -> is_finite y = true ->
  Rabs (val x * val y) <= fmax64 + bpow radix2 969 ->
  is_finite (Bmult mode_NE x y) = true /\ val (Bmult mode_NE x y) = rnd64 (val x * val y).
Proof.
  intros Fx Fy H. generalize (Bmult_correct 53 1024 _ _ mode_NE x y).
  simpl round_mode. rewrite Rlt_bool_true by (apply no_overflow; auto).
  intros (H1 & H2 & _). rewrite Fx, Fy in H2. auto.
Qed.

Lemma div_ok (x y : f64) : is_finite x = true -> is_finite y = true -> val y <> 0 ->
  Rabs (val x / val y) <= fmax64 + bpow radix2 969 ->
  is_finite (Bdiv mode_NE x y) = true /\ val (Bdiv mode_NE x y) = rnd64 (val x / val y).
Proof.
  intros Fx Fy Hy H. generalize (Bdiv_correct 53 1024 _ _ mode_NE x y Hy).
  simpl round_mode. rewrite Rlt_bool_true by (apply no_overflow; auto).
  intros (H1 & H2 & _). rewrite Fx in H2. auto.
Qed.

Lemma big64 : bpow radix2 1000 <= fmax64.
Proof.
  cbv [fmax64 F2R Fnum Fexp]. change 1000%Z with (29 + 971)%Z. rewrite bpow_plus.
  apply Rmult_le_compat_r; [apply bpow_ge_0|]. simpl. lra.
Qed.

Lemma small_no_overflow x : Rabs x <= bpow radix2 1000 -> Rabs x <= fmax64 + bpow radix2 969.
Proof. intros H. assert (Hb := big64). assert (0 < bpow radix2 969) by apply bpow_gt_0. lra. Qed.

Lemma ofZ_gen (z : Z) : (Z.abs z <= 2 ^ 64)%Z ->
  is_finite (f64_ofZ z) = true /\ val (f64_ofZ z) = rnd64 (IZR z).
Proof.
  intros H. unfold f64_ofZ. generalize (binary_normalize_correct 53 1024 _ _ mode_NE z 0 false).
  cbv zeta. simpl round_mode. replace (F2R (Float radix2 z 0)) with (IZR z) by (unfold F2R; simpl; ring).
  rewrite Rlt_bool_true; [tauto|]. apply no_overflow. apply small_no_overflow.
  apply Rle_trans with (bpow radix2 64).
  - rewrite <- abs_IZR. change (bpow radix2 64) with (IZR (2 ^ 64)). apply IZR_le. auto.
  - apply bpow_le. lia.
Qed.

Lemma ofZ_ok (z : Z) : (Z.abs z < 2 ^ 53)%Z ->
  is_finite (f64_ofZ z) = true /\ val (f64_ofZ z) = IZR z.
Proof.
  intros H. destruct (ofZ_gen z ltac:(lia)) as [H1 H2]. split; auto.
  rewrite H2. apply rnd64_id, fmt64_IZR, H.
Qed.

Lemma bounded64 m e : SpecFloat.bounded 53 1024 m e = true -> (Zpos m < 2 ^ 53 /\ -1074 <= e)%Z.
Proof.
  intros E. apply andb_prop in E. destruct E as [E1 _].
  unfold SpecFloat.canonical_mantissa in E1. apply Zeq_bool_eq in E1. unfold SpecFloat.fexp, SpecFloat.emin in E1.
  split; [|lia]. assert (Hd : (Zpos (SpecFloat.digits2_pos m) <= 53)%Z) by lia.
  rewrite Digits.Zpos_digits2_pos in Hd. change 2%Z with (radix_val radix2).
  exact (Digits.Zpower_gt_Zdigits radix2 53 (Zpos m) Hd).
Qed.

Lemma cond_Zopp_mul s a b : SpecFloat.cond_Zopp s (a * b) = (SpecFloat.cond_Zopp s a * b)%Z.
Proof. destruct s; unfold SpecFloat.cond_Zopp; ring. Qed.

(** fmod is exact. *)
Lemma fmod_ok (x y : f64) : is_finite x = true -> is_finite y = true -> val y <> 0 ->
  is_finite (f64_fmod x y) = true /\ val (f64_fmod x y) = Rfmod (val x) (val y).
Proof.
  intros Fx Fy Hy. destruct y as [sy|sy| |sy my ey Ey]; try discriminate; [simpl in Hy; lra|].
  destruct x as [sx|sx| |sx mx ex Ex]; try discriminate.
  - split; [reflexivity|]. unfold Rfmod. cbn [B2R]. unfold Rdiv. rewrite Rmult_0_l.
    replace (Ztrunc 0) with 0%Z by (symmetry; apply (Ztrunc_IZR 0)). rewrite Rmult_0_r, Rminus_0_r. reflexivity.
  - unfold f64_fmod. set (e := Z.min ex ey).
    set (a := cond_Zopp sx (Zpos mx * 2 ^ (ex - e))). set (b := (Zpos my * 2 ^ (ey - e))%Z).
    destruct (bounded64 _ _ Ex) as [Bx Gx]. destruct (bounded64 _ _ Ey) as [By Gy].
    assert (He : (-1074 <= e)%Z) by (unfold e; lia).
    assert (Hb : (0 < b)%Z) by (unfold b; assert (0 < 2 ^ (ey - e))%Z by (apply Z.pow_pos_nonneg; lia); nia).
    assert (Vx : F2R (Float radix2 (cond_Zopp sx (Zpos mx)) ex) = IZR a * bpow radix2 e).
    { unfold F2R, a. cbn [Fnum Fexp].
      rewrite cond_Zopp_mul, mult_IZR. change (2 ^ (ex - e))%Z with (Zpower radix2 (ex - e)). rewrite IZR_Zpower by lia.
      rewrite Rmult_assoc, <- bpow_plus. do 2 f_equal. lia. }
    assert (Vy : F2R (Float radix2 (cond_Zopp sy (Zpos my)) ey) = (if sy then - (IZR b) else IZR b) * bpow radix2 e).
    { unfold F2R, b. cbn [Fnum Fexp]. rewrite mult_IZR. change (2 ^ (ey - e))%Z with (Zpower radix2 (ey - e)). rewrite IZR_Zpower by lia.
      replace (bpow radix2 ey) with (bpow radix2 (ey - e) * bpow radix2 e) by (rewrite <- bpow_plus; f_equal; lia).
      destruct sy; unfold SpecFloat.cond_Zopp; rewrite ?opp_IZR; ring. }
    assert (Hp : 0 < bpow radix2 e) by apply bpow_gt_0.
    assert (Hbr : 0 < IZR b) by (apply IZR_lt; auto).
    assert (V : Rfmod (val (B754_finite sx mx ex Ex)) (val (B754_finite sy my ey Ey)) = F2R (Float radix2 (Z.rem a b) e)).
    { unfold Rfmod. cbn [B2R]. rewrite Vx, Vy. unfold F2R. simpl.
      rewrite (Z.rem_eq a b) by lia. rewrite minus_IZR, mult_IZR.
      assert (Hq : Ztrunc (IZR a / IZR b) = Z.quot a b) by (apply Ztrunc_div; lia).
      destruct sy.
      - replace (IZR a * bpow radix2 e / (- IZR b * bpow radix2 e)) with (- (IZR a / IZR b)) by (field; lra).
        rewrite Ztrunc_opp, Hq, opp_IZR. ring.
      - replace (IZR a * bpow radix2 e / (IZR b * bpow radix2 e)) with (IZR a / IZR b) by (field; lra).
        rewrite Hq. ring. }
    rewrite V.
    assert (Ha : (Z.abs (Z.rem a b) <= Z.abs a)%Z) by (rewrite <- Z.rem_abs by lia; apply Z.rem_le; lia).
    assert (Hlt : (Z.abs (Z.rem a b) < b)%Z) by (assert (H := Z.rem_bound_abs a b ltac:(lia)); lia).
    assert (Hm : (Z.abs (Z.rem a b) < 2 ^ 53)%Z).
    { destruct (Z.le_gt_cases ex ey) as [H|H].
      - assert (E : e = ex) by (unfold e; lia). assert (Z.abs a = Zpos mx); [|lia].
        unfold a. rewrite E, Z.sub_diag. simpl. destruct sx; simpl; lia.
      - assert (E : e = ey) by (unfold e; lia). assert (b = Zpos my); [|lia].
        unfold b. rewrite E, Z.sub_diag. simpl. lia. }
    generalize (binary_normalize_correct 53 1024 _ _ mode_NE (Z.rem a b) e sx). cbv zeta. simpl round_mode.
    assert (Hr : rnd64 (F2R (Float radix2 (Z.rem a b) e)) = F2R (Float radix2 (Z.rem a b) e)).
    { apply rnd64_id, fmt64_F2R; auto. }
    rewrite Hr. rewrite Rlt_bool_true; [tauto|].
    apply Rle_lt_trans with (Rabs (val (B754_finite sx mx ex Ex))); [|apply abs_B2R_lt_emax].
    cbn [B2R]. rewrite Vx. unfold F2R. simpl. rewrite !Rabs_mult.
    apply Rmult_le_compat_r; [apply Rabs_pos|]. rewrite <- !abs_IZR. apply IZR_le. exact Ha.
Qed.
