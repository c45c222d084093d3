(** Basic functions in binary64: special values and rounding. *)
From Coq Require Import List Arith ZArith Reals Bool Lia Lra Psatz.
From Flocq Require Import Core.Core IEEE754.BinarySingleNaN.
From Verif Require Import Outcome Num NumFun F64 M_Basics L_F64 L_Linspace64 L_F64Err S_Angles S_Double S_Special64 L_Series64 L_Interp64.
Import ListNotations.
Local Open Scope R_scope.

(** ** Comparisons *)
Lemma nlt_fin (x y : f64) : is_finite x = true -> is_finite y = true -> nlt x y = true <-> val x < val y.
Proof.
  intros Fx Fy. change (nlt x y) with (Bltb x y). rewrite Bltb_correct by auto. split.
  - intros H. destruct (Rlt_bool_spec (B2R x) (B2R y)); [auto|discriminate].
  - intros H. apply Rlt_bool_true. exact H.
Qed.
Lemma nle_fin (x y : f64) : is_finite x = true -> is_finite y = true -> nle x y = true <-> val x <= val y.
Proof.
  intros Fx Fy. change (nle x y) with (Bleb x y). rewrite Bleb_correct by auto. split.
  - intros H. destruct (Rle_bool_spec (B2R x) (B2R y)); [auto|discriminate].
  - intros H. apply Rle_bool_true. exact H.
Qed.
Lemma nlt_ge (x y : f64) : is_finite x = true -> is_finite y = true -> val y <= val x -> nlt x y = false.
Proof. intros Fx Fy H. destruct (nlt x y) eqn:E; auto. apply (nlt_fin x y Fx Fy) in E. lra. Qed.
Lemma nlt_lt (x y : f64) : is_finite x = true -> is_finite y = true -> val x < val y -> nlt x y = true.
Proof. intros Fx Fy H. apply nlt_fin; auto. Qed.
Lemma nle_nan_l (y : f64) : nle (B754_nan : f64) y = false.
Proof. reflexivity. Qed.
Lemma nle_nan_r (x : f64) : nle x (B754_nan : f64) = false.
Proof. destruct x as [| [] | |]; reflexivity. Qed.
Lemma is_nan_eq (x : f64) : is_nan x = true -> x = B754_nan.
Proof. destruct x; simpl; congruence. Qed.

(** [<=] is the negation of [>] except on NaN, and is total. *)
Lemma nle_nlt (x y : f64) : is_nan x = false -> is_nan y = false -> nle x y = negb (nlt y x).
Proof.
  intros Nx Ny.
  assert (A : nle x y = match Bcompare x y with Some Lt | Some Eq => true | _ => false end) by reflexivity.
  assert (B : nlt y x = match Bcompare y x with Some Lt => true | _ => false end) by reflexivity.
  rewrite A, B, (Bcompare_swap _ _ x y). clear A B.
  assert (T : exists c, Bcompare x y = Some c).
  { destruct x as [| [] | |[]]; try discriminate; destruct y as [| [] | |[]]; try discriminate; cbv -[Z.compare Pos.compare]; eauto. }
  destruct T as [c ->]. destruct c; reflexivity.
Qed.

(** ** Saturate *)
Lemma saturate_double_lemma : forall v lo hi : f64,
  let r := Saturate v lo hi in
  (r = v \/ r = lo \/ r = hi) /\
  (is_nan v = true -> r = v) /\
  (is_nan v = false -> is_nan lo = false -> is_nan hi = false -> nle lo hi = true ->
     nle lo r = true /\ nle r hi = true /\ (nle lo v = true -> nle v hi = true -> r = v)).
Proof.
  intros v lo hi. cbv zeta. unfold Saturate. split; [|split].
  - destruct (nlt hi v); destruct (nlt _ lo); auto.
  - intros N. apply is_nan_eq in N. subst v. rewrite nlt_nan_r, nlt_nan_l. reflexivity.
  - intros Nv Nl Nh H.
    assert (S : forall x : f64, is_nan x = false -> nle x x = true).
    { intros x Nx. rewrite nle_nlt by auto. destruct x as [| [] | |s m e B]; try discriminate; try reflexivity.
      change (nlt ?a ?b) with (Bltb a b). rewrite Bltb_correct by reflexivity. rewrite Rlt_bool_false; auto. apply Rle_refl. }
    assert (H' : nlt hi lo = false) by (rewrite nle_nlt in H by auto; destruct (nlt hi lo); auto; discriminate).
    rewrite (nle_nlt lo v), (nle_nlt v hi) by auto.
    destruct (nlt hi v) eqn:E1.
    + rewrite H'. split; [auto|]. split; [auto|]. intros _ K. discriminate.
    + destruct (nlt v lo) eqn:E2.
      * split; [auto|]. split; [auto|]. intros K _. discriminate.
      * rewrite !nle_nlt by auto. rewrite E1, E2. auto.
Qed.

(** ** sgn and Heaviside *)
Lemma sgn_double_lemma : forall v : f64,
  (is_nan v = true -> sgn v = 0%Z) /\
  (is_finite v = true -> (0 < dvalue v -> sgn v = 1%Z) /\ (dvalue v = 0 -> sgn v = 0%Z) /\ (dvalue v < 0 -> sgn v = (-1)%Z)).
Proof.
  intros v. split.
  - intros N. apply is_nan_eq in N. subst v. reflexivity.
  - intros F. change (dvalue v) with (val v). unfold sgn.
    assert (F0 : is_finite (nofZ 0 : f64) = true) by reflexivity. assert (V0 : val (nofZ 0 : f64) = 0) by reflexivity.
    split; [|split]; intros H.
    + rewrite (nlt_lt (nofZ 0) v), (nlt_ge v (nofZ 0)) by (auto; lra). reflexivity.
    + rewrite (nlt_ge (nofZ 0) v), (nlt_ge v (nofZ 0)) by (auto; lra). reflexivity.
    + rewrite (nlt_ge (nofZ 0) v), (nlt_lt v (nofZ 0)) by (auto; lra). reflexivity.
Qed.

Lemma half64 : is_finite (nlit 1 2 : f64) = true /\ val (nlit 1 2 : f64) = / 2.
Proof.
  split; [vm_compute; reflexivity|]. rewrite (val_pos _ 4503599627370496 53) by (vm_compute; reflexivity).
  simpl. lra.
Qed.

Lemma heaviside_double_lemma : forall (x : list f64) s, Forall2 (is_heaviside s) x (Heaviside x s).
Proof.
  intros x s. induction x as [|v x IH]; [constructor|]. constructor; [|exact IH]. clear IH.
  unfold is_heaviside. unfold dvalue.
  assert (V0 : val (nofZ 0 : f64) = 0) by reflexivity. destruct (ofZ_ok 1 ltac:(lia)) as [F1 V1]. destruct half64 as [F2 V2].
  split; [|split].
  - destruct (nlt v s); [reflexivity|]. destruct (nlt s v); [exact F1|exact F2].
  - intros [N|N]; apply is_nan_eq in N; subst; rewrite ?nlt_nan_l, ?nlt_nan_r; exact V2.
  - intros Fv Fs. split; [|split]; intros H.
    + rewrite (nlt_lt v s) by auto. exact V0.
    + rewrite (nlt_ge v s), (nlt_ge s v) by (auto; lra). exact V2.
    + rewrite (nlt_ge v s), (nlt_lt s v) by (auto; lra). exact V1.
Qed.

(** ** IsClose *)
Lemma abs_fin (x : f64) : is_finite (Babs x) = is_finite x.
Proof. apply is_finite_Babs. Qed.
Lemma abs_val (x : f64) : val (Babs x) = Rabs (val x).
Proof. apply B2R_Babs. Qed.

Lemma big1003 : 8 * bpow radix2 1000 <= fmax64.
Proof.
  apply Rle_trans with (bpow radix2 1003); [right; change 1003%Z with (3 + 1000)%Z; rewrite bpow_plus; reflexivity|].
  unfold fmax64, F2R, Fnum, Fexp. change 1003%Z with (32 + 971)%Z. rewrite bpow_plus. apply Rmult_le_compat_r; [apply bpow_ge_0|].
  rewrite <- IZR_Zpower by lia. apply IZR_le. vm_compute. discriminate.
Qed.

Lemma isclose_double_lemma : forall a b rtol atol : f64,
  is_finite a = true -> is_finite b = true -> is_finite rtol = true -> is_finite atol = true ->
  Rabs (dvalue a) <= 2 ^ 1000 -> Rabs (dvalue b) <= 2 ^ 1000 -> 0 <= dvalue rtol <= 1 -> 0 <= dvalue atol <= 2 ^ 1000 ->
  let t := dvalue atol + dvalue rtol * Rabs (dvalue b) in
  (IsClose a b rtol atol = true -> Rabs (dvalue a - dvalue b) <= (1 + 4 * uround) * t + 2 * uflow) /\
  (Rabs (dvalue a - dvalue b) <= (1 - 4 * uround) * t - 2 * uflow -> IsClose a b rtol atol = true).
Proof.
  intros a b rt at_ Fa Fb Fr Ft. unfold dvalue. intros Ha Hb Hr Ht. cbv zeta.
  change uround with u53. replace uflow with eta64 by (symmetry; apply uflow_eta).
  assert (B10 : 2 ^ 1000 = bpow radix2 1000) by (rewrite bpow_powerRZ; reflexivity). rewrite B10 in *.
  set (K := bpow radix2 1000) in *.
  assert (BK := big1003). fold K in BK.
  assert (P969 := bpow_gt_0 radix2 969). assert (U := u_small). assert (E0 := eta64_pos).
  assert (KP : 0 < K) by apply bpow_gt_0.
  assert (E1 : eta64 <= K). { unfold eta64, K. apply Rle_trans with (1 * bpow radix2 (-1074)); [apply Rmult_le_compat_r; [apply bpow_ge_0|lra]|].
    rewrite Rmult_1_l. apply bpow_le. lia. }
  assert (Ap := Rabs_pos (val a)). assert (Bp := Rabs_pos (val b)).
  (* a - b *)
  destruct (minus_ok a b Fa Fb) as [Fd Vd].
  { assert (T := Rabs_triang (val a) (- val b)). rewrite Rabs_Ropp in T. unfold Rminus. lra. }
  assert (Ed := minus_err a b Fd). set (d := val a - val b) in *.
  assert (Ed' : (1 - u53) * Rabs d <= Rabs (val (a -! b)) <= (1 + u53) * Rabs d).
  { assert (T1 := Rabs_triang_inv (val (a -! b)) d). assert (T2 := Rabs_triang_inv d (val (a -! b))).
    rewrite (Rabs_minus_sym d) in T2. lra. }
  (* rtol * |b| *)
  set (p := val rt * Rabs (val b)) in *.
  assert (Hp : 0 <= p <= K). { unfold p. split; [apply Rmult_le_pos; lra|]. apply Rle_trans with (1 * Rabs (val b)); [|lra]. apply Rmult_le_compat_r; lra. }
  destruct (mult_ok rt (Babs b) Fr) as [Fp Vp]; [rewrite abs_fin; auto|rewrite abs_val; fold p; rewrite Rabs_pos_eq by lra; lra|].
  assert (Ep := mult_err rt (Babs b) Fp). rewrite abs_val in Ep. fold p in Ep. rewrite (Rabs_pos_eq p) in Ep by lra.
  set (q := rt *! Babs b) in *. apply Rabs_le_inv in Ep.
  assert (Up : 0 <= u53 * p <= p). { split; [apply Rmult_le_pos; lra|]. rewrite <- (Rmult_1_l p) at 2. apply Rmult_le_compat_r; lra. }
  assert (Hq : 0 <= val q).
  { rewrite Vp. apply round_ge_generic; auto with typeclass_instances; [apply generic_format_0|]. rewrite abs_val. fold p. lra. }
  destruct (plus_ok at_ q Ft Fp) as [Fs Vs]; [rewrite Rabs_pos_eq by lra; lra|].
  assert (Es := plus_err at_ q Fs). rewrite (Rabs_pos_eq (val at_ + val q)) in Es by lra. apply Rabs_le_inv in Es.
  set (s := at_ +! q) in *.
  assert (I : IsClose a b rt at_ = true <-> Rabs (val (a -! b)) <= val s).
  { unfold IsClose. change (nfabs (a - b)%num) with (Babs (a -! b)). change (at_ + rt * nfabs b)%num with s.
    rewrite nle_fin; [rewrite abs_val; reflexivity|rewrite abs_fin; auto|auto]. }
  rewrite I. clear I. set (D := Rabs d) in *. set (A := val at_) in *. set (w := val q) in *. set (z := val s) in *.
  set (m := Rabs (val (a -! b))) in *. assert (D0 : 0 <= D) by apply Rabs_pos.
  assert (UD : 0 <= u53 * D) by (apply Rmult_le_pos; lra). assert (UA : 0 <= u53 * A) by (apply Rmult_le_pos; lra).
  split; intros H.
  - apply Rmult_le_reg_l with (1 - u53); [lra|]. apply Rle_trans with ((1 + u53) * (A + ((1 + u53) * p + eta64))); [|nra].
    apply Rle_trans with ((1 + u53) * (A + w)); [lra|]. apply Rmult_le_compat_l; lra.
  - apply Rle_trans with ((1 + u53) * D); [lra|]. apply Rle_trans with ((1 - u53) * (A + ((1 - u53) * p - eta64))).
    + apply Rle_trans with ((1 + u53) * ((1 - 4 * u53) * (A + p) - 2 * eta64)); [apply Rmult_le_compat_l; lra|]. nra.
    + apply Rle_trans with ((1 - u53) * (A + w)); [apply Rmult_le_compat_l; lra|lra].
Qed.

Lemma isclose_nan_lemma : forall a b rtol atol : f64,
  is_nan a = true \/ is_nan b = true \/ is_nan rtol = true \/ is_nan atol = true -> IsClose a b rtol atol = false.
Proof.
  intros a b rt at_ H. unfold IsClose. change (nfabs (a - b)%num) with (Babs (a -! b)).
  change (at_ + rt * nfabs b)%num with (at_ +! rt *! Babs b).
  destruct H as [N|[N|[N|N]]]; apply is_nan_eq in N; subst.
  - reflexivity.
  - replace (a -! B754_nan) with (B754_nan : f64) by (destruct a; reflexivity). reflexivity.
  - replace (at_ +! B754_nan *! Babs b) with (B754_nan : f64) by (destruct at_; reflexivity). apply nle_nan_r.
  - apply nle_nan_r.
Qed.

(** Infinite operands. *)
Lemma pos_finite (x : f64) : is_finite x = true -> 0 < val x -> exists m e B, x = B754_finite false m e B.
Proof.
  destruct x as [s| | |s m e B]; simpl; intros F H; try discriminate; try lra.
  destruct s; [|eauto]. exfalso. unfold F2R in H. simpl in H. assert (P := bpow_gt_0 radix2 e).
  assert (IZR (Zneg m) <= -1) by (apply IZR_le; lia). nra.
Qed.

Lemma isclose_infinite_lemma : forall (a rtol atol : f64) s,
  is_finite a = true -> is_finite rtol = true -> 0 < dvalue rtol -> is_finite atol = true ->
  IsClose a (B754_infinity s) rtol atol = true.
Proof.
  intros a rt at_ s Fa Fr Hr Ft. unfold dvalue in Hr. unfold IsClose.
  change (nfabs (a - B754_infinity s)%num) with (Babs (a -! B754_infinity s)).
  change (at_ + rt * nfabs (B754_infinity s))%num with (at_ +! rt *! Babs (B754_infinity s)).
  destruct (pos_finite rt Fr Hr) as (m & e & B & ->).
  replace (at_ +! B754_finite false m e B *! Babs (B754_infinity s)) with (B754_infinity false : f64) by (destruct at_; try discriminate Ft; reflexivity).
  replace (Babs (a -! B754_infinity s)) with (B754_infinity false : f64) by (destruct a; try discriminate Fa; destruct s; reflexivity).
  reflexivity.
Qed.

Lemma isclose_inf_inf_lemma : forall (rtol atol : f64) s, IsClose (B754_infinity s) (B754_infinity s) rtol atol = false.
Proof.
  intros rt at_ s. unfold IsClose. replace (nfabs (B754_infinity s - B754_infinity s)%num) with (B754_nan : f64) by (destruct s; reflexivity).
  reflexivity.
Qed.

Lemma isclose_inf_finite_lemma : forall (b rtol atol : f64) s,
  is_finite b = true -> is_finite rtol = true -> is_finite atol = true ->
  Rabs (dvalue b) <= 2 ^ 1000 -> 0 <= dvalue rtol <= 1 -> 0 <= dvalue atol <= 2 ^ 1000 ->
  IsClose (B754_infinity s) b rtol atol = false.
Proof.
  intros b rt at_ s Fb Fr Ft. unfold dvalue. intros Hb Hr Ht.
  assert (B10 : 2 ^ 1000 = bpow radix2 1000) by (rewrite bpow_powerRZ; reflexivity). rewrite B10 in *.
  set (K := bpow radix2 1000) in *. assert (BK := big1003). fold K in BK.
  assert (P969 := bpow_gt_0 radix2 969). assert (KP : 0 < K) by apply bpow_gt_0. assert (Bp := Rabs_pos (val b)).
  set (p := val rt * Rabs (val b)) in *.
  assert (Hp : 0 <= p <= K). { unfold p. split; [apply Rmult_le_pos; lra|]. apply Rle_trans with (1 * Rabs (val b)); [|lra]. apply Rmult_le_compat_r; lra. }
  destruct (mult_ok rt (Babs b) Fr) as [Fp Vp]; [rewrite abs_fin; auto|rewrite abs_val; fold p; rewrite Rabs_pos_eq by lra; lra|].
  rewrite abs_val in Vp. fold p in Vp.
  assert (Hq : 0 <= val (rt *! Babs b) <= K).
  { rewrite Vp. split; [apply round_ge_generic|apply round_le_generic]; auto with typeclass_instances;
      [apply generic_format_0|lra|apply fmt64_bpow; lia|lra]. }
  destruct (plus_ok at_ (rt *! Babs b) Ft Fp) as [Fs Vs]; [rewrite Rabs_pos_eq by lra; lra|].
  unfold IsClose. change (nfabs (B754_infinity s - b)%num) with (Babs (B754_infinity s -! b)).
  change (at_ + rt * nfabs b)%num with (at_ +! rt *! Babs b).
  replace (Babs (B754_infinity s -! b)) with (B754_infinity false : f64) by (destruct b; try discriminate Fb; destruct s; reflexivity).
  destruct (at_ +! rt *! Babs b) as [| | |[]]; try discriminate Fs; reflexivity.
Qed.

Lemma isclose_infinity_refuted_pf : exists a b rtol atol : f64, is_finite a = true /\ is_finite b = false /\
  is_finite rtol = true /\ is_finite atol = true /\
  IsClose a b rtol atol = true /\ IsClose b a rtol atol = false.
Proof.
  exists (f64_ofZ 1), (B754_infinity false), (nlit 1 100000), (nlit 1 100000000).
  split; [reflexivity|]. split; [reflexivity|]. split; [vm_compute; reflexivity|]. split; [vm_compute; reflexivity|].
  split; vm_compute; reflexivity.
Qed.

(** ** Ramp *)
Section RampErr.
Context (x xm xM yl yr : f64).
Let D := val xM - val xm.
Let a := (val yr - val yl) / D.
Let fa := (yr -! yl) /! (xM -! xm).
Let fv := fa *! x +! (yl -! fa *! xm).
Hypothesis Fm : is_finite xm = true.
Hypothesis FM : is_finite xM = true.
Hypothesis HD : 0 < D <= fmax64.
Hypothesis Fv : is_finite fv = true.

Lemma rd_fin : is_finite (xM -! xm) = true /\ 0 < (1 - u53) * D /\ (1 - u53) * D <= val (xM -! xm) <= (1 + u53) * D.
Proof.
  assert (P969 := bpow_gt_0 radix2 969). assert (U := u_small).
  destruct (minus_ok xM xm FM Fm) as [Fd Vd]; [fold D; rewrite Rabs_pos_eq; lra|].
  assert (E := minus_err xM xm Fd). fold D in E. rewrite (Rabs_pos_eq D) in E by lra. apply Rabs_le_inv in E.
  split; [auto|]. split; [apply Rmult_lt_0_compat; lra|]. lra.
Qed.

Lemma ra_err : Rabs (val fa - a) <= 4 * u53 * Rabs a + eta64.
Proof.
  assert (U := u_small). assert (E0 := eta64_pos).
  destruct (fin_plus _ _ Fv) as (Fp & Fb & _). destruct (fin_mult _ _ Fp) as (Fa & _ & _).
  destruct rd_fin as (Fd & D0 & HDd). destruct (fin_div _ _ Fd Fa) as (Fn & _ & _).
  assert (En := minus_err yr yl Fn). assert (Eq := div_err _ _ Fd Fa). fold fa in Eq.
  set (d := val (xM -! xm)) in *. set (n := val (yr -! yl)) in *. set (N := val yr - val yl) in *.
  assert (dp : 0 < d) by lra.
  assert (Eq2 : Rabs (n / d - a) <= 2 * u53 / (1 - u53) * Rabs a).
  { replace (n / d - a) with ((n - N - a * (d - D)) / d) by (unfold a; field; lra).
    assert (Na : Rabs N = Rabs a * D) by (unfold a, Rdiv; rewrite Rabs_mult, Rabs_inv, (Rabs_pos_eq D) by lra; field; lra).
    unfold Rdiv at 1. rewrite Rabs_mult, Rabs_inv, (Rabs_pos_eq d) by lra.
    apply Rmult_le_reg_r with d; [lra|]. rewrite Rmult_assoc, Rinv_l, Rmult_1_r by lra.
    assert (T := Rabs_triang (n - N) (- (a * (d - D)))). rewrite Rabs_Ropp, Rabs_mult in T. unfold Rminus at 1.
    assert (Dd : Rabs (d - D) <= u53 * D) by (apply Rabs_le; lra).
    assert (Ap := Rabs_pos a).
    assert (T2 : Rabs a * Rabs (d - D) <= Rabs a * (u53 * D)) by (apply Rmult_le_compat_l; auto).
    apply Rle_trans with (2 * u53 * Rabs a * D); [rewrite Na in En; fold (n - N) in *; lra|].
    replace (2 * u53 / (1 - u53) * Rabs a * d) with (2 * u53 * Rabs a * (d / (1 - u53))) by (field; lra).
    apply Rmult_le_compat_l; [apply Rmult_le_pos; lra|]. apply Rmult_le_reg_r with (1 - u53); [lra|].
    unfold Rdiv. rewrite Rmult_assoc, Rinv_l; lra. }
  assert (Q : 2 * u53 / (1 - u53) <= 2001 / 1000 * u53).
  { apply Rmult_le_reg_r with (1 - u53); [lra|]. unfold Rdiv. rewrite Rmult_assoc, Rinv_l by lra. nra. }
  assert (Ap := Rabs_pos a). assert (UA : 0 <= u53 * Rabs a) by (apply Rmult_le_pos; lra).
  assert (Eq3 : Rabs (n / d - a) <= 2001 / 1000 * (u53 * Rabs a)).
  { apply Rle_trans with (1 := Eq2). rewrite <- Rmult_assoc. apply Rmult_le_compat_r; auto. }
  assert (T := Rabs_triang (val fa - n / d) (n / d - a)). replace (val fa - n / d + (n / d - a)) with (val fa - a) in T by ring.
  assert (T2 : Rabs (n / d) <= Rabs a + 2001 / 1000 * (u53 * Rabs a)).
  { assert (T3 := Rabs_triang_inv (n / d) a). lra. }
  assert (T4 : u53 * Rabs (n / d) <= u53 * (Rabs a + 2001 / 1000 * (u53 * Rabs a))) by (apply Rmult_le_compat_l; lra).
  assert (T5 : u53 * (u53 * Rabs a) <= / 1000000 * (u53 * Rabs a)) by (apply Rmult_le_compat_r; lra).
  lra.
Qed.

Lemma rp_err (t : f64) : is_finite (fa *! t) = true ->
  Rabs (val (fa *! t) - a * val t) <= 51 / 10 * u53 * (Rabs a * Rabs (val t)) + 2 * (eta64 * Rabs (val t)) + eta64.
Proof.
  intros Ft. assert (U := u_small). assert (E0 := eta64_pos). assert (Ea := ra_err). assert (Em := mult_err _ _ Ft).
  assert (Tp := Rabs_pos (val t)). assert (Ap := Rabs_pos a).
  rewrite Rabs_mult in Em. set (X := Rabs (val t)) in *. set (A := Rabs a) in *.
  assert (AX : 0 <= A * X) by (apply Rmult_le_pos; auto). assert (EX : 0 <= eta64 * X) by (apply Rmult_le_pos; lra).
  assert (T := Rabs_triang (val (fa *! t) - val fa * val t) ((val fa - a) * val t)).
  replace (val (fa *! t) - val fa * val t + (val fa - a) * val t) with (val (fa *! t) - a * val t) in T by ring.
  rewrite (Rabs_mult (val fa - a)) in T. fold X in T.
  assert (T1 : Rabs (val fa - a) * X <= (4 * u53 * A + eta64) * X) by (apply Rmult_le_compat_r; auto).
  assert (T2 : Rabs (val fa) <= A + (4 * u53 * A + eta64)). { assert (T3 := Rabs_triang_inv (val fa) a). fold A in T3. lra. }
  assert (T4 : Rabs (val fa) * X <= (A + (4 * u53 * A + eta64)) * X) by (apply Rmult_le_compat_r; auto).
  assert (UAX : 0 <= u53 * (A * X)) by (apply Rmult_le_pos; lra).
  assert (UEX : 0 <= u53 * (eta64 * X) <= eta64 * X). { split; [apply Rmult_le_pos; lra|]. rewrite <- (Rmult_1_l (eta64 * X)) at 2. apply Rmult_le_compat_r; lra. }
  assert (UUAX : u53 * (u53 * (A * X)) <= / 1000000 * (u53 * (A * X))) by (apply Rmult_le_compat_r; lra).
  assert (T5 : u53 * (Rabs (val fa) * X) <= u53 * ((A + (4 * u53 * A + eta64)) * X)) by (apply Rmult_le_compat_l; lra).
  lra.
Qed.

Lemma ramp_err : Rabs (val fv - (val yl + a * (val x - val xm))) <=
  8 * u53 * (Rabs (val yl) + Rabs a * (Rabs (val x) + Rabs (val xm))) + 3 * eta64 * (1 + Rabs (val x) + Rabs (val xm)).
Proof.
  assert (U := u_small). assert (E0 := eta64_pos).
  destruct (fin_plus _ _ Fv) as (Fp & Fb & _). destruct (fin_minus _ _ Fb) as (_ & Fq & _).
  assert (Ep := rp_err x Fp). assert (Eq := rp_err xm Fq). assert (Eb := minus_err _ _ Fb). assert (Ev := plus_err _ _ Fv). fold fv in Ev.
  assert (Ap := Rabs_pos a). assert (Xp := Rabs_pos (val x)). assert (Mp := Rabs_pos (val xm)). assert (Yp := Rabs_pos (val yl)).
  set (p := val (fa *! x)) in *. set (q := val (fa *! xm)) in *. set (b := val (yl -! fa *! xm)) in *. set (v := val fv) in *.
  set (A := Rabs a) in *. set (X := Rabs (val x)) in *. set (M := Rabs (val xm)) in *. set (Y := Rabs (val yl)) in *.
  assert (Bax : Rabs (a * val x) = A * X) by apply Rabs_mult. assert (Bam : Rabs (a * val xm) = A * M) by apply Rabs_mult.
  set (ep := Rabs (p - a * val x)) in *. set (eq_ := Rabs (q - a * val xm)) in *.
  assert (AX : 0 <= A * X) by (apply Rmult_le_pos; auto). assert (AM : 0 <= A * M) by (apply Rmult_le_pos; auto).
  assert (EX : 0 <= eta64 * X) by (apply Rmult_le_pos; lra). assert (EM : 0 <= eta64 * M) by (apply Rmult_le_pos; lra).
  assert (Ep0 : 0 <= ep) by apply Rabs_pos. assert (Eq0 : 0 <= eq_) by apply Rabs_pos.
  (* yl - q *)
  assert (H1 : Rabs (val yl - q) <= Y + A * M + eq_).
  { replace (val yl - q) with (val yl + (- (a * val xm) + - (q - a * val xm))) by ring.
    assert (T1 := Rabs_triang (val yl) (- (a * val xm) + - (q - a * val xm))).
    assert (T2 := Rabs_triang (- (a * val xm)) (- (q - a * val xm))). rewrite !Rabs_Ropp, Bam in T2. fold eq_ in T2. fold Y in T1. lra. }
  set (eb := Rabs (b - (val yl - a * val xm))).
  assert (H2 : eb <= u53 * (Y + A * M + eq_) + eq_).
  { unfold eb. replace (b - (val yl - a * val xm)) with ((b - (val yl - q)) + - (q - a * val xm)) by ring.
    assert (T1 := Rabs_triang (b - (val yl - q)) (- (q - a * val xm))). rewrite Rabs_Ropp in T1. fold eq_ in T1.
    assert (T2 : u53 * Rabs (val yl - q) <= u53 * (Y + A * M + eq_)) by (apply Rmult_le_compat_l; lra). lra. }
  assert (H3 : Rabs (p + b) <= A * X + Y + A * M + ep + eb).
  { replace (p + b) with ((a * val x + (p - a * val x)) + ((val yl + - (a * val xm)) + (b - (val yl - a * val xm)))) by ring.
    assert (T1 := Rabs_triang (a * val x + (p - a * val x)) ((val yl + - (a * val xm)) + (b - (val yl - a * val xm)))).
    assert (T2 := Rabs_triang (a * val x) (p - a * val x)). assert (T3 := Rabs_triang (val yl + - (a * val xm)) (b - (val yl - a * val xm))).
    assert (T4 := Rabs_triang (val yl) (- (a * val xm))). rewrite Rabs_Ropp in T4. rewrite Bam in T4. rewrite Bax in T2. fold ep in T2. fold eb in T3. fold Y in T4. lra. }
  assert (H4 : Rabs (v - (val yl + a * (val x - val xm))) <= u53 * (A * X + Y + A * M + ep + eb) + ep + eb).
  { replace (v - (val yl + a * (val x - val xm))) with ((v - (p + b)) + ((p - a * val x) + (b - (val yl - a * val xm)))) by ring.
    assert (T1 := Rabs_triang (v - (p + b)) ((p - a * val x) + (b - (val yl - a * val xm)))).
    assert (T2 := Rabs_triang (p - a * val x) (b - (val yl - a * val xm))). fold ep eb in T2.
    assert (T3 : u53 * Rabs (p + b) <= u53 * (A * X + Y + A * M + ep + eb)) by (apply Rmult_le_compat_l; lra). lra. }
  apply Rle_trans with (1 := H4).
  assert (UY : 0 <= u53 * Y) by (apply Rmult_le_pos; lra). assert (UAX : 0 <= u53 * (A * X)) by (apply Rmult_le_pos; lra).
  assert (UAM : 0 <= u53 * (A * M)) by (apply Rmult_le_pos; lra).
  assert (S1 : forall z, 0 <= z -> 0 <= u53 * z <= / 1000000 * z) by (intros z Hz; split; [apply Rmult_le_pos; lra|apply Rmult_le_compat_r; lra]).
  assert (eb0 : 0 <= eb) by apply Rabs_pos.
  destruct (S1 _ Ep0), (S1 _ Eq0), (S1 _ eb0), (S1 _ UY), (S1 _ UAM), (S1 _ UAX).
  lra.
Qed.
End RampErr.

Lemma ramp_double_lemma : forall bm (x : list f64) xm xM yl yr,
  is_finite xm = true -> is_finite xM = true -> dvalue xm <= dvalue xM -> dvalue xM - dvalue xm <= dmax ->
  (bm = Debug -> x <> [] /\ nle (hd xm x) xm = true /\ nle xM (last x xM) = true) ->
  exists out, Ramp bm x xm xM yl yr = Ok out /\ Forall2 (is_ramp xm xM yl yr) x out.
Proof.
  intros bm x xm xM yl yr Fm FM Hle HD Hbm. unfold dvalue in Hle, HD. rewrite dmax_fmax in HD.
  unfold Ramp.
  assert (C : nle xm xM = true) by (apply nle_fin; auto). rewrite C.
  assert (Q : (match bm with
            | Debug =>
                let* x0 := vidx x 0 in
                if nle x0 xm then
                  let* xn := vidx x (length x - 1) in cassert Debug (nle xM xn)
                else Abort
            | Release => Ok tt
            end) = Ok tt).
  { destruct bm; auto. destruct (Hbm eq_refl) as (Hx & H1 & H2). destruct x as [|a l]; [congruence|]. cbn [vidx nth_error bind]. cbn [hd] in H1. rewrite H1.
    assert (E : nth_error (a :: l) (length (a :: l) - 1) = Some (last (a :: l) xM)).
    { clear. change (length (a :: l) - 1)%nat with (length l - 0)%nat. rewrite Nat.sub_0_r. revert a. induction l as [|c l IH]; intros a; auto.
      change (nth_error (a :: c :: l) (length (c :: l))) with (nth_error (c :: l) (length l)). rewrite (IH c). reflexivity. }
    unfold vidx. rewrite E. cbn [bind]. rewrite H2. reflexivity. }
  rewrite Q. replace (cassert bm true) with (Ok tt) by (destruct bm; reflexivity). cbn [bind]. eexists. split; [reflexivity|].
  clear Q Hbm. induction x as [|v x IH]; [constructor|]. constructor; [|exact IH]. clear IH.
  unfold is_ramp, ramp_value, dvalue. split.
  - intros N. apply is_nan_eq in N. subst v. reflexivity.
  - intros Fx. split; [|split].
    + intros H. rewrite (proj2 (nle_fin v xm Fx Fm) H). reflexivity.
    + intros H. destruct (nle v xm) eqn:E1; [apply (nle_fin v xm Fx Fm) in E1; lra|].
      destruct (nle v xM) eqn:E2; [apply (nle_fin v xM Fx FM) in E2; lra|]. reflexivity.
    + intros H. destruct (nle v xm) eqn:E1; [apply (nle_fin v xm Fx Fm) in E1; lra|].
      rewrite (proj2 (nle_fin v xM Fx FM) ltac:(lra)). intros Fr.
      rewrite uround_u53, uflow_eta. apply (ramp_err v xm xM yl yr Fm FM); [lra|exact Fr].
Qed.

(** The ramp does not end on its right value: 15 becomes 15 - 2^-49. *)
Lemma ramp_end_refuted_pf : exists x xm xM yl yr : f64,
  dvalue xm = 0 /\ dvalue xM = 11 /\ dvalue yl = 0 /\ dvalue yr = 15 /\ dvalue x = dvalue xM /\
  forall bm, exists r, Ramp bm [xm; x] xm xM yl yr = Ok [yl; r] /\ dvalue r = 15 - / 2 ^ 49.
Proof.
  exists (f64_ofZ 11), (f64_ofZ 0), (f64_ofZ 11), (f64_ofZ 0), (f64_ofZ 15).
  unfold dvalue. destruct (ofZ_ok 0 ltac:(lia)) as [_ V0]. destruct (ofZ_ok 11 ltac:(lia)) as [_ V1]. destruct (ofZ_ok 15 ltac:(lia)) as [_ V2].
  split; [exact V0|]. split; [exact V1|]. split; [exact V0|]. split; [exact V2|]. split; [reflexivity|].
  intros bm. exists (((f64_ofZ 15 -! f64_ofZ 0) /! (f64_ofZ 11 -! f64_ofZ 0)) *! f64_ofZ 11 +!
    (f64_ofZ 0 -! ((f64_ofZ 15 -! f64_ofZ 0) /! (f64_ofZ 11 -! f64_ofZ 0)) *! f64_ofZ 0)). split.
  - unfold Ramp.
    assert (C1 : nle (f64_ofZ 0) (f64_ofZ 11) = true) by (vm_compute; reflexivity).
    assert (C2 : nle (f64_ofZ 0) (f64_ofZ 0) = true) by (vm_compute; reflexivity).
    assert (C3 : nle (f64_ofZ 11) (f64_ofZ 11) = true) by (vm_compute; reflexivity).
    assert (C4 : nle (f64_ofZ 11) (f64_ofZ 0) = false) by (vm_compute; reflexivity).
    rewrite C1. destruct bm; cbn [cassert bind vidx nth_error length Nat.sub map]; rewrite ?C2, ?C4, ?C3; cbn [cassert bind]; reflexivity.
  - rewrite (val_pos _ 8444249301319679 49) by (vm_compute; reflexivity). simpl. lra.
Qed.
