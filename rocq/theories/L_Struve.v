(** The Struve functions of BoostFunctions.h. *)
From Coq Require Import ZArith Reals Lra Lia Bool List.
From Coquelicot Require Import Coquelicot.
From Verif Require Import Outcome Num NumFun M_Special S_Special S_Struve L_Poly L_PolyWin L_Special L_Basics2 L_StruveK L_StruveY L_StruveBig L_StruveSmall.
Import ListNotations.
Open Scope R_scope.

Lemma pow_Z b z n : z = Z.of_nat n -> Rcpow b (IZR z) = b ^ n.
Proof. intros ->. rewrite <- INR_IZR_INZ. apply Rcpow_nat. Qed.

(** ** Values *)
Ltac pows := repeat match goal with |- context [Rcpow ?b (IZR ?z)] => let n := eval vm_compute in (Z.to_nat z) in rewrite (pow_Z b z n) by reflexivity end.
Ltac sval := cbn [struve_poly struve_frac vat nth_error Nat.sub bind struve0_a struve1_d struve0_b struve0_c struve1_e struve1_f]; un; pows.
Lemma struve0_small Y x : 0 <= x <= 3 -> Struve_zero_order (T := R) Y x = Ok (zev c0 x / IZR u9).
Proof.
  intros H. unfold Struve_zero_order. un. rewrite (proj2 (Rleb_true 0 x)), (proj2 (Rleb_true x 3)) by lra. cbn [andb].
  sval. f_equal. unfold c0, u9. cbn [zev pow]. field.
Qed.
Lemma struve1_small Y x : 0 <= x <= 3 -> Struve_first_order (T := R) Y x = Ok (zev c1 x / IZR u9).
Proof.
  intros H. unfold Struve_first_order. un. rewrite (proj2 (Rleb_true 0 x)), (proj2 (Rleb_true x 3)) by lra. cbn [andb].
  sval. f_equal. unfold c1, u9. cbn [zev pow]. field.
Qed.
Lemma struve_exit Y x : x < 0 -> Struve_zero_order (T := R) Y x = Exit 0 /\ Struve_first_order (T := R) Y x = Exit 0.
Proof.
  intros H. unfold Struve_zero_order, Struve_first_order. un. rewrite (proj2 (Rleb_false 0 x)), (proj2 (Rltb_false 3 x)) by lra. split; reflexivity.
Qed.
Lemma sq9 x : 3 < x -> 9 <= x * x.
Proof. intros H. nra. Qed.
Lemma frac0_val x : 3 < x -> struve_frac (T := R) struve0_b struve0_c (3 / x) 0 4 0 0 =
  Ok (zev s0n (x * x) / (100000000 * x ^ 6), zev s0d (x * x) / (100000000 * x ^ 6)).
Proof.
  intros H. sval. assert (X : 0 < x) by lra. f_equal. f_equal; unfold s0n, s0d; cbn [zev]; rewrite !mult_IZR; field; lra.
Qed.
Lemma frac1_val x : 3 < x -> struve_frac (T := R) struve1_e struve1_f (3 / x) 0 4 0 0 =
  Ok (zev s1n (x * x) / (100000000 * x ^ 6), zev s1d (x * x) / (100000000 * x ^ 6)).
Proof.
  intros H. sval. assert (X : 0 < x) by lra. f_equal. f_equal; unfold s1n, s1d; cbn [zev]; rewrite !mult_IZR; field; lra.
Qed.
Lemma struve0_big Y x : 3 < x ->
  Struve_zero_order (T := R) Y x = Ok (Y 0 x + 2 / PI * (zev s0n (x * x) / zev s0d (x * x) / x)).
Proof.
  intros H. unfold Struve_zero_order. assert (F := frac0_val x H). un. rewrite (proj2 (Rleb_false x 3)), andb_false_r, (proj2 (Rltb_true 3 x)) by lra.
  rewrite F. cbn [bind fst snd]. f_equal. f_equal. assert (P := s0d_pos _ (sq9 x H)). assert (Pi := PI_RGT_0).
  assert (X6 : 0 < x ^ 6) by (apply pow_lt; lra). clear F.
  set (d := zev s0d (x * x)) in *. set (n := zev s0n (x * x)). set (w := x ^ 6) in *. clearbody d n w. field. repeat split; lra.
Qed.
Lemma struve1_big Y x : 3 < x ->
  Struve_first_order (T := R) Y x = Ok (Y 1 x + 2 / PI * (zev s1n (x * x) / zev s1d (x * x))).
Proof.
  intros H. unfold Struve_first_order. assert (F := frac1_val x H). un. rewrite (proj2 (Rleb_false x 3)), andb_false_r, (proj2 (Rltb_true 3 x)) by lra.
  rewrite F. cbn [bind fst snd]. f_equal. f_equal. assert (P := s1d_pos _ (sq9 x H)). assert (Pi := PI_RGT_0).
  assert (X6 : 0 < x ^ 6) by (apply pow_lt; lra). clear F.
  set (d := zev s1d (x * x)) in *. set (n := zev s1n (x * x)). set (w := x ^ 6) in *. clearbody d n w. field. repeat split; lra.
Qed.

(** ** Accuracy *)
Lemma two_pi_pos : 0 < 2 / PI <= 63661977237 / 100000000000.
Proof. assert (B := two_pi_bounds). lra. Qed.
Lemma inv9 x : 3 < x -> 56 / 1000000000 / (x * x) <= 56 / 9000000000.
Proof.
  intros H. assert (V := sq9 x H). replace (56 / 9000000000) with (56 / 1000000000 / 9) by field.
  apply Rmult_le_compat_l; [lra|]. apply Rinv_le_contravar; lra.
Qed.
Lemma zero_big x : 3 < x -> Rabs (2 / PI * (zev s0n (x * x) / zev s0d (x * x) / x) - 2 / PI * KL 0 x) <= 125 / 10000000000.
Proof.
  intros H. destruct (K_close x ltac:(lra)) as [K _]. assert (S := s0_close x ltac:(lra)). assert (I := inv9 x H). assert (P := two_pi_pos).
  set (r := zev s0n (x * x) / zev s0d (x * x)) in *. set (q := kq (x * x)) in *. set (l := KL 0 x) in *. set (p := 2 / PI) in *. clearbody r q l p.
  rewrite <- Rmult_minus_distr_l, Rabs_mult, (Rabs_right p) by lra.
  assert (A : Rabs (r / x - q / x) <= 129 / 10000000000).
  { replace (r / x - q / x) with ((r - q) * / x) by (field; lra). rewrite Rabs_mult, (Rabs_right (/ x)) by (left; apply Rinv_0_lt_compat; lra).
    apply (Rmult_le_reg_r x); [lra|]. rewrite Rmult_assoc, Rinv_l, Rmult_1_r by lra. exact S. }
  assert (B : Rabs (r / x - l) <= 129 / 10000000000 + 56 / 9000000000).
  { replace (r / x - l) with ((r / x - q / x) + (q / x - l)) by ring. apply Rle_trans with (1 := Rabs_triang _ _). lra. }
  apply Rle_trans with (63661977237 / 100000000000 * (129 / 10000000000 + 56 / 9000000000)); [|lra].
  apply Rmult_le_compat; [lra|apply Rabs_pos|lra|exact B].
Qed.
Lemma one_big x : 3 < x -> Rabs (2 / PI * (zev s1n (x * x) / zev s1d (x * x)) - 2 / PI * (1 + KL 1 x)) <= 3 / 100000000.
Proof.
  intros H. destruct (K_close x ltac:(lra)) as [_ K]. assert (S := s1_close x ltac:(lra)). assert (I := inv9 x H). assert (P := two_pi_pos).
  set (r := zev s1n (x * x) / zev s1d (x * x)) in *. set (q := kq (x * x) / (x * x)) in *. set (q1 := kq1 (x * x)) in *. set (l := KL 1 x) in *. set (p := 2 / PI) in *. clearbody r q q1 l p.
  rewrite <- Rmult_minus_distr_l, Rabs_mult, (Rabs_right p) by lra.
  assert (B : Rabs (r - (1 + l)) <= 4 / 100000000 + 56 / 9000000000).
  { replace (r - (1 + l)) with ((r - (1 - 2 * q1 + q)) + (- (2 * q1 - q) - l)) by ring. apply Rle_trans with (1 := Rabs_triang _ _). lra. }
  apply Rle_trans with (63661977237 / 100000000000 * (4 / 100000000 + 56 / 9000000000)); [|lra].
  apply Rmult_le_compat; [lra|apply Rabs_pos|lra|exact B].
Qed.
Lemma struve0_accuracy Y x eps : 0 <= x -> 0 <= eps -> Rabs (Y 0 x - BesselY 0 x) <= eps ->
  exists v, Struve_zero_order (T := R) Y x = Ok v /\ Rabs (v - StruveH0 x) <= 125 / 10000000000 + (if Rleb x 3 then 0 else eps).
Proof.
  intros H He HY. destruct (Rle_lt_dec x 3) as [L|L].
  - eexists. split; [apply struve0_small; lra|]. rewrite (proj2 (Rleb_true x 3)) by lra. rewrite Rplus_0_r. apply small0. lra.
  - eexists. split; [apply struve0_big, L|]. rewrite (proj2 (Rleb_false x 3)) by lra. rewrite H0_Y by lra.
    assert (B := zero_big x L). apply Rabs_le_between in B, HY. apply Rabs_le. lra.
Qed.
Lemma struve1_accuracy Y x eps : 0 <= x -> 0 <= eps -> Rabs (Y 1 x - BesselY 1 x) <= eps ->
  exists v, Struve_first_order (T := R) Y x = Ok v /\
    Rabs (v - StruveH1 x) <= if Rleb x 3 then 25 / 10000000000 else 3 / 100000000 + eps.
Proof.
  intros H He HY. destruct (Rle_lt_dec x 3) as [L|L].
  - eexists. split; [apply struve1_small; lra|]. rewrite (proj2 (Rleb_true x 3)) by lra. apply small1. lra.
  - eexists. split; [apply struve1_big, L|]. rewrite (proj2 (Rleb_false x 3)) by lra. rewrite H1_Y by lra.
    assert (B := one_big x L). apply Rabs_le_between in B, HY. apply Rabs_le. lra.
Qed.
Lemma derivative_accuracy Y x eps : 0 <= x -> 0 <= eps -> Rabs (Y 1 x - BesselY 1 x) <= eps ->
  exists v, Struve_zero_order_derivative (T := R) Y x = Ok v /\
    Rabs (v - Derive StruveH0 x) <= if Rleb x 3 then 25 / 10000000000 else 3 / 100000000 + eps.
Proof.
  intros H He HY. destruct (struve1_accuracy Y x eps ltac:(lra) He HY) as [s [E B]].
  exists (1 / (PI / 2) - s). split; [unfold Struve_zero_order_derivative; rewrite E; reflexivity|].
  rewrite (is_derive_unique _ _ _ (H0_derive x)). assert (P := PI_RGT_0).
  replace (1 / (PI / 2) - s - (2 / PI - StruveH1 x)) with (- (s - StruveH1 x)) by (field; lra). rewrite Rabs_Ropp. exact B.
Qed.

(** ** No undefined operation *)
Lemma struve_lists : struve0_a (NT := PNum) = map Some struve0_a /\ struve1_d (NT := PNum) = map Some struve1_d /\
  (struve0_b (NT := PNum) = map Some struve0_b /\ struve0_c (NT := PNum) = map Some struve0_c) /\
  (struve1_e (NT := PNum) = map Some struve1_e /\ struve1_f (NT := PNum) = map Some struve1_f).
Proof.
  unfold struve0_a, struve1_d, struve0_b, struve0_c, struve1_e, struve1_f. repeat split; plist.
Qed.
Lemma p_pow b e : 0 <= b -> 0 <= e -> npow (NumTr := PNumTr) (Some b) (Some e) = Some (Rcpow b e).
Proof.
  intros Hb He. cbn. unfold bad_pow. rewrite (proj2 (Rltb_false e 0)), (proj2 (Rltb_false b 0)) by lra.
  rewrite andb_false_r. reflexivity.
Qed.
Lemma p_struve_poly coef arg e j n acc : 0 <= arg -> (forall j, (1 <= j)%nat -> (0 <= e j)%Z) -> (1 <= j)%nat ->
  struve_poly (NT := PNum) (NR := PNumTr) (map Some coef) (Some arg) e j n (Some acc) = defined (struve_poly coef arg e j n acc).
Proof.
  intros Ha He. revert j acc. induction n as [|n IH]; intros j acc Hj; [reflexivity|]. cbn [struve_poly]. rewrite p_vat.
  destruct (vat coef (j - 1)) as [c| | | |]; try reflexivity. cbn [defined omap bind].
  change (nofZ (Num := PNum) (e j)) with (Some (IZR (e j))). rewrite p_pow; [|exact Ha|apply IZR_le, He, Hj].
  change (nadd (Num := PNum) (Some acc) (nmul (Num := PNum) (Some c) (Some (Rcpow arg (IZR (e j)))))) with (Some (acc + c * Rcpow arg (IZR (e j)))).
  rewrite IH by lia. reflexivity.
Qed.
Definition both (p : R * R) : option R * option R := (Some (fst p), Some (snd p)).
Lemma p_struve_frac cn cd arg j n a b : 0 <= arg ->
  struve_frac (NT := PNum) (NR := PNumTr) (map Some cn) (map Some cd) (Some arg) j n (Some a) (Some b) = omap both (struve_frac cn cd arg j n a b).
Proof.
  intros Ha. revert j a b. induction n as [|n IH]; intros j a b; [reflexivity|]. cbn [struve_frac]. rewrite !p_vat.
  destruct (vat cn j) as [c| | | |]; try reflexivity. destruct (vat cd j) as [d| | | |]; try reflexivity. cbn [defined omap bind].
  change (nofZ (Num := PNum) (2 * Z.of_nat j)) with (Some (IZR (2 * Z.of_nat j))). rewrite p_pow; [|exact Ha|apply IZR_le; lia].
  set (p := Rcpow arg (IZR (2 * Z.of_nat j))).
  change (nadd (Num := PNum) (Some a) (nmul (Num := PNum) (Some c) (Some p))) with (Some (a + c * p)).
  change (nadd (Num := PNum) (Some b) (nmul (Num := PNum) (Some d) (Some p))) with (Some (b + d * p)).
  rewrite IH. reflexivity.
Qed.
Lemma p_den d x : 0 < d -> 3 < x -> d / (100000000 * x ^ 6) <> 0.
Proof.
  intros Hd Hx. apply Rgt_not_eq. apply Rmult_lt_0_compat; [exact Hd|]. apply Rinv_0_lt_compat, Rmult_lt_0_compat; [lra|apply pow_lt; lra].
Qed.
Lemma struve_defined Y Yp x : (forall n, Yp (Some n) (Some x) = Some (Y n x)) ->
  Struve_zero_order (NT := PNum) (NR := PNumTr) Yp (Some x) = defined (Struve_zero_order Y x) /\
  Struve_first_order (NT := PNum) (NR := PNumTr) Yp (Some x) = defined (Struve_first_order Y x) /\
  Struve_zero_order_derivative (NT := PNum) (NR := PNumTr) Yp (Some x) = defined (Struve_zero_order_derivative Y x).
Proof.
  intros HY. assert (Pi := PI_RGT_0). destruct struve_lists as [LA [LD [[LB LC] [LE LF]]]].
  assert (S0 : Struve_zero_order (NT := PNum) (NR := PNumTr) Yp (Some x) = defined (Struve_zero_order Y x)).
  { unfold Struve_zero_order. change (nle (Num := PNum) (nofZ 0) (Some x)) with (Rleb 0 x). change (nle (Num := PNum) (Some x) (nofZ 3)) with (Rleb x 3).
    change (nlt (Num := PNum) (nofZ 3) (Some x)) with (Rltb 3 x). change (nle (Num := RNum) (nofZ 0) x) with (Rleb 0 x). change (nle (Num := RNum) x (nofZ 3)) with (Rleb x 3).
    change (nlt (Num := RNum) (nofZ 3) x) with (Rltb 3 x). destruct (Rleb 0 x && Rleb x 3) eqn:B.
    - apply andb_true_iff in B. destruct B as [B1 B2]. apply Rleb_true in B1, B2. rewrite LA.
      change (nofZ (Num := PNum) 3) with (Some 3). rewrite p_div by lra. change (nofZ (Num := PNum) 0) with (Some 0).
      apply (p_struve_poly struve0_a (x / 3)); [lra|intros; lia|lia].
    - destruct (Rltb 3 x) eqn:B3; [|reflexivity]. apply Rltb_true in B3. rewrite LB, LC.
      change (nofZ (Num := PNum) 3) with (Some 3). rewrite p_div by lra. change (nofZ (Num := PNum) 0) with (Some 0).
      rewrite p_struve_frac by (apply Rmult_le_pos; [lra|left; apply Rinv_0_lt_compat; lra]).
      assert (F := frac0_val x B3). assert (F' : struve_frac (T := R) struve0_b struve0_c (nofZ 3 / x)%num 0 4 (nofZ 0) (nofZ 0) = Ok (zev s0n (x * x) / (100000000 * x ^ 6), zev s0d (x * x) / (100000000 * x ^ 6))) by exact F. rewrite F, F'. cbn [omap bind both fst snd]. change (nofZ (Num := PNum) 1) with (Some 1). rewrite HY.
      assert (D := p_den _ x (s0d_pos _ (sq9 x B3)) B3). set (d := zev s0d (x * x) / (100000000 * x ^ 6)) in *.
      set (n := zev s0n (x * x) / (100000000 * x ^ 6)).
      change (Ok (pmap2 Rplus (Some (Y 0 x)) (ndiv (Num := PNum) (Some (2 * n)) (Some (PI * x * d)))) = Ok (Some (Y 0 x + 2 * n / (PI * x * d)))).
      rewrite p_div; [reflexivity|]. apply Rmult_integral_contrapositive_currified; [|exact D]. try apply Rmult_integral_contrapositive_currified; lra. }
  assert (S1 : Struve_first_order (NT := PNum) (NR := PNumTr) Yp (Some x) = defined (Struve_first_order Y x)).
  { unfold Struve_first_order. change (nle (Num := PNum) (nofZ 0) (Some x)) with (Rleb 0 x). change (nle (Num := PNum) (Some x) (nofZ 3)) with (Rleb x 3).
    change (nlt (Num := PNum) (nofZ 3) (Some x)) with (Rltb 3 x). change (nle (Num := RNum) (nofZ 0) x) with (Rleb 0 x). change (nle (Num := RNum) x (nofZ 3)) with (Rleb x 3).
    change (nlt (Num := RNum) (nofZ 3) x) with (Rltb 3 x). destruct (Rleb 0 x && Rleb x 3) eqn:B.
    - apply andb_true_iff in B. destruct B as [B1 B2]. apply Rleb_true in B1, B2. rewrite LD.
      change (nofZ (Num := PNum) 3) with (Some 3). rewrite p_div by lra. change (nofZ (Num := PNum) 0) with (Some 0).
      apply (p_struve_poly struve1_d (x / 3)); [lra|intros; lia|lia].
    - destruct (Rltb 3 x) eqn:B3; [|reflexivity]. apply Rltb_true in B3. rewrite LE, LF.
      change (nofZ (Num := PNum) 3) with (Some 3). rewrite p_div by lra. change (nofZ (Num := PNum) 0) with (Some 0).
      rewrite p_struve_frac by (apply Rmult_le_pos; [lra|left; apply Rinv_0_lt_compat; lra]).
      assert (F := frac1_val x B3). assert (F' : struve_frac (T := R) struve1_e struve1_f (nofZ 3 / x)%num 0 4 (nofZ 0) (nofZ 0) = Ok (zev s1n (x * x) / (100000000 * x ^ 6), zev s1d (x * x) / (100000000 * x ^ 6))) by exact F. rewrite F, F'. cbn [omap bind both fst snd]. change (nofZ (Num := PNum) 1) with (Some 1). rewrite HY.
      assert (D := p_den _ x (s1d_pos _ (sq9 x B3)) B3). set (d := zev s1d (x * x) / (100000000 * x ^ 6)) in *.
      set (n := zev s1n (x * x) / (100000000 * x ^ 6)).
      change (Ok (pmap2 Rplus (Some (Y 1 x)) (ndiv (Num := PNum) (Some (2 * n)) (Some (PI * d)))) = Ok (Some (Y 1 x + 2 * n / (PI * d)))).
      rewrite p_div; [reflexivity|]. apply Rmult_integral_contrapositive_currified; [lra|exact D]. }
  split; [exact S0|]. split; [exact S1|]. unfold Struve_zero_order_derivative. rewrite S1.
  destruct (Struve_first_order Y x) as [v| | | |]; try reflexivity.
  change (Ok (pmap2 Rminus (ndiv (Num := PNum) (Some 1) (ndiv (Num := PNum) (Some PI) (Some 2))) (Some v)) = Ok (Some (1 / (PI / 2) - v))).
  rewrite p_div by lra. rewrite p_div; [reflexivity|]. lra.
Qed.

(** ** Statements as used by the theorems *)
Lemma derivative_full Y x eps : 0 <= x -> 0 <= eps -> Rabs (Y 1 x - BesselY 1 x) <= eps ->
  ex_derive StruveH0 x /\
  exists v, Struve_zero_order_derivative (T := R) Y x = Ok v /\
    Rabs (v - Derive StruveH0 x) <= if Rleb x 3 then 25 / 10000000000 else 3 / 100000000 + eps.
Proof. intros H He HY. split; [eexists; apply H0_derive|]. apply derivative_accuracy; assumption. Qed.
Lemma struve_ok Y x : 0 <= x -> (exists v, Struve_zero_order (T := R) Y x = Ok v) /\ (exists v, Struve_first_order (T := R) Y x = Ok v).
Proof.
  intros H. destruct (Rle_lt_dec x 3) as [L|L].
  - rewrite struve0_small, struve1_small by lra. eauto.
  - rewrite struve0_big, struve1_big by lra. eauto.
Qed.
Lemma struve_exit_iff Y x :
  (Struve_zero_order (T := R) Y x = Exit 0 <-> x < 0) /\
  (Struve_first_order (T := R) Y x = Exit 0 <-> x < 0) /\
  (Struve_zero_order_derivative (T := R) Y x = Exit 0 <-> x < 0).
Proof.
  unfold Struve_zero_order_derivative. destruct (Rlt_le_dec x 0) as [L|L].
  - destruct (struve_exit Y x L) as [-> ->]. cbn [bind]. tauto.
  - destruct (struve_ok Y x L) as [[v ->] [w ->]]. cbn [bind]. repeat split; intros; (discriminate || lra).
Qed.
Lemma struve_no_value : exists x, forall (Y : R -> R -> R),
  (forall v, Struve_zero_order Y x <> Ok v) /\ (forall v, Struve_first_order Y x <> Ok v) /\
  (forall v, Struve_zero_order_derivative Y x <> Ok v).
Proof.
  exists (-1). intros Y. unfold Struve_zero_order_derivative. destruct (struve_exit Y (-1) ltac:(lra)) as [-> ->].
  cbn [bind]. repeat split; discriminate.
Qed.
Lemma RInt_neg f g a b : ex_RInt g a b -> (forall t, f t = - g t) -> RInt f a b = - RInt g a b.
Proof.
  intros E H. apply is_RInt_unique. apply (is_RInt_ext (fun t => opp (g t))); [intros t _; symmetry; apply H|].
  apply (is_RInt_opp (V := R_NormedModule)). apply (RInt_correct (V := R_CompleteNormedModule)). exact E.
Qed.
Lemma struve_parity x : StruveH0 (- x) = - StruveH0 x /\ StruveH1 (- x) = StruveH1 x.
Proof.
  unfold StruveH0, StruveH1. assert (P := PI_neq0). split.
  - rewrite (RInt_neg (fun t => sin (- x * cos t)) (fun t => sin (x * cos t))).
    + ring.
    + apply (ex_RInt_continuous (V := R_CompleteNormedModule)). intros t _.
      apply (ex_derive_continuous (V := R_NormedModule)). auto_derive. exact I.
    + intros t. rewrite Ropp_mult_distr_l_reverse, sin_neg. reflexivity.
  - rewrite (RInt_neg (fun t => sin (- x * cos t) * sin t ^ 2) (fun t => sin (x * cos t) * sin t ^ 2)).
    + field. exact P.
    + apply (ex_RInt_continuous (V := R_CompleteNormedModule)). intros t _.
      apply (ex_derive_continuous (V := R_NormedModule)). auto_derive. exact I.
    + intros t. rewrite Ropp_mult_distr_l_reverse, sin_neg. ring.
Qed.
