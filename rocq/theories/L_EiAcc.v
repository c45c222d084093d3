(** Accuracy of Ei_approximation from 6 on. *)
From Coq Require Import ZArith Reals Lra Lia Bool List.
From Coquelicot Require Import Coquelicot.
From Verif Require Import Outcome Num NumFun M_Special S_Special L_Poly L_PolyWin L_Special L_Expint L_ExpTaylor L_E1Tab L_E1 L_Cf L_EiTab L_EiVal S_Ei L_EiSpec L_Ei0 L_Ei6 L_Ei.
Import ListNotations.
Open Scope R_scope.

(** ** At 6 *)
Definition L6a : Z := 277925781587339685265%Z. Definition L6b : Z := 277925781587339685266%Z.
Lemma ln6_check : zpos_at L6a e20 (zsub (zscale (6 * u29) (etab 37)) [X0 * efac 37]%Z) = true /\
  zpos_at L6b e20 (zsub [X0 * efac 36]%Z (zscale (6 * u29) (etab 36))) = true.
Proof. vm_compute. split; reflexivity. Qed.
Lemma ln6 : IZR L6a / IZR e20 < ln (6 / x0) < IZR L6b / IZR e20.
Proof.
  destruct ln6_check as [H1 H2].
  assert (A := ln_gt_rat 36 L6b e20 X0 (6 * u29) eq_refl ltac:(reflexivity) ltac:(reflexivity) ltac:(discriminate) ltac:(reflexivity) H2).
  assert (B := ln_lt_rat 37 L6a e20 X0 (6 * u29) eq_refl ltac:(reflexivity) ltac:(reflexivity) ltac:(discriminate) ltac:(reflexivity) H1).
  assert (X := x0_pos).
  assert (E : ln (6 / x0) = - ln (IZR X0 / IZR (6 * u29))).
  { rewrite <- ln_Rinv by (unfold X0, u29; cbn; lra). f_equal. rewrite x0_val. unfold X0, u29. cbn. field. }
  lra.
Qed.

(** F6(6) in [L6a/E + R, L6b/E + R], R = - (6 u - X0) P/(u nQ) at 1. *)
Definition nR : Z := ((X0 - 6 * u29) * zatZ 1 P6)%Z.
Definition dR : Z := (u29 * - zatZ 1 Q6)%Z.
(** Values of F6(6) +- 1e-16 times E u nQ. *)
Definition six_ok (A B T1 T2 R D : Z) : bool :=
  ((efac 51 * e20 * (A * D) <? 6 * unit25 * (B * (T2 * ((L6a + 10000) * D + e20 * R)))) &&
   (6 * unit25 * (B * (T1 * ((L6b - 10000) * D + e20 * R))) <? efac 50 * e20 * (A * D)) &&
   (80 * D <? R) && (0 <? T2))%Z.
Lemma six_check : six_ok (zatZ 6 a12k) (zatZ 6 b12k) (zatZ 6 (etab 50)) (zatZ 6 (etab 51)) nR dR = true.
Proof. vm_compute. reflexivity. Qed.
Lemma six_ok_val A B T1 T2 R D : six_ok A B T1 T2 R D = true ->
  IZR (efac 51) * IZR e20 * (IZR A * IZR D) < 6 * IZR unit25 * (IZR B * (IZR T2 * ((IZR L6a + 10000) * IZR D + IZR e20 * IZR R))) /\
  6 * IZR unit25 * (IZR B * (IZR T1 * ((IZR L6b - 10000) * IZR D + IZR e20 * IZR R))) < IZR (efac 50) * IZR e20 * (IZR A * IZR D) /\
  80 * IZR D < IZR R /\ 0 < IZR T2.
Proof.
  unfold six_ok. generalize (efac 51) (efac 50) e20 unit25 L6a L6b. intros f1 f0 e u la lb H.
  repeat (apply andb_true_iff in H; destruct H as [H ?]). repeat match goal with K : (_ <? _)%Z = true |- _ => apply Z.ltb_lt, IZR_lt in K end.
  repeat first [rewrite mult_IZR in *|rewrite plus_IZR in *|rewrite minus_IZR in *]. repeat split; assumption.
Qed.
Lemma F6_six : F6 6 = ln (6 / x0) + IZR nR / IZR dR.
Proof.
  unfold F6, nR, dR. replace (6 / 6) with 1 by field. assert (Qn := Q6_neg 1 ltac:(lra)).
  rewrite !mult_IZR, opp_IZR, <- !zatZ_val. f_equal. rewrite minus_IZR, mult_IZR. assert (X : x0 = IZR X0 / IZR u29) by reflexivity. rewrite X.
  assert (U : 0 < IZR u29) by (unfold u29; lra). set (u := IZR u29) in *. set (v := IZR X0). set (q := zev Q6 1) in *. set (p := zev P6 1). clearbody u v p q.
  field. lra.
Qed.
Lemma at_6 : Rabs (cfF a12k b12k 6 - F6 6) <= 1 / 10000000000000000 /\ 80 < F6 6.
Proof.
  destruct (six_ok_val _ _ _ _ _ _ six_check) as [S1 [S2 [S3 S6]]]. destruct (close12k 6 ltac:(lra)) as [S4 [S5 _]].
  assert (L := ln6). rewrite F6_six. unfold cfF.
  assert (DP : 0 < IZR dR).
  { unfold dR. rewrite mult_IZR, opp_IZR, <- zatZ_val. assert (Qn := Q6_neg 1 ltac:(lra)). apply Rmult_lt_0_compat; [unfold u29; lra|lra]. }
  rewrite <- (zatZ_val 6 a12k), <- (zatZ_val 6 b12k) in S1, S2. rewrite <- (zatZ_val 6 (etab 51)) in S1, S6. rewrite <- (zatZ_val 6 (etab 50)) in S2.
  assert (E1' := etay_sign 50 6 ltac:(lra)). assert (E2 := etay_sign 51 6 ltac:(lra)). cbn [Nat.even] in E1', E2. unfold etay in E1', E2.
  assert (F1 := IZR_lt _ _ (efac_pos 50)). assert (F2 := IZR_lt _ _ (efac_pos 51)).
  assert (EE : exp (- (6)) * exp 6 = 1) by (rewrite <- exp_plus, Rplus_opp_l; apply exp_0).
  assert (EP := exp_pos 6). assert (EM := exp_pos (- (6))).
  assert (SP : 0 < IZR unit25) by (unfold unit25; lra). assert (NP : IZR e20 = 100000000000000000000) by reflexivity.
  set (f1 := IZR (efac 50)) in *. set (f2 := IZR (efac 51)) in *. set (t1 := zev (etab 50) 6) in *. set (t2 := zev (etab 51) 6) in *.
  set (a := zev a12k 6) in *. set (b := zev b12k 6) in *. set (s := IZR unit25) in *. set (n := IZR e20) in *.
  set (l1 := IZR L6a) in *. set (l2 := IZR L6b) in *. set (r := IZR nR) in *. set (d := IZR dR) in *. set (g := exp 6) in *. set (e := exp (- (6))) in *.
  assert (N0 : 0 < n) by lra. assert (LP : 0 < l1 / n) by (apply Rmult_lt_0_compat; [unfold l1, L6a; lra|apply Rinv_0_lt_compat, N0]).
  assert (G2 : g <= f2 / t2).
  { apply (Rmult_le_reg_l e); [exact EM|]. rewrite EE. apply (Rmult_le_reg_r (t2 / f2)).
    - apply Rmult_lt_0_compat; [exact S6|apply Rinv_0_lt_compat, F2].
    - replace (e * (f2 / t2) * (t2 / f2)) with e by (field; lra). lra. }
  assert (T1 : 0 < t1). { assert (0 < t1 / f1) by lra. apply (Rmult_lt_reg_r (/ f1)); [apply Rinv_0_lt_compat, F1|]. unfold Rdiv in H. lra. }
  assert (G1 : f1 / t1 <= g).
  { apply (Rmult_le_reg_l e); [exact EM|]. rewrite EE. apply (Rmult_le_reg_r (t1 / f1)).
    - apply Rmult_lt_0_compat; [exact T1|apply Rinv_0_lt_compat, F1].
    - replace (e * (f1 / t1) * (t1 / f1)) with e by (field; lra). lra. }
  assert (L1' : l1 / n <= ln (6 / x0)) by lra. assert (L2' : ln (6 / x0) <= l2 / n) by lra. set (l := ln (6 / x0)) in *.
  clearbody f1 f2 t1 t2 a b s n l1 l2 r d g e l. clear L E1' E2 EE EM.
  assert (AB : 0 < a / (s * b)) by (apply Rmult_lt_0_compat; [exact S4|apply Rinv_0_lt_compat, Rmult_lt_0_compat; assumption]).
  assert (U : g / 6 * (a / (s * b)) <= f2 / t2 / 6 * (a / (s * b))) by (apply Rmult_le_compat_r; lra).
  assert (V : f1 / t1 / 6 * (a / (s * b)) <= g / 6 * (a / (s * b))) by (apply Rmult_le_compat_r; lra).
  assert (U1 : f2 / t2 / 6 * (a / (s * b)) <= (l1 + 10000) / n + r / d).
  { apply (Rmult_le_reg_r (6 * s * b * t2 * d * n)); [repeat apply Rmult_lt_0_compat; lra|].
    replace (f2 / t2 / 6 * (a / (s * b)) * (6 * s * b * t2 * d * n)) with (f2 * n * (a * d)) by (field; lra).
    replace (((l1 + 10000) / n + r / d) * (6 * s * b * t2 * d * n)) with (6 * s * (b * (t2 * ((l1 + 10000) * d + n * r)))) by (field; lra). lra. }
  assert (V1 : (l2 - 10000) / n + r / d <= f1 / t1 / 6 * (a / (s * b))).
  { apply (Rmult_le_reg_r (6 * s * b * t1 * d * n)); [repeat apply Rmult_lt_0_compat; lra|].
    replace (f1 / t1 / 6 * (a / (s * b)) * (6 * s * b * t1 * d * n)) with (f1 * n * (a * d)) by (field; lra).
    replace (((l2 - 10000) / n + r / d) * (6 * s * b * t1 * d * n)) with (6 * s * (b * (t1 * ((l2 - 10000) * d + n * r)))) by (field; lra). lra. }
  assert (Q1 : (l1 + 10000) / n = l1 / n + 1 / 10000000000000000) by (rewrite NP; field).
  assert (Q2 : (l2 - 10000) / n = l2 / n - 1 / 10000000000000000) by (rewrite NP; field).
  split; [apply Rabs_le; lra|].
  assert (80 < r / d); [apply (Rmult_lt_reg_r d); [exact DP|]; replace (r / d * d) with r by (field; lra); lra|].
  lra.
Qed.

Definition d18 : R := 1 / 1000000000000000000.
Lemma EI_6 : 79 < EI 6 /\ Rabs (cfF a12k b12k 6 - EI 6) <= 6 * d18 * EI 6.
Proof.
  destruct at_6 as [A V]. assert (F := F6_error 6 ltac:(lra)). unfold d18.
  apply Rabs_le_between in A. apply Rabs_le_between in F. split; [lra|]. apply Rabs_le. lra.
Qed.
Lemma EI_pos x : 6 <= x -> 0 < EI x.
Proof. intros H. assert (M := EI_mono 6 x ltac:(lra) H). destruct EI_6. lra. Qed.
Lemma okr12 x : 6 <= x <= 12 -> Rabs (cfF a12k b12k x - EI x) <= 25 * d18 * EI x.
Proof.
  intros H. destruct EI_6 as [V A].
  assert (S := ei_segment_rel (cfF a12k b12k) (250 / IZR e19) 6 x ltac:(lra) ltac:(lra)).
  assert (M := EI_mono 6 x ltac:(lra) ltac:(lra)).
  assert (S' : Rabs (cfF a12k b12k x - EI x - (cfF a12k b12k 6 - EI 6)) <= 250 / IZR e19 * (EI x - EI 6)).
  { apply S. intros t Ht. apply (cfF_near 250 a12k b12k tst12 t ltac:(lia) rel12_check).
    - apply tst12_val. lra.
    - lra.
    - apply Rgt_not_eq. apply (close12k t). lra. }
  clear S. unfold e19, d18 in *. apply Rabs_le_between in A. apply Rabs_le_between in S'. apply Rabs_le. lra.
Qed.
Lemma ok12 x : 6 <= x <= 12 -> Rabs (cfF N12k D12k x - EI x) <= 30 * d18 * EI x.
Proof.
  intros H. destruct (close12k x H) as [_ [_ [_ C]]].
  apply (close_transfer _ _ _ _ _ (EI_pos x ltac:(lra)) C (okr12 x H)); unfold d18; lra.
Qed.

(** ** Quotients of two formulas of the same form *)
Lemma cfF_rat A B x : cfF A B x = exp x / x / IZR unit25 * rat A B x.
Proof. unfold cfF, rat, Rdiv. rewrite Rinv_mult. ring. Qed.
Lemma cfF_le k1 k2 A B A' B' x : 0 < x -> 0 < IZR k2 -> 0 < zev B x -> 0 < zev B' x ->
  0 < zev (zsub (zscale k2 (zmul A' B)) (zscale k1 (zmul A B'))) x -> IZR k1 / IZR k2 * cfF A B x <= cfF A' B' x.
Proof.
  intros Hx K B1 B2 H. rewrite !cfF_rat. apply rat_le in H; [|assumption..].
  assert (G : 0 < exp x / x / IZR unit25).
  { apply Rmult_lt_0_compat; [apply (gk_pos x Hx)|apply Rinv_0_lt_compat; unfold unit25; lra]. }
  apply (Rmult_le_compat_l (exp x / x / IZR unit25)) in H; [|lra].
  replace (IZR k1 / IZR k2 * (exp x / x / IZR unit25 * rat A B x)) with (exp x / x / IZR unit25 * (IZR k1 / IZR k2 * rat A B x)) by ring. exact H.
Qed.
Lemma cfF_le2 k1 k2 A B A' B' x : 0 < x -> 0 < IZR k2 -> 0 < zev B x -> 0 < zev B' x ->
  0 < zev (zsub (zscale k1 (zmul A B')) (zscale k2 (zmul A' B))) x -> cfF A' B' x <= IZR k1 / IZR k2 * cfF A B x.
Proof.
  intros Hx K B1 B2 H. rewrite !cfF_rat. apply rat_le2 in H; [|assumption..].
  assert (G : 0 < exp x / x / IZR unit25).
  { apply Rmult_lt_0_compat; [apply (gk_pos x Hx)|apply Rinv_0_lt_compat; unfold unit25; lra]. }
  apply (Rmult_le_compat_l (exp x / x / IZR unit25)) in H; [|lra].
  replace (IZR k1 / IZR k2 * (exp x / x / IZR unit25 * rat A B x)) with (exp x / x / IZR unit25 * (IZR k1 / IZR k2 * rat A B x)) by ring. exact H.
Qed.

(** ** The changes of formula at 12 and 24 *)
Definition q0 : Z := 1000000000000000000%Z. Definition q1 : Z := 1000000000000000001%Z. Definition q9 : Z := 999999999999999999%Z.
Definition at_ok (n k1 k2 : Z) (A B A' B' : list Z) : bool := (k1 * (zatZ n A * zatZ n B') <? k2 * (zatZ n A' * zatZ n B))%Z.
Lemma at_ok_val n k1 k2 A B A' B' : at_ok n k1 k2 A B A' B' = true -> 0 < zev (zsub (zscale k2 (zmul A' B)) (zscale k1 (zmul A B'))) (IZR n).
Proof.
  unfold at_ok. intros H. apply Z.ltb_lt, IZR_lt in H. rewrite !mult_IZR, <- !zatZ_val in H. rewrite zev_sub, !zev_scale, !zev_mul. lra.
Qed.
Lemma jumps_check : at_ok 12 q9 q0 a12k b12k a24 b24 = true /\ at_ok 12 q0 q1 a24 b24 a12k b12k = true /\
  at_ok 24 q9 q0 a24 b24 aL bL = true /\ at_ok 24 q0 q1 aL bL a24 b24 = true.
Proof. vm_compute. repeat split. Qed.
Lemma okr24 x : 12 <= x <= 24 -> Rabs (cfF a24 b24 x - EI x) <= 27 * d18 * EI x.
Proof.
  intros H. destruct jumps_check as [J1 [J2 _]]. apply at_ok_val in J1, J2.
  destruct (close12k 12 ltac:(lra)) as [_ [P1 _]]. destruct (close24 12 ltac:(lra)) as [_ [P2 _]].
  apply cfF_le in J1; [|unfold q0; lra..]. apply cfF_le2 in J2; [|unfold q0; lra..].
  assert (K := okr12 12 ltac:(lra)). assert (V := EI_pos 12 ltac:(lra)).
  assert (M := EI_mono 12 x ltac:(lra) ltac:(lra)).
  assert (S : Rabs (cfF a24 b24 x - EI x - (cfF a24 b24 12 - EI 12)) <= 190 / IZR e19 * (EI x - EI 12)).
  { apply ei_segment_rel; [lra..|]. intros t Ht. apply (cfF_near 190 a24 b24 tst24 t ltac:(lia) rel24_check).
    - apply tst24_val. lra.
    - lra.
    - apply Rgt_not_eq. apply (close24 t). lra. }
  unfold e19, d18, q0, q1, q9 in *. apply Rabs_le_between in K. apply Rabs_le_between in S. apply Rabs_le. lra.
Qed.
Lemma okrL x : 24 <= x -> Rabs (cfF aL bL x - EI x) <= 39 * d18 * EI x.
Proof.
  intros H. destruct jumps_check as [_ [_ [J1 J2]]]. apply at_ok_val in J1, J2.
  destruct (close24 24 ltac:(lra)) as [_ [P1 _]]. destruct (closeL 24 ltac:(lra)) as [_ [P2 _]].
  apply cfF_le in J1; [|unfold q0; lra..]. apply cfF_le2 in J2; [|unfold q0; lra..].
  assert (K := okr24 24 ltac:(lra)). assert (V := EI_pos 24 ltac:(lra)).
  assert (M := EI_mono 24 x ltac:(lra) ltac:(lra)).
  assert (S : Rabs (cfF aL bL x - EI x - (cfF aL bL 24 - EI 24)) <= 390 / IZR e19 * (EI x - EI 24)).
  { apply ei_segment_rel; [lra..|]. intros t Ht. apply (cfF_near 390 aL bL tstL t ltac:(lia) relL_check).
    - apply tstL_val. lra.
    - lra.
    - apply Rgt_not_eq. apply (closeL t). lra. }
  unfold e19, d18, q0, q1, q9 in *. apply Rabs_le_between in K. apply Rabs_le_between in S. apply Rabs_le. lra.
Qed.
Lemma ok24 x : 12 <= x <= 24 -> Rabs (cfF N24 D24 x - EI x) <= 32 * d18 * EI x.
Proof.
  intros H. destruct (close24 x H) as [_ [_ [_ C]]].
  apply (close_transfer _ _ _ _ _ (EI_pos x ltac:(lra)) C (okr24 x H)); unfold d18; lra.
Qed.
Lemma okL x : 24 <= x -> Rabs (cfF AL BL x - EI x) <= 40 * d18 * EI x.
Proof.
  intros H. destruct (closeL x H) as [_ [_ [_ C]]].
  apply (close_transfer _ _ _ _ _ (EI_pos x ltac:(lra)) C (okrL x H)); unfold d18; lra.
Qed.

(** ** The code on [6,12) *)
Definition def_lo : list Z := zsub (zscale 100000000000000 (zmul a12 b12k)) (zscale 100000000000001 (zmul a12k b12)).
Definition def_hi : list Z := zsub (zscale 10000000000239 (zmul a12k b12)) (zscale 10000000000000 (zmul a12 b12k)).
Lemma def_check : tst12 def_lo = true /\ tst12 def_hi = true.
Proof. vm_compute. split; reflexivity. Qed.
Lemma code12 x : 6 <= x <= 12 -> EI x * (1 + 99 / 10000000000000000) <= cfF N12 D12 x <= EI x * (1 + 24 / 1000000000000).
Proof.
  intros H. destruct def_check as [C1 C2].
  destruct (close12k x H) as [_ [P1 _]]. destruct (close12 x H) as [_ [P2 [_ R]]].
  assert (J1 := tst12_val x H _ C1). assert (J2 := tst12_val x H _ C2).
  unfold def_lo in J1. unfold def_hi in J2. apply cfF_le in J1; [|lra..]. apply cfF_le2 in J2; [|lra..].
  assert (K := okr12 x H). assert (V := EI_pos x ltac:(lra)). unfold d18 in K. unfold k21 in R. apply Rabs_le_between in K. lra.
Qed.

(** ** The theorems *)
Lemma Ei_below_6 x e : 1 / 100000000 < x < 6 -> is_Ei x e -> exists v, Ei_approximation (T := R) x = Ok v /\
  Rabs (v - e) <= 3 / 10000000000000000.
Proof.
  intros H E. apply is_Ei_EI in E; [|lra]. subst e. exists (F6 x). split; [apply Ei_6; lra|apply F6_error; lra].
Qed.
Lemma Ei_6_to_12 x e : 6 <= x < 12 -> is_Ei x e -> exists v, Ei_approximation (T := R) x = Ok v /\ 0 < e /\
  e * (1 + 99 / 10000000000000000) <= v <= e * (1 + 24 / 1000000000000).
Proof.
  intros H E. apply is_Ei_EI in E; [|lra]. subst e. exists (cfF N12 D12 x). split; [apply Ei_12; lra|].
  split; [apply EI_pos; lra|apply code12; lra].
Qed.
Lemma cfL x : 24 <= x -> cfF AL BL x = exp x / x * (1 + 1 / x * (zev NL x / (IZR unit25 * zev DL x))).
Proof.
  intros H. destruct (Ei_L x H) as [P _]. unfold cfF, AL, BL. rewrite zev_add, !zev_cons, zev_scale.
  assert (SP : 0 < IZR unit25) by (unfold unit25; lra). set (s := IZR unit25) in *. set (d := zev DL x) in *. set (n := zev NL x). clearbody s d n.
  field. lra.
Qed.
Lemma okSome (a b : R) : Ok (Some a) = Ok (Some b) -> b = a.
Proof. intros H. injection H as H. symmetry. exact H. Qed.
Lemma Ei_above_12 x e v : 12 <= x -> is_Ei x e ->
  Ei_approximation (NT := PNum) (NF := PNumFm) (NR := PNumTr) (Some x) = Ok (Some v) -> 0 < e /\ Rabs (v - e) <= 4 / 100000000000000000 * e.
Proof.
  intros H E HV. apply is_Ei_EI in E; [|lra]. subst e. assert (P := EI_pos x ltac:(lra)). split; [exact P|].
  destruct (Rlt_le_dec x 24) as [L|L].
  - destruct (Req_dec (zev sing24 x) 0) as [Z|NZ].
    + rewrite Ei_24_undefined in HV by (assumption || lra). discriminate.
    + destruct (Ei_24 x ltac:(lra) NZ) as [_ [_ E2]]. rewrite E2 in HV. apply okSome in HV. subst v.
      change (exp x / x * (zev N24 x / (IZR unit25 * zev D24 x))) with (cfF N24 D24 x). assert (K := ok24 x ltac:(lra)). unfold d18 in K. apply Rle_trans with (1 := K). apply Rmult_le_compat_r; lra.
  - destruct (Ei_L x L) as [_ [_ E2]]. rewrite E2 in HV. apply okSome in HV. subst v.
    rewrite <- cfL by exact L. assert (K := okL x L). unfold d18 in K. apply Rle_trans with (1 := K). apply Rmult_le_compat_r; lra.
Qed.
Lemma expEi_accuracy Ei0 x e : 24 <= x -> is_Ei x e -> exists v, expEi (T := R) Ei0 x = Ok v /\
  Rabs (v - exp (- x) * e) <= 4 / 100000000000000000 * (exp (- x) * e).
Proof.
  intros H E. apply is_Ei_EI in E; [|lra]. subst e. eexists. split; [apply expEi_L, H|].
  assert (K := okL x H). rewrite cfL in K by exact H. unfold d18 in K.
  set (r := 1 + 1 / x * (zev NL x / (IZR unit25 * zev DL x))) in *.
  assert (X : exp (- x) * exp x = 1) by (rewrite <- exp_plus, Rplus_opp_l; apply exp_0). assert (P := exp_pos (- x)).
  replace (1 / x * r - exp (- x) * EI x) with (exp (- x) * (exp x / x * r - EI x))
    by (replace (1 / x) with (exp (- x) * exp x / x) by (rewrite X; reflexivity); unfold Rdiv; ring).
  rewrite Rabs_mult, (Rabs_right (exp (- x))) by lra. apply (Rmult_le_compat_l (exp (- x))) in K; [|lra].
  apply Rle_trans with (1 := K). apply Req_le. field.
Qed.
Definition nz12 (c : list Z) : bool := tst12 c || tst12 (zscale (-1) c).
Lemma nz12_all l x : forallb nz12 l = true -> 6 <= x <= 12 -> List.Forall (fun c => zev c x <> 0) l.
Proof.
  intros H Hx. induction l as [|c l IH]; [constructor|]. cbn in H. apply andb_true_iff in H. destruct H as [H1 H2].
  constructor; [|apply IH, H2]. apply orb_true_iff in H1. destruct H1 as [H1|H1]; apply (tst12_val x Hx) in H1; [lra|].
  rewrite zev_scale in H1. lra.
Qed.
Lemma fixed_check : forallb nz12 (cf_dens unit25 z12_a_ok z12_b) = true.
Proof. vm_compute. reflexivity. Qed.
Lemma Ei_fixed x e : 6 <= x <= 12 -> is_Ei x e -> exists f,
  cf (T := R) (replace ei12_alpha 9 (nlit (T := R) (-2645677793077147237806) 1000000000000000000000)) ei12_beta x = Ok f /\
  Rabs (exp x / x * f - e) <= 3 / 100000000000000000 * e.
Proof.
  intros H E. apply is_Ei_EI in E; [|lra]. subst e. rewrite z12_a_ok_eq, z12_b_eq.
  assert (F : List.Forall (fun c => zev c x <> 0) (cf_dens unit25 z12_a_ok z12_b)) by (apply (nz12_all _ x fixed_check H)).
  destruct (cf_val unit25 unit25_nz z12_a_ok z12_b x eq_refl eq_refl F) as [_ [C1 _]].
  eexists. split; [exact C1|]. fold N12k D12k. assert (K := ok12 x H). assert (V := EI_pos x ltac:(lra)). unfold d18, cfF in K.
  apply Rle_trans with (1 := K). apply Rmult_le_compat_r; lra.
Qed.
Lemma def6_check : at_ok 6 10000000000237 10000000000000 a12k b12k a12 b12 = true.
Proof. vm_compute. reflexivity. Qed.
Lemma okInj (a b : R) : Ok a = Ok b -> b = a.
Proof. intros H. injection H as H. symmetry. exact H. Qed.
Lemma Ei_at_6 : exists x e, 1 / 100000000 < x /\ is_Ei x e /\ forall v, Ei_approximation (T := R) x = Ok v ->
  236 / 10000000000000 * e < v - e.
Proof.
  exists 6, (EI 6). split; [lra|]. split; [apply EI_is_Ei; lra|]. intros v Hv.
  destruct (Ei_12 6 ltac:(lra)) as [E _]. rewrite E in Hv. apply okInj in Hv. subst v.
  change (exp 6 / 6 * (zev N12 6 / (IZR unit25 * zev D12 6))) with (cfF N12 D12 6).
  destruct (close12k 6 ltac:(lra)) as [_ [P1 _]]. destruct (close12 6 ltac:(lra)) as [_ [P2 [_ R]]].
  assert (J := at_ok_val _ _ _ _ _ _ _ def6_check).
  apply cfF_le in J; [|lra..]. destruct EI_6 as [V K]. unfold d18 in K. unfold k21 in R. apply Rabs_le_between in K. lra.
Qed.
Lemma Ei_spec x : 0 < x -> exists! e, is_Ei x e.
Proof.
  intros H. exists (EI x). split; [apply EI_is_Ei, H|]. intros e E. symmetry. apply is_Ei_EI; assumption.
Qed.
Lemma Ei_spec_derive (f : R -> R) : (forall x, 0 < x -> is_Ei x (f x)) -> forall x, 0 < x -> is_derive f x (exp x / x).
Proof.
  intros F x H. apply (is_derive_ext_loc EI); [|apply EI_derive, H].
  exists (mkposreal x H). intros y Hy. unfold ball in Hy; cbn in Hy. unfold AbsRing_ball, abs, minus, plus, opp in Hy; cbn in Hy.
  symmetry. apply is_Ei_EI; [|apply F]; apply Rabs_lt_between in Hy; lra.
Qed.
