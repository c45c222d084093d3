(** Accuracy of E1_approximation. *)
From Coq Require Import ZArith Reals Lra Lia Bool List.
From Coquelicot Require Import Coquelicot.
From Verif Require Import Outcome Num NumFun M_Special S_Special L_Poly L_Special L_Expint L_ExpTaylor L_E1Tab.
Import ListNotations.

(** ** Rational functions of 1/x *)
Definition rat (A B : list Z) (u : R) : R := zev A u / zev B u.
Definition wron (A B : list Z) : list Z := zsub (zmul (zder A) B) (zmul A (zder B)).

Lemma rat_derive A B u : zev B u <> 0 -> is_derive (rat A B) u (zev (wron A B) u / zev B u ^ 2).
Proof.
  intros H. unfold rat, wron. rewrite zev_sub, !zev_mul.
  apply (is_derive_ext (fun v => zev A v / zev B v)); [reflexivity|].
  replace ((zev (zder A) u * zev B u - zev A u * zev (zder B) u) / zev B u ^ 2)
    with ((zev (zder A) u * zev B u - zev (zder B) u * zev A u) / (zev B u)²) by (unfold Rsqr; field; exact H).
  apply is_derive_Reals. apply derivable_pt_lim_div; [apply is_derive_Reals, zev_derive|apply is_derive_Reals, zev_derive|exact H].
Qed.
Lemma rat_inv_derive A B x : 0 < x -> zev B (/ x) <> 0 ->
  is_derive (fun y => rat A B (/ y)) x (- (/ x) ^ 2 * (zev (wron A B) (/ x) / zev B (/ x) ^ 2)).
Proof.
  intros Hx H.
  assert (D := is_derive_comp (rat A B) (fun y => / y) x _ _ (rat_derive A B (/ x) H)
                 (is_derive_inv (fun y => y) x 1 (is_derive_id x) ltac:(lra))).
  unfold scal in D; cbn in D. unfold mult in D; cbn in D.
  replace (- (/ x) ^ 2 * (zev (wron A B) (/ x) / zev B (/ x) ^ 2))
    with (- (1) / (x * (x * 1)) * (zev (wron A B) (/ x) / zev B (/ x) ^ 2)); [exact D|].
  field. split; [exact H|lra].
Qed.

(** Sign tests on a union of intervals. *)
Lemma bound_cuts (E W : list Z) a cuts d u : zpos_cuts a cuts d (zsub E W) = true -> zpos_cuts a cuts d (zadd E W) = true ->
  IZR a / IZR d <= u < IZR (last cuts a) / IZR d -> Rabs (zev W u) <= zev E u.
Proof.
  intros H1 H2 Hu. assert (P1 := zpos_cuts_val _ _ _ _ _ H1 Hu). assert (P2 := zpos_cuts_val _ _ _ _ _ H2 Hu).
  rewrite zev_sub in P1. rewrite zev_add in P2. apply Rabs_le. lra.
Qed.

(** ** x >= 4, published coefficients *)
Definition hA1 : list Z := zadd zc_q_ok (0%Z :: zc_p).
Definition hA : list Z := 0%Z :: hA1.
Definition hW : list Z := zsub (zadd (zmul hA1 zc_q_ok) (0%Z :: wron hA zc_q_ok)) (zmul zc_q_ok zc_q_ok).
Definition e18 : Z := 1000000000000000000%Z.
Lemma hW_check : zpos_cuts 0 [5; 10; 15; 20; 26]%Z 100 (zsub (zscale 5 (zmul zc_q_ok zc_q_ok)) (zscale e18 hW)) = true /\
  zpos_cuts 0 [5; 10; 15; 20; 26]%Z 100 (zadd (zscale 5 (zmul zc_q_ok zc_q_ok)) (zscale e18 hW)) = true /\
  zpos_on 0 26 100 (zsub (zscale 2 zc_q_ok) hA1) = true /\ zpos_on 0 26 100 (zadd (zscale 2 zc_q_ok) hA1) = true /\
  zpos_on 0 26 100 zc_q_ok = true /\ zpos_on 0 26 100 hA1 = true.
Proof. vm_compute. repeat split. Qed.

Lemma inv4 x : 4 <= x -> 0 < / x <= 1 / 4.
Proof.
  intros H. split; [apply Rinv_0_lt_compat; lra|].
  replace (1 / 4) with (/ 4) by field. apply Rinv_le_contravar; lra.
Qed.

Lemma high_ok x : 4 <= x -> Rabs (exp (- x) * rat hA zc_q_ok (/ x) - E1 x) <= 5 / IZR e18 * E1 x.
Proof.
  destruct hW_check as [C1 [C2 [C3 [C4 [C5 _]]]]].
  assert (R : forall u, 0 <= u <= 1 / 4 -> IZR 0 / IZR 100 <= u < IZR 26 / IZR 100) by (intros; lra).
  assert (Bp : forall u, 0 <= u <= 1 / 4 -> 0 < zev zc_q_ok u).
  { intros u Hu. exact (zpos_on_val _ _ _ _ u C5 (R u Hu)). }
  apply (E1_relative (fun y => rat hA zc_q_ok (/ y))
           (fun t => - (/ t) ^ 2 * (zev (wron hA zc_q_ok) (/ t) / zev zc_q_ok (/ t) ^ 2)) 4 1).
  - lra.
  - intros t Ht. assert (Hu := inv4 t Ht). apply rat_inv_derive; [lra|]. apply Rgt_not_eq, Bp. lra.
  - intros t Ht. assert (Hu := inv4 t Ht). set (u := / t) in *. assert (B := Bp u ltac:(lra)).
    assert (P3 := zpos_on_val _ _ _ _ u C3 (R u ltac:(lra))). assert (P4 := zpos_on_val _ _ _ _ u C4 (R u ltac:(lra))).
    rewrite zev_sub, zev_scale in P3. rewrite zev_add, zev_scale in P4.
    unfold rat, hA. rewrite zev_cons. set (a := zev hA1 u) in *. set (b := zev zc_q_ok u) in *.
    replace ((0 + u * a) / b) with (u * (a / b)) by (field; lra). rewrite Rabs_mult, (Rabs_right u) by lra.
    assert (Q : Rabs (a / b) <= 2).
    { unfold Rdiv. rewrite Rabs_mult, (Rabs_right (/ b)) by (left; apply Rinv_0_lt_compat, B).
      apply (Rmult_le_reg_r b); [exact B|]. rewrite Rmult_assoc, Rinv_l, Rmult_1_r by lra. apply Rabs_le. lra. }
    assert (0 <= Rabs (a / b)) by apply Rabs_pos.
    assert (u * Rabs (a / b) <= 1 / 4 * 2) by (apply Rmult_le_compat; lra). lra.
  - intros t Ht. assert (Hu := inv4 t Ht). 
    assert (W := bound_cuts _ _ _ _ _ (/ t) C1 C2 ltac:(cbn [last]; lra)).
    assert (B := Bp (/ t) ltac:(lra)).
    rewrite !zev_scale, zev_mul in W.
    assert (EW : t * (rat hA zc_q_ok (/ t) - - (/ t) ^ 2 * (zev (wron hA zc_q_ok) (/ t) / zev zc_q_ok (/ t) ^ 2)) - 1
                 = zev hW (/ t) / zev zc_q_ok (/ t) ^ 2).
    { unfold hW, rat. rewrite zev_sub, zev_add, zev_cons, !zev_mul. unfold hA at 1. rewrite zev_cons. field. split; lra. }
    rewrite EW. set (b := zev zc_q_ok (/ t)) in *. set (w := zev hW (/ t)) in *.
    assert (B2 : 0 < b ^ 2) by (apply pow_lt, B).
    unfold Rdiv at 1. rewrite Rabs_mult, (Rabs_right (/ b ^ 2)) by (left; apply Rinv_0_lt_compat, B2).
    apply (Rmult_le_reg_r (b ^ 2)); [exact B2|]. rewrite Rmult_assoc, Rinv_l, Rmult_1_r by lra.
    rewrite Rabs_mult, (Rabs_right (IZR e18)) in W by (unfold e18; lra). unfold e18 in *. cbn [pow]. lra.
Qed.

(** ** Comparison of two fractions *)
Lemma rat_le k1 k2 A B A' B' u : 0 < IZR k2 -> 0 < zev B u -> 0 < zev B' u ->
  0 < zev (zsub (zscale k2 (zmul A' B)) (zscale k1 (zmul A B'))) u -> IZR k1 / IZR k2 * rat A B u <= rat A' B' u.
Proof.
  intros K B1 B2 H. rewrite zev_sub, !zev_scale, !zev_mul in H. unfold rat.
  set (a := zev A u) in *. set (b := zev B u) in *. set (a' := zev A' u) in *. set (b' := zev B' u) in *.
  apply (Rmult_le_reg_r (IZR k2 * b * b')); [repeat apply Rmult_lt_0_compat; assumption|].
  replace (IZR k1 / IZR k2 * (a / b) * (IZR k2 * b * b')) with (IZR k1 * (a * b')) by (field; lra).
  replace (a' / b' * (IZR k2 * b * b')) with (IZR k2 * (a' * b)) by (field; lra). lra.
Qed.
Lemma rat_le2 k1 k2 A B A' B' u : 0 < IZR k2 -> 0 < zev B u -> 0 < zev B' u ->
  0 < zev (zsub (zscale k1 (zmul A B')) (zscale k2 (zmul A' B))) u -> rat A' B' u <= IZR k1 / IZR k2 * rat A B u.
Proof.
  intros K B1 B2 H. rewrite zev_sub, !zev_scale, !zev_mul in H. unfold rat.
  set (a := zev A u) in *. set (b := zev B u) in *. set (a' := zev A' u) in *. set (b' := zev B' u) in *.
  apply (Rmult_le_reg_r (IZR k2 * b * b')); [repeat apply Rmult_lt_0_compat; assumption|].
  replace (IZR k1 / IZR k2 * (a / b) * (IZR k2 * b * b')) with (IZR k1 * (a * b')) by (field; lra).
  replace (a' / b' * (IZR k2 * b * b')) with (IZR k2 * (a' * b)) by (field; lra). lra.
Qed.

(** ** x >= 4, coefficients of the code *)
Definition cA1 : list Z := zadd zc_q (0%Z :: zc_p).
Definition cA : list Z := 0%Z :: cA1.
Lemma rat_shift A B u : rat (0%Z :: A) B u = u * rat A B u.
Proof. unfold rat. rewrite zev_cons. unfold Rdiv. ring. Qed.

Lemma cq_check : zpos_on 0 26 100 zc_q = true.
Proof. vm_compute. reflexivity. Qed.
Lemma E1_code_high x : 4 <= x -> E1_approximation (T := R) x = Ok (exp (- x) * rat cA zc_q (/ x)).
Proof.
  intros H. rewrite E1_high by exact H. f_equal. rewrite zc_p_eq, zc_q_eq, !pev_scaled.
  assert (Hu := inv4 x H). assert (B := zpos_on_val _ _ _ _ (/ x) cq_check ltac:(lra)).
  unfold cA. rewrite rat_shift. unfold rat, cA1. rewrite zev_add, zev_cons. field.
  repeat split; try exact unit29_nz; lra.
Qed.

Definition num_low : list Z := zsub (zscale 1000000000000000 (zmul cA1 zc_q_ok)) (zscale 999999999999999 (zmul hA1 zc_q)).
Definition num_high : list Z := zsub (zscale 100094 (zmul hA1 zc_q)) (zscale 100000 (zmul cA1 zc_q_ok)).
Definition num_defect : list Z := zsub (zscale 10000000 (zmul cA1 zc_q_ok)) (zscale 10000061 (zmul hA1 zc_q)).
Definition num_four : list Z := zsub (zscale 1000000 (zmul cA1 zc_q_ok)) (zscale 1000926 (zmul hA1 zc_q)).
Lemma num_check : zpos_cuts 0 [40; 80; 2600]%Z 10000 num_low = true /\
  zpos_cuts 0 [500; 1000; 1500; 2000; 2501]%Z 10000 num_high = true /\
  zpos_cuts 100 [150; 200; 260]%Z 1000 num_defect = true /\ zpos_at 1 4 num_four = true.
Proof. vm_compute. repeat split. Qed.

Lemma code_ratio x : 4 <= x ->
  999999999999999 / 1000000000000000 * rat hA zc_q_ok (/ x) <= rat cA zc_q (/ x) <= 100094 / 100000 * rat hA zc_q_ok (/ x) /\
  0 < rat hA zc_q_ok (/ x) /\
  (x <= 10 -> 10000061 / 10000000 * rat hA zc_q_ok (/ x) <= rat cA zc_q (/ x)) /\
  (x = 4 -> 1000926 / 1000000 * rat hA zc_q_ok (/ x) <= rat cA zc_q (/ x)).
Proof.
  intros H. assert (Hu := inv4 x H). destruct num_check as [N1 [N2 [N3 N4]]].
  destruct hW_check as [_ [_ [_ [_ [C5 C6]]]]].
  assert (B0 := zpos_on_val _ _ _ _ (/ x) cq_check ltac:(lra)).
  assert (B1 := zpos_on_val _ _ _ _ (/ x) C5 ltac:(lra)).
  assert (A1 := zpos_on_val _ _ _ _ (/ x) C6 ltac:(lra)).
  unfold hA, cA. rewrite !rat_shift.
  assert (P1 := zpos_cuts_val _ _ _ _ (/ x) N1 ltac:(cbn [last]; lra)).
  assert (P2 := zpos_cuts_val _ _ _ _ (/ x) N2 ltac:(cbn [last]; lra)).
  apply rat_le in P1; [|lra|assumption..]. apply rat_le2 in P2; [|lra|assumption..].
  assert (RP : 0 < rat hA1 zc_q_ok (/ x)) by (apply Rmult_lt_0_compat; [exact A1|apply Rinv_0_lt_compat, B1]).
  set (r := rat hA1 zc_q_ok (/ x)) in *. set (r0 := rat cA1 zc_q (/ x)) in *. set (u := / x) in *.
  split; [split|split; [|split]].
  - apply (Rmult_le_compat_l u) in P1; lra.
  - apply (Rmult_le_compat_l u) in P2; lra.
  - apply Rmult_lt_0_compat; lra.
  - intros L. assert (U10 : 1 / 10 <= u).
    { unfold u. replace (1 / 10) with (/ 10) by field. apply Rinv_le_contravar; lra. }
    assert (P3 := zpos_cuts_val _ _ _ _ u N3 ltac:(cbn [last]; lra)).
    apply rat_le in P3; [|lra|assumption..]. fold r r0 in P3. apply (Rmult_le_compat_l u) in P3; lra.
  - intros L. assert (P4 := zpos_at_val _ _ _ N4). replace (IZR 1 / IZR 4) with u in P4 by (unfold u; rewrite L; field).
    apply rat_le in P4; [|lra|assumption..]. fold r r0 in P4. apply (Rmult_le_compat_l u) in P4; lra.
Qed.

Lemma E1_accuracy_high x : 4 <= x -> exists v, E1_approximation (T := R) x = Ok v /\
  E1 x * (1 - 2 / 1000000000000000) <= v <= E1 x * (1 + 95 / 100000) /\
  (x <= 10 -> E1 x * (1 + 6 / 1000000) <= v) /\ (x = 4 -> E1 x * (1 + 925 / 1000000) <= v).
Proof.
  intros H. exists (exp (- x) * rat cA zc_q (/ x)). split; [apply E1_code_high, H|].
  destruct (code_ratio x H) as [[Q1 Q2] [_ [Q3 Q4]]].
  assert (K := high_ok x H). apply Rabs_le_between in K. assert (P := E1_pos x ltac:(lra)).
  assert (EP := exp_pos (- x)). unfold e18 in K.
  set (r := rat hA zc_q_ok (/ x)) in *. set (r0 := rat cA zc_q (/ x)) in *. set (e := exp (- x)) in *.
  apply (Rmult_le_compat_l e) in Q1; [|lra]. apply (Rmult_le_compat_l e) in Q2; [|lra].
  split; [split; lra|split].
  - intros L. specialize (Q3 L). apply (Rmult_le_compat_l e) in Q3; lra.
  - intros L. specialize (Q4 L). apply (Rmult_le_compat_l e) in Q4; lra.
Qed.

(** ** 1 <= x <= 4 *)
Definition mW : list Z := zsub (zadd (zmul zb_p_ok zb_q) (0 :: 0 :: wron zb_p_ok zb_q)%Z) (0%Z :: zmul zb_q zb_q).
Definition e17 : Z := 100000000000000000%Z.
Lemma mW_check :
  zpos_cuts 249 [437; 625; 813; 1001]%Z 1000 (zsub (zscale 3 (0%Z :: zmul zb_q zb_q)) (zscale e17 mW)) = true /\
  zpos_cuts 249 [437; 625; 813; 1001]%Z 1000 (zadd (zscale 3 (0%Z :: zmul zb_q zb_q)) (zscale e17 mW)) = true /\
  zpos_on 249 1001 1000 zb_q = true /\ zpos_on 249 1001 1000 zb_p_ok = true.
Proof. vm_compute. repeat split. Qed.
Lemma inv14 x : 1 <= x <= 4 -> 1 / 4 <= / x <= 1.
Proof.
  intros H. split.
  - replace (1 / 4) with (/ 4) by field. apply Rinv_le_contravar; lra.
  - rewrite <- Rinv_1. apply Rinv_le_contravar; lra.
Qed.
Definition mF (x : R) : R := exp (- x) * rat zb_p_ok zb_q (/ x).
Lemma mF_derive t : 1 <= t <= 4 -> exists th, Rabs th <= 3 / IZR e17 /\ is_derive mF t (- ek t * (1 + th)).
Proof.
  intros Ht. assert (Hu := inv14 t Ht). destruct mW_check as [C1 [C2 [C3 _]]].
  assert (B := zpos_on_val _ _ _ _ (/ t) C3 ltac:(lra)).
  assert (W := bound_cuts _ _ _ _ _ (/ t) C1 C2 ltac:(cbn [last]; lra)).
  exists (zev mW (/ t) / (/ t * zev zb_q (/ t) ^ 2)). split.
  - rewrite !zev_scale, zev_cons, zev_mul in W.
    rewrite Rabs_mult, (Rabs_right (IZR e17)) in W by (unfold e17; lra).
    set (b := zev zb_q (/ t)) in *. set (w := zev mW (/ t)) in *. set (u := / t) in *.
    assert (B2 : 0 < u * b ^ 2) by (apply Rmult_lt_0_compat; [lra|apply pow_lt, B]).
    unfold Rdiv at 1. rewrite Rabs_mult, (Rabs_right (/ (u * b ^ 2))) by (left; apply Rinv_0_lt_compat, B2).
    apply (Rmult_le_reg_r (u * b ^ 2)); [exact B2|]. rewrite Rmult_assoc, Rinv_l, Rmult_1_r by lra.
    unfold e17 in *. cbn [pow] in *. lra.
  - assert (D := rat_inv_derive zb_p_ok zb_q t ltac:(lra) ltac:(lra)).
    set (h := fun y => rat zb_p_ok zb_q (/ y)) in *.
    apply (is_derive_ext (fun y => exp (- y) * h y)); [reflexivity|].
    evar_last.
    { auto_derive; [eexists; exact D|]. replace (Derive (fun x0 => h x0) t) with (- (/ t) ^ 2 * (zev (wron zb_p_ok zb_q) (/ t) / zev zb_q (/ t) ^ 2))
        by (symmetry; apply is_derive_unique; exact D). reflexivity. }
    unfold h, rat, ek, mW. rewrite zev_sub, zev_add, !zev_cons, !zev_mul. field. split; lra.
Qed.

(** Comparison of two antiderivatives of nearly -e^{-t}/t on a segment. *)
Lemma segment F a b e : 0 < a -> a <= b ->
  (forall t, a <= t <= b -> exists th, Rabs th <= e /\ is_derive F t (- ek t * (1 + th))) ->
  Rabs ((F a - E1 a) - (F b - E1 b)) <= e * (E1 a - E1 b).
Proof.
  intros Ha Hab HF.
  assert (DF : forall t, a <= t <= b -> is_derive F t (Derive F t) /\ Rabs (Derive F t + ek t) <= e * ek t).
  { intros t Ht. destruct (HF t Ht) as [th [H1 H2]]. rewrite (is_derive_unique _ _ _ H2). split; [exact H2|].
    assert (P := ek_pos t ltac:(lra)).
    replace (- ek t * (1 + th) + ek t) with (- th * ek t) by ring.
    rewrite Rabs_mult, Rabs_Ropp, (Rabs_right (ek t)) by lra. apply Rmult_le_compat_r; lra. }
  assert (DE : forall c t, a <= t <= b -> is_derive (fun y => c * E1 y) t (c * - ek t)).
  { intros c t Ht. apply is_derive_scal, E1_derive. lra. }
  assert (P1 : F b - (1 - e) * E1 b <= F a - (1 - e) * E1 a).
  { apply (decreasing (fun y => F y - (1 - e) * E1 y) (fun t => Derive F t - (1 - e) * - ek t)); [exact Hab| |].
    - intros t Ht. apply @is_derive_minus; [apply DF, Ht|apply DE, Ht].
    - intros t Ht. destruct (DF t Ht) as [_ B]. apply Rabs_le_between in B. lra. }
  assert (P2 : (1 + e) * E1 b - F b <= (1 + e) * E1 a - F a).
  { apply (decreasing (fun y => (1 + e) * E1 y - F y) (fun t => (1 + e) * - ek t - Derive F t)); [exact Hab| |].
    - intros t Ht. apply @is_derive_minus; [apply DE, Ht|apply DF, Ht].
    - intros t Ht. destruct (DF t Ht) as [_ B]. apply Rabs_le_between in B. lra. }
  apply Rabs_le. lra.
Qed.

Definition e19 : Z := 10000000000000000000%Z.
Lemma jump_check :
  zpos_at 1 4 (zsub (zscale e19 (zmul zb_p_ok zc_q_ok)) (zscale 9999999999999999999 (zmul hA zb_q))) = true /\
  zpos_at 1 4 (zsub (zscale 10000000000000000001 (zmul hA zb_q)) (zscale e19 (zmul zb_p_ok zc_q_ok))) = true.
Proof. vm_compute. split; reflexivity. Qed.

Lemma E1_decr x y : 0 < x -> x <= y -> E1 y <= E1 x.
Proof.
  intros H1 H2. apply (decreasing E1 (fun t => - ek t)); [exact H2| |].
  - intros t Ht. apply E1_derive. lra.
  - intros t Ht. assert (P := ek_pos t ltac:(lra)). lra.
Qed.

Lemma mid_at_4 : Rabs (mF 4 - E1 4) <= 6 / IZR e18 * E1 4.
Proof.
  destruct jump_check as [J1 J2]. destruct hW_check as [_ [_ [_ [_ [C5 _]]]]]. destruct mW_check as [_ [_ [C3 _]]].
  assert (U : IZR 1 / IZR 4 = / 4) by field.
  assert (B0 := zpos_on_val _ _ _ _ (/ 4) C5 ltac:(lra)). assert (B1 := zpos_on_val _ _ _ _ (/ 4) C3 ltac:(lra)).
  apply zpos_at_val in J1. apply zpos_at_val in J2. rewrite U in J1, J2.
  apply rat_le in J1; [|unfold e19; lra|assumption..]. apply rat_le2 in J2; [|unfold e19; lra|assumption..].
  assert (K := high_ok 4 ltac:(lra)). apply Rabs_le_between in K. unfold mF.
  assert (EP := exp_pos (- (4))). assert (P := E1_pos 4 ltac:(lra)).
  unfold e19, e18 in *.
  set (r := rat hA zc_q_ok (/ 4)) in *. set (r0 := rat zb_p_ok zb_q (/ 4)) in *. set (e := exp (- (4))) in *.
  apply (Rmult_le_compat_l e) in J1; [|lra]. apply (Rmult_le_compat_l e) in J2; [|lra].
  apply Rabs_le. lra.
Qed.
Lemma mid_ok x : 1 <= x <= 4 -> Rabs (mF x - E1 x) <= 4 / IZR e17 * E1 x.
Proof.
  intros H. assert (S := segment mF x 4 (3 / IZR e17) ltac:(lra) ltac:(lra) ltac:(intros t Ht; apply mF_derive; lra)).
  assert (K := mid_at_4). apply Rabs_le_between in S. apply Rabs_le_between in K.
  assert (P := E1_pos 4 ltac:(lra)). assert (D := E1_decr x 4 ltac:(lra) ltac:(lra)).
  unfold e17, e18 in *. apply Rabs_le. lra.
Qed.

Lemma E1_code_mid x : 1 <= x < 4 -> E1_approximation (T := R) x = Ok (exp (- x) * rat zb_p zb_q (/ x)).
Proof.
  intros H. rewrite E1_mid by exact H. f_equal. rewrite zb_p_eq, zb_q_eq, !pev_scaled.
  assert (Hu := inv14 x ltac:(lra)). destruct mW_check as [_ [_ [C3 _]]].
  assert (B := zpos_on_val _ _ _ _ (/ x) C3 ltac:(lra)). unfold rat. field. repeat split; try exact unit29_nz; lra.
Qed.
Definition mid_low : list Z := zsub (zscale 100000000000 zb_p) (zscale 100000000057 zb_p_ok).
Definition mid_high : list Z := zsub (zscale 100000000146 zb_p_ok) (zscale 100000000000 zb_p).
Lemma mid_check : zpos_cuts 249 [437; 625; 813; 1001]%Z 1000 mid_low = true /\
  zpos_cuts 249 [437; 625; 813; 1001]%Z 1000 mid_high = true.
Proof. vm_compute. repeat split. Qed.
Lemma E1_accuracy_mid x : 1 <= x < 4 -> exists v, E1_approximation (T := R) x = Ok v /\
  E1 x * (1 + 56 / 100000000000) <= v <= E1 x * (1 + 147 / 100000000000).
Proof.
  intros H. exists (exp (- x) * rat zb_p zb_q (/ x)). split; [apply E1_code_mid, H|].
  assert (Hu := inv14 x ltac:(lra)). destruct mW_check as [_ [_ [C3 C4]]]. destruct mid_check as [M1 M2].
  assert (B := zpos_on_val _ _ _ _ (/ x) C3 ltac:(lra)).
  assert (P1 := zpos_cuts_val _ _ _ _ (/ x) M1 ltac:(cbn [last]; lra)).
  assert (P2 := zpos_cuts_val _ _ _ _ (/ x) M2 ltac:(cbn [last]; lra)).
  unfold mid_low in P1. unfold mid_high in P2. rewrite zev_sub, !zev_scale in P1, P2.
  assert (K := mid_ok x ltac:(lra)). apply Rabs_le_between in K. unfold mF, rat in *. unfold e17 in *.
  assert (P := E1_pos x ltac:(lra)).
  set (a := zev zb_p (/ x)) in *. set (a' := zev zb_p_ok (/ x)) in *. set (b := zev zb_q (/ x)) in *.
  assert (EP : 0 < exp (- x) / b) by (apply Rmult_lt_0_compat; [apply exp_pos|apply Rinv_0_lt_compat, B]).
  replace (exp (- x) * (a / b)) with (exp (- x) / b * a) by (field; lra).
  replace (exp (- x) * (a' / b)) with (exp (- x) / b * a') in K by (field; lra).
  set (k := exp (- x) / b) in *.
  assert (Q1 : k * (100000000057 / 100000000000 * a') <= k * a) by (apply Rmult_le_compat_l; lra).
  assert (Q2 : k * a <= k * (100000000146 / 100000000000 * a')) by (apply Rmult_le_compat_l; lra).
  lra.
Qed.

(** ** 0 < x <= 1 *)
Definition lw : list Z := wron za_p za_q.
Definition lqq : list Z := zmul za_q za_q.
Definition low_up : list Z :=
  zsub (zscale (2 * efac 22) lqq) (zscale e18 (zadd (zscale (efac 22) lw) (zmul (tl (etab 22)) lqq))).
Definition low_lo : list Z :=
  zadd (zscale (2 * efac 23) lqq) (zscale e18 (zadd (zscale (efac 23) lw) (zmul (tl (etab 23)) lqq))).
Lemma low_check : zpos_cuts 0 [25; 50; 75; 101]%Z 100 low_up = true /\ zpos_cuts 0 [25; 50; 75; 101]%Z 100 low_lo = true /\
  zpos_on 0 101 100 za_q = true.
Proof. vm_compute. repeat split. Qed.
Lemma etab_tl n x : zev (etab n) x = IZR (efac n) + x * zev (tl (etab n)) x.
Proof.
  assert (L := etab_length n). assert (Z := etab_0 n). destruct (etab n) as [|h t]; [discriminate L|].
  rewrite zev_cons in *. cbn [tl]. lra.
Qed.
Definition lF (x : R) : R := - ln x + rat za_p za_q x.
Lemma lF_derive t : 0 < t <= 1 -> exists d, Rabs (d + ek t) <= 2 / IZR e18 /\ is_derive lF t d.
Proof.
  intros Ht. destruct low_check as [C1 [C2 C3]].
  assert (B := zpos_on_val _ _ _ _ t C3 ltac:(lra)).
  assert (U := zpos_cuts_val _ _ _ _ t C1 ltac:(cbn [last]; lra)).
  assert (L := zpos_cuts_val _ _ _ _ t C2 ltac:(cbn [last]; lra)).
  exists (- / t + zev lw t / zev za_q t ^ 2). split.
  - unfold low_up in U. unfold low_lo in L. rewrite zev_sub in U. rewrite zev_add in L.
    rewrite !zev_scale, zev_add, zev_scale, zev_mul in U, L.
    assert (Q : zev lqq t = zev za_q t ^ 2) by (unfold lqq; rewrite zev_mul; ring). rewrite Q in U, L.
    assert (E1' := etay_sign 22 t ltac:(lra)). assert (E2 := etay_sign 23 t ltac:(lra)). cbn [Nat.even] in E1', E2.
    unfold etay in E1', E2. rewrite etab_tl in E1', E2. rewrite mult_IZR in U, L.
    assert (F1 := IZR_lt _ _ (efac_pos 22)). assert (F2 := IZR_lt _ _ (efac_pos 23)).
    set (f1 := IZR (efac 22)) in *. set (f2 := IZR (efac 23)) in *.
    set (t1 := zev (tl (etab 22)) t) in *. set (t2 := zev (tl (etab 23)) t) in *.
    set (w := zev lw t) in *. set (b := zev za_q t) in *. assert (B2 : 0 < b ^ 2) by (apply pow_lt, B).
    set (e := exp (- t)) in *.
    assert (G1 : - (t1 / f1) <= (1 - e) / t).
    { apply (Rmult_le_reg_r t); [lra|]. replace ((1 - e) / t * t) with (1 - e) by (field; lra).
      replace ((f1 + t * t1) / f1) with (1 + t1 / f1 * t) in E1' by (field; lra). lra. }
    assert (G2 : (1 - e) / t <= - (t2 / f2)).
    { apply (Rmult_le_reg_r t); [lra|]. replace ((1 - e) / t * t) with (1 - e) by (field; lra).
      replace ((f2 + t * t2) / f2) with (1 + t2 / f2 * t) in E2 by (field; lra). lra. }
    assert (U' : w / b ^ 2 + t1 / f1 <= 2 / IZR e18).
    { apply (Rmult_le_reg_r (f1 * b ^ 2)); [apply Rmult_lt_0_compat; assumption|].
      replace ((w / b ^ 2 + t1 / f1) * (f1 * b ^ 2)) with (f1 * w + t1 * b ^ 2) by (field; lra).
      unfold e18 in *. lra. }
    assert (L' : - (2 / IZR e18) <= w / b ^ 2 + t2 / f2).
    { apply (Rmult_le_reg_r (f2 * b ^ 2)); [apply Rmult_lt_0_compat; assumption|].
      replace ((w / b ^ 2 + t2 / f2) * (f2 * b ^ 2)) with (f2 * w + t2 * b ^ 2) by (field; lra).
      unfold e18 in *. lra. }
    replace (- / t + w / b ^ 2 + ek t) with (w / b ^ 2 - (1 - e) / t) by (unfold ek, e; field; lra).
    apply Rabs_le. lra.
  - apply (is_derive_ext (fun y => plus (- ln y) (rat za_p za_q y))); [reflexivity|].
    apply @is_derive_plus; [auto_derive; [lra|field; lra]|]. apply rat_derive. lra.
Qed.

(** F(1) = P/Q, E1(1) is about e^-1 C/D; they differ by at most 2e-20. *)
Definition one_lo : list Z :=
  zsub (zscale (efac 22) (zadd (zscale (5 * e19) (zmul za_p zb_q)) (zmul za_q zb_q)))
       (zscale (5 * e19) (zmul (etab 22) (zmul zb_p_ok za_q))).
Definition one_hi : list Z :=
  zsub (zscale (5 * e19) (zmul (etab 23) (zmul zb_p_ok za_q)))
       (zscale (efac 23) (zsub (zscale (5 * e19) (zmul za_p zb_q)) (zmul za_q zb_q))).
Lemma one_check : zpos_at 1 1 one_lo = true /\ zpos_at 1 1 one_hi = true /\ zpos_at 1 1 zb_p_ok = true /\
  zpos_at 1 1 (zsub (zscale 10 za_p) (zscale 2 za_q)) = true.
Proof. vm_compute. repeat split. Qed.
Lemma low_at_1 : Rabs (lF 1 - mF 1) <= 1 / (5 * IZR e19) /\ 2 / 10 < lF 1.
Proof.
  destruct one_check as [O1 [O2 [O3 O4]]]. destruct low_check as [_ [_ C3]]. destruct mW_check as [_ [_ [D3 _]]].
  assert (B := zpos_on_val _ _ _ _ 1 C3 ltac:(lra)). assert (D := zpos_on_val _ _ _ _ 1 D3 ltac:(lra)).
  apply zpos_at_val in O1, O2, O3, O4. replace (IZR 1 / IZR 1) with 1 in * by field.
  unfold lF, mF, rat. rewrite ln_1, Rinv_1.
  assert (E1' := etay_sign 22 1 ltac:(lra)). assert (E2 := etay_sign 23 1 ltac:(lra)). cbn [Nat.even] in E1', E2. unfold etay in E1', E2.
  unfold one_lo in O1. unfold one_hi in O2. repeat first [rewrite zev_sub in O1|rewrite zev_add in O1|rewrite zev_scale in O1|rewrite zev_mul in O1].
  repeat first [rewrite zev_sub in O2|rewrite zev_add in O2|rewrite zev_scale in O2|rewrite zev_mul in O2].
  rewrite zev_sub, !zev_scale in O4.
  rewrite mult_IZR in O1, O2.
  assert (F1 := IZR_lt _ _ (efac_pos 22)). assert (F2 := IZR_lt _ _ (efac_pos 23)).
  set (f1 := IZR (efac 22)) in *. set (f2 := IZR (efac 23)) in *.
  set (t1 := zev (etab 22) 1) in *. set (t2 := zev (etab 23) 1) in *.
  set (a := zev za_p 1) in *. set (b := zev za_q 1) in *. set (c := zev zb_p_ok 1) in *. set (d := zev zb_q 1) in *.
  set (e := exp (- (1))) in *.
  assert (CD : 0 < c / d) by (apply Rmult_lt_0_compat; [exact O3|apply Rinv_0_lt_compat, D]).
  assert (X1 : e * (c / d) <= t1 / f1 * (c / d)) by (apply Rmult_le_compat_r; lra).
  assert (X2 : t2 / f2 * (c / d) <= e * (c / d)) by (apply Rmult_le_compat_r; lra).
  assert (N : 0 < 5 * IZR e19) by (unfold e19; lra). set (n := 5 * IZR e19) in *. clearbody n a b c d f1 f2 t1 t2 e.
  assert (Y1 : t1 / f1 * (c / d) <= a / b + 1 / n).
  { apply (Rmult_le_reg_r (f1 * b * d * n)); [repeat apply Rmult_lt_0_compat; assumption|].
    replace (t1 / f1 * (c / d) * (f1 * b * d * n)) with (n * (t1 * (c * b))) by (field; repeat split; lra).
    replace ((a / b + 1 / n) * (f1 * b * d * n)) with (f1 * (n * (a * d) + b * d)) by (field; repeat split; lra). lra. }
  assert (Y2 : a / b - 1 / n <= t2 / f2 * (c / d)).
  { apply (Rmult_le_reg_r (f2 * b * d * n)); [repeat apply Rmult_lt_0_compat; assumption|].
    replace (t2 / f2 * (c / d) * (f2 * b * d * n)) with (n * (t2 * (c * b))) by (field; repeat split; lra).
    replace ((a / b - 1 / n) * (f2 * b * d * n)) with (f2 * (n * (a * d) - b * d)) by (field; repeat split; lra). lra. }
  split.
  - apply Rabs_le. lra.
  - assert (2 / 10 < a / b); [|lra]. apply (Rmult_lt_reg_r b); [exact B|].
    replace (a / b * b) with a by (field; lra). lra.
Qed.
Lemma low_seg x : 0 < x <= 1 -> Rabs ((lF x - E1 x) - (lF 1 - E1 1)) <= 2 / IZR e18 * (1 - x).
Proof.
  intros H.
  assert (DF : forall t, x <= t <= 1 -> is_derive lF t (Derive lF t) /\ Rabs (Derive lF t + ek t) <= 2 / IZR e18).
  { intros t Ht. destruct (lF_derive t ltac:(lra)) as [d [H1 H2]]. rewrite (is_derive_unique _ _ _ H2). split; assumption. }
  set (g := 2 / IZR e18) in *.
  assert (P1 : lF 1 - E1 1 - g * 1 <= lF x - E1 x - g * x).
  { apply (decreasing (fun y => lF y - E1 y - g * y) (fun t => Derive lF t - - ek t - g)); [lra| |].
    - intros t Ht. apply @is_derive_minus; [apply @is_derive_minus; [apply DF, Ht|apply E1_derive; lra]|].
      auto_derive; [exact I|ring].
    - intros t Ht. destruct (DF t Ht) as [_ B]. apply Rabs_le_between in B. lra. }
  assert (P2 : E1 1 - lF 1 - g * 1 <= E1 x - lF x - g * x).
  { apply (decreasing (fun y => E1 y - lF y - g * y) (fun t => - ek t - Derive lF t - g)); [lra| |].
    - intros t Ht. apply @is_derive_minus; [apply @is_derive_minus; [apply E1_derive; lra|apply DF, Ht]|].
      auto_derive; [exact I|ring].
    - intros t Ht. destruct (DF t Ht) as [_ B]. apply Rabs_le_between in B. lra. }
  apply Rabs_le. lra.
Qed.
Lemma low_ok x : 0 < x <= 1 -> Rabs (lF x - E1 x) <= 1 / 10000000000000000 * E1 x.
Proof.
  intros H. destruct low_at_1 as [J V]. assert (K := mid_ok 1 ltac:(lra)).
  assert (D := E1_decr x 1 ltac:(lra) ltac:(lra)).
  assert (S := low_seg x H).
  apply Rabs_le_between in S. apply Rabs_le_between in J. apply Rabs_le_between in K.
  unfold e17, e18, e19 in *. apply Rabs_le. lra.
Qed.
Lemma E1_accuracy_low x : 1 / 100000000 < x < 1 -> exists v, E1_approximation (T := R) x = Ok v /\
  Rabs (v - E1 x) <= 1 / 10000000000000000 * E1 x.
Proof.
  intros H. exists (lF x). split; [|apply low_ok; lra].
  rewrite E1_low by exact H. f_equal. unfold lF. rewrite za_p_eq, za_q_eq, !pev_scaled.
  destruct low_check as [_ [_ C3]]. assert (B := zpos_on_val _ _ _ _ x C3 ltac:(lra)).
  unfold rat. f_equal. field. repeat split; try exact unit29_nz; lra.
Qed.

Lemma one_lt_check : zpos_at 1 1 (zsub za_q za_p) = true.
Proof. vm_compute. reflexivity. Qed.
Lemma low_abs x : 0 < x <= 1 -> Rabs (lF x - E1 x) <= 5 / IZR e17.
Proof.
  intros H. destruct low_at_1 as [J _]. assert (K := mid_ok 1 ltac:(lra)). assert (S := low_seg x H).
  assert (O := zpos_at_val _ _ _ one_lt_check). replace (IZR 1 / IZR 1) with 1 in O by field. rewrite zev_sub in O.
  destruct low_check as [_ [_ C3]]. assert (B := zpos_on_val _ _ _ _ 1 C3 ltac:(lra)).
  assert (V : lF 1 < 1).
  { unfold lF, rat. rewrite ln_1. apply (Rmult_lt_reg_r (zev za_q 1)); [exact B|].
    replace ((- 0 + zev za_p 1 / zev za_q 1) * zev za_q 1) with (zev za_p 1) by (field; lra). lra. }
  assert (P := E1_pos 1 ltac:(lra)).
  apply Rabs_le_between in S. apply Rabs_le_between in J. apply Rabs_le_between in K.
  unfold e17, e18, e19 in *. apply Rabs_le. lra.
Qed.

(** ** The formulas with four entries changed *)
Lemma zb_p_ok_eq :
  replace (replace e1b_p 3 (nlit (T := R) 7633628843705946890896 100000000000000000000)) 7
    (nlit (T := R) 1107326627786831743809 100000000000000000000) = scaled zb_p_ok.
Proof. unfold replace, e1b_p, zb_p_ok. cbn [firstn skipn app]. tabs. Qed.
Lemma zc_q_ok_eq :
  replace (replace e1c_q 4 (nlit (T := R) 79231787945279043698718 1000000000000000000)) 8
    (nlit (T := R) 25989762083608489777411 100000000000000000) = scaled zc_q_ok.
Proof. unfold replace, e1c_q, zc_q_ok. cbn [firstn skipn app]. tabs. Qed.

Lemma changed_mid x : 1 <= x <= 4 -> exists nd,
  inv_frac (replace (replace e1b_p 3 (nlit (T := R) 7633628843705946890896 100000000000000000000)) 7
              (nlit (T := R) 1107326627786831743809 100000000000000000000)) e1b_q x 0 9 1 0 0 = Ok nd /\
  Rabs (exp (- x) * (fst nd / snd nd) - E1 x) <= 4 / 100000000000000000 * E1 x.
Proof.
  intros H. rewrite zb_p_ok_eq, zb_q_eq. assert (Hu := inv14 x H).
  exists (pev (scaled zb_p_ok) (/ x), pev (scaled zb_q) (/ x)). split.
  - apply (inv_frac_all (scaled zb_p_ok) (scaled zb_q)); [lra|reflexivity].
  - cbn [fst snd]. rewrite !pev_scaled. destruct mW_check as [_ [_ [C3 _]]].
    assert (B := zpos_on_val _ _ _ _ (/ x) C3 ltac:(lra)). assert (K := mid_ok x H). unfold mF, rat, e17 in K.
    replace (zev zb_p_ok (/ x) / IZR unit29 / (zev zb_q (/ x) / IZR unit29)) with (zev zb_p_ok (/ x) / zev zb_q (/ x)); [exact K|].
    field. repeat split; try exact unit29_nz; lra.
Qed.
Lemma changed_high x : 4 <= x -> exists nd,
  inv_frac e1c_p (replace (replace e1c_q 4 (nlit (T := R) 79231787945279043698718 1000000000000000000)) 8
              (nlit (T := R) 25989762083608489777411 100000000000000000)) x 0 10 1 0 0 = Ok nd /\
  Rabs (exp (- x) / x * (1 + 1 / x * fst nd / snd nd) - E1 x) <= 5 / 1000000000000000000 * E1 x.
Proof.
  intros H. rewrite zc_q_ok_eq, zc_p_eq. assert (Hu := inv4 x H).
  exists (pev (scaled zc_p) (/ x), pev (scaled zc_q_ok) (/ x)). split.
  - apply (inv_frac_all (scaled zc_p) (scaled zc_q_ok)); [lra|reflexivity].
  - cbn [fst snd]. rewrite !pev_scaled. destruct hW_check as [_ [_ [_ [_ [C5 _]]]]].
    assert (B := zpos_on_val _ _ _ _ (/ x) C5 ltac:(lra)). assert (K := high_ok x H). unfold e18 in K.
    unfold hA in K. rewrite rat_shift in K. unfold rat, hA1 in K. rewrite zev_add, zev_cons in K.
    replace (exp (- x) / x * (1 + 1 / x * (zev zc_p (/ x) / IZR unit29) / (zev zc_q_ok (/ x) / IZR unit29)))
      with (exp (- x) * (/ x * ((zev zc_q_ok (/ x) + (0 + / x * zev zc_p (/ x))) / zev zc_q_ok (/ x)))); [exact K|].
    field. repeat split; try exact unit29_nz; lra.
Qed.

Lemma accuracy_fails x : 1 <= x <= 10 -> forall v, E1_approximation (T := R) x = Ok v ->
  ~ Rabs (v - E1 x) <= 5 / 10000000000 * E1 x.
Proof.
  intros H v E K. apply Rabs_le_between in K. assert (P := E1_pos x ltac:(lra)).
  destruct (Rlt_le_dec x 4) as [L|L].
  - destruct (E1_accuracy_mid x ltac:(lra)) as [v' [E' B]]. rewrite E in E'. injection E' as <-. lra.
  - destruct (E1_accuracy_high x L) as [v' [E' [_ [B _]]]]. rewrite E in E'. injection E' as <-.
    specialize (B ltac:(lra)). lra.
Qed.
Lemma accuracy_fails_4 : exists x, 1 / 100000000 < x /\ forall v, E1_approximation (T := R) x = Ok v ->
  ~ Rabs (v - E1 x) <= 9 / 10000 * E1 x.
Proof.
  exists 4. split; [lra|]. intros v E K. apply Rabs_le_between in K. assert (P := E1_pos 4 ltac:(lra)).
  destruct (E1_accuracy_high 4 ltac:(lra)) as [v' [E' [_ [_ B]]]]. rewrite E in E'. injection E' as <-.
  specialize (B eq_refl). lra.
Qed.
