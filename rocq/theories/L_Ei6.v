(** Ei_approximation below 6: the constant, and the error. *)
From Coq Require Import ZArith Reals Lra Lia Bool List.
From Coquelicot Require Import Coquelicot.
From Verif Require Import Outcome Num NumFun M_Special S_Special L_Poly L_PolyWin L_Special L_Expint L_ExpTaylor L_E1Tab L_E1 L_EiTab L_EiVal S_Ei L_EiSpec L_Ei0.
Import ListNotations.
Open Scope R_scope.

(** Rational bounds of logarithms: -p/q and ln(a/b). *)
Lemma ln_lt_rat n p q a b : Nat.even n = false -> (0 < a)%Z -> (0 < b)%Z -> (0 <= p)%Z -> (0 < q)%Z ->
  zpos_at p q (zsub (zscale b (etab n)) [a * efac n]%Z) = true -> ln (IZR a / IZR b) < - (IZR p / IZR q).
Proof.
  intros En Ha Hb Hp Hq H. apply zpos_at_val in H. rewrite zev_sub, zev_scale in H. cbn [zev] in H. rewrite mult_IZR in H.
  apply IZR_lt in Ha, Hb, Hq. apply IZR_le in Hp. assert (F := IZR_lt _ _ (efac_pos n)).
  assert (X : 0 <= IZR p / IZR q) by (apply Rmult_le_pos; [exact Hp|left; apply Rinv_0_lt_compat, Hq]).
  assert (S := etay_sign n (IZR p / IZR q) X). rewrite En in S. unfold etay in S.
  set (x := IZR p / IZR q) in *. set (t := zev (etab n) x) in *. set (f := IZR (efac n)) in *. clearbody x t f.
  rewrite <- (ln_exp (- x)). apply ln_increasing; [apply Rmult_lt_0_compat; [exact Ha|apply Rinv_0_lt_compat, Hb]|].
  apply Rlt_le_trans with (2 := S). apply (Rmult_lt_reg_r (IZR b * f)); [apply Rmult_lt_0_compat; assumption|].
  replace (IZR a / IZR b * (IZR b * f)) with (IZR a * f) by (field; lra).
  replace (t / f * (IZR b * f)) with (IZR b * t) by (field; lra). lra.
Qed.
Lemma ln_gt_rat n p q a b : Nat.even n = true -> (0 < a)%Z -> (0 < b)%Z -> (0 <= p)%Z -> (0 < q)%Z ->
  zpos_at p q (zsub [a * efac n]%Z (zscale b (etab n))) = true -> - (IZR p / IZR q) < ln (IZR a / IZR b).
Proof.
  intros En Ha Hb Hp Hq H. apply zpos_at_val in H. rewrite zev_sub, zev_scale in H. cbn [zev] in H. rewrite mult_IZR in H.
  apply IZR_lt in Ha, Hb, Hq. apply IZR_le in Hp. assert (F := IZR_lt _ _ (efac_pos n)).
  assert (X : 0 <= IZR p / IZR q) by (apply Rmult_le_pos; [exact Hp|left; apply Rinv_0_lt_compat, Hq]).
  assert (S := etay_sign n (IZR p / IZR q) X). rewrite En in S. unfold etay in S.
  set (x := IZR p / IZR q) in *. set (t := zev (etab n) x) in *. set (f := IZR (efac n)) in *. clearbody x t f.
  rewrite <- (ln_exp (- x)). apply ln_increasing; [apply exp_pos|].
  apply Rle_lt_trans with (1 := S). apply (Rmult_lt_reg_r (IZR b * f)); [apply Rmult_lt_0_compat; assumption|].
  replace (IZR a / IZR b * (IZR b * f)) with (IZR a * f) by (field; lra).
  replace (t / f * (IZR b * f)) with (IZR b * t) by (field; lra). lra.
Qed.

Definition e20 : Z := 100000000000000000000%Z.
Lemma ln_x0_check : zpos_at 98749834664534185184 e20 (zsub (zscale u29 (etab 23)) [X0 * efac 23]%Z) = true /\
  zpos_at 98749834664534185185 e20 (zsub [X0 * efac 22]%Z (zscale u29 (etab 22))) = true.
Proof. vm_compute. split; reflexivity. Qed.
Lemma ln_x0 : - (98749834664534185185 / 100000000000000000000) < ln x0 < - (98749834664534185184 / 100000000000000000000).
Proof.
  destruct ln_x0_check as [H1 H2].
  assert (A := ln_gt_rat 22 98749834664534185185 e20 X0 u29 eq_refl ltac:(reflexivity) ltac:(reflexivity) ltac:(discriminate) ltac:(reflexivity) H2).
  assert (B := ln_lt_rat 23 98749834664534185184 e20 X0 u29 eq_refl ltac:(reflexivity) ltac:(reflexivity) ltac:(discriminate) ltac:(reflexivity) H1).
  split; [exact A|exact B].
Qed.

(** rat(0) - x0 P(0)/Q(0) against the same number. *)
Definition nQ : list Z := zscale (-1) Q6.
Definition base_n : list Z :=
  zadd (zadd (zscale (u29 * e20) (zmul za_p nQ)) (zscale (X0 * e20) (zmul P6 za_q)))
       (zscale (u29 * 98749834664534185184) (zmul za_q nQ)).
Definition base_d : list Z := zscale u29 (zmul za_q nQ).
Lemma base_check : zpos_at 0 1 (zsub (zscale 4 base_d) base_n) = true /\ zpos_at 0 1 (zadd (zscale 4 base_d) base_n) = true /\ zpos_at 0 1 za_q = true.
Proof. vm_compute. repeat split. Qed.

Definition phi (y : R) : R := rat za_p za_q y + (y - x0) * rat P6 Q6 (y / 6).
Lemma phi_0 : Rabs (phi 0 - ln x0) <= 1 / 1000000000000000000.
Proof.
  destruct base_check as [B1 [B2 B3]]. apply zpos_at_val in B1, B2, B3. replace (IZR 0 / IZR 1) with 0 in * by field.
  assert (Qn := Q6_neg 0 ltac:(lra)). assert (L := ln_x0).
  unfold base_d, base_n, nQ in B1, B2.
  repeat first [rewrite zev_sub in B1|rewrite zev_add in B1|rewrite zev_scale in B1|rewrite zev_mul in B1|rewrite mult_IZR in B1].
  repeat first [rewrite zev_sub in B2|rewrite zev_add in B2|rewrite zev_scale in B2|rewrite zev_mul in B2|rewrite mult_IZR in B2].
  unfold phi, rat. replace (0 / 6) with 0 by field.
  assert (X : x0 = IZR X0 / IZR u29) by reflexivity. rewrite X at 1.
  assert (U : 0 < IZR u29) by (unfold u29; lra). assert (E : IZR e20 = 100000000000000000000) by reflexivity. 
  set (a := zev za_p 0) in *. set (b := zev za_q 0) in *. set (p := zev P6 0) in *. set (q := zev Q6 0) in *.
  set (u := IZR u29) in *. set (v := IZR X0) in *. set (n := IZR e20) in *. set (m := 98749834664534185184) in *.
  assert (M : m = 98749834664534185184) by reflexivity.
  assert (N : 0 < n) by lra. clearbody a b p q u v n m.
  assert (K : Rabs (a / b + (0 - v / u) * (p / q) + m / n) <= 4 / n).
  { assert (DP : 0 < u * b * (- q) * n) by (repeat apply Rmult_lt_0_compat; lra).
    apply Rabs_le. split; apply (Rmult_le_reg_r (u * b * (- q) * n)); try exact DP.
    - replace ((a / b + (0 - v / u) * (p / q) + m / n) * (u * b * - q * n)) with (u * n * a * (- q) + v * n * p * b + u * m * b * (- q)) by (field; lra).
      replace (- (4 / n) * (u * b * - q * n)) with (- (4 * (u * (b * - q)))) by (field; lra). lra.
    - replace ((a / b + (0 - v / u) * (p / q) + m / n) * (u * b * - q * n)) with (u * n * a * (- q) + v * n * p * b + u * m * b * (- q)) by (field; lra).
      replace (4 / n * (u * b * - q * n)) with (4 * (u * (b * - q))) by (field; lra). lra. }
  rewrite M in *. rewrite E in K. apply Rabs_le_between in K. apply Rabs_le. lra.
Qed.

Lemma F6_error x : 0 < x <= 6 -> Rabs (F6 x - EI x) <= 3 / 10000000000000000.
Proof.
  intros Hx.
  assert (CP : continuity_pt phi 0).
  { destruct low_check as [_ [_ C3]]. assert (B := zpos_on_val _ _ _ _ 0 C3 ltac:(lra)). assert (Qn := Q6_neg (0 / 6) ltac:(lra)).
    unfold phi. apply continuity_pt_plus.
    - apply derivable_continuous_pt. eexists. apply is_derive_Reals, rat_derive. lra.
    - apply continuity_pt_mult; [apply continuity_pt_minus; [apply continuity_pt_id|apply continuity_pt_const; intros ? ?; reflexivity]|].
      apply (continuity_pt_comp (fun y => y / 6) (rat P6 Q6)).
      + apply derivable_continuous_pt. exists (/ 6). apply is_derive_Reals. auto_derive; [exact I|field].
      + apply derivable_continuous_pt. eexists. apply is_derive_Reals, rat_derive. lra. }
  assert (CE : continuity_pt (fun y => 2 * y * exp y) 0).
  { apply derivable_continuous_pt. exists (2 * exp 0 + 2 * 0 * exp 0). apply is_derive_Reals. auto_derive; [exact I|ring]. }
  set (e := 1 / 1000000000000000000). assert (He : 0 < e) by (unfold e; lra).
  destruct (proj1 (continuity_pt_locally _ _) CP (mkposreal e He)) as [d1 H1].
  destruct (proj1 (continuity_pt_locally _ _) CE (mkposreal e He)) as [d2 H2]. cbn [pos] in H1, H2.
  set (y := Rmin (Rmin (d1 / 2) (d2 / 2)) (Rmin (x / 2) 1)).
  assert (Y : 0 < y /\ y < d1 /\ y < d2 /\ y < x /\ y <= 1).
  { assert (P1 := cond_pos d1). assert (P2 := cond_pos d2). unfold y.
    assert (A1 := Rmin_l (Rmin (d1 / 2) (d2 / 2)) (Rmin (x / 2) 1)). assert (A2 := Rmin_r (Rmin (d1 / 2) (d2 / 2)) (Rmin (x / 2) 1)).
    assert (A3 := Rmin_l (d1 / 2) (d2 / 2)). assert (A4 := Rmin_r (d1 / 2) (d2 / 2)).
    assert (A5 := Rmin_l (x / 2) 1). assert (A6 := Rmin_r (x / 2) 1).
    assert (0 < Rmin (Rmin (d1 / 2) (d2 / 2)) (Rmin (x / 2) 1)) by (repeat apply Rmin_glb_lt; lra).
    repeat split; lra. }
  destruct Y as [Y0 [Y1 [Y2 [Y3 Y4]]]]. clearbody y.
  assert (BB : forall d : posreal, y < d -> ball 0 d y).
  { intros d Hd. unfold ball; cbn. unfold AbsRing_ball, abs, minus, plus, opp; cbn. rewrite Ropp_0, Rplus_0_r, Rabs_right; lra. }
  specialize (H1 y (BB d1 Y1)). specialize (H2 y (BB d2 Y2)).
  assert (S := ei_segment_abs F6 (3 / IZR e17) y x Y0 ltac:(lra) ltac:(intros t Ht; apply F6_near; lra)).
  assert (RG := EI_range y Y0). assert (LA := low_abs y ltac:(lra)). assert (P0 := phi_0).
  assert (FE : F6 y = ln y - ln x0 + (y - x0) * rat P6 Q6 (y / 6)).
  { unfold F6. rewrite ln_div by (try exact Y0; exact x0_pos). reflexivity. }
  unfold lF in LA. unfold phi in *. unfold e17 in *.
  assert (X3 : 3 / 100000000000000000 * (x - y) <= 3 / 100000000000000000 * 6) by (apply Rmult_le_compat_l; lra).
  replace (2 * 0 * exp 0) with 0 in H2 by ring.
  apply Rabs_le_between in S. apply Rabs_le_between in LA. apply Rabs_le_between in P0. apply Rabs_lt_between in H1. apply Rabs_lt_between in H2.
  rewrite FE in S. unfold e in *.
  set (r := rat za_p za_q y) in *. set (r0 := rat za_p za_q 0) in *. set (h := (y - x0) * rat P6 Q6 (y / 6)) in *. set (h0 := (0 - x0) * rat P6 Q6 (0 / 6)) in *.
  clearbody r r0 h h0. apply Rabs_le. lra.
Qed.
