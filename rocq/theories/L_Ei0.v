(** Ei_approximation below 6. *)
From Coq Require Import ZArith Reals Lra Lia Bool List.
From Coquelicot Require Import Coquelicot.
From Verif Require Import Outcome Num NumFun M_Special S_Special L_Poly L_PolyWin L_Special L_Expint L_ExpTaylor L_E1Tab L_E1 L_EiTab L_EiVal S_Ei L_EiSpec.
Import ListNotations.
Open Scope R_scope.

Definition u29 : Z := 100000000000000000000000000000%Z.
Definition X0 : Z := 37250741078136663446199186658%Z.
(** The derivative of F(x) = ln(x/x0) + (x-x0) P/Q, times x: GN/GD at y = x/6. *)
Definition GN : list Z :=
  zadd (zscale u29 (zmul Q6 Q6)) (0%Z :: zadd (zscale (6 * u29) (zmul P6 Q6)) (zmul [- X0; 6 * u29]%Z (wron P6 Q6))).
Definition GD : list Z := zscale u29 (zmul Q6 Q6).
Definition up_fac : list Z := zsub (zscale e17 GN) (0%Z :: zscale 18 GD).
Definition lo_fac : list Z := zadd (zscale e17 GN) (0%Z :: zscale 18 GD).
(** e17 f G against the factors times the Taylor polynomials of e^-6y: the
    constants agree, and the rest is divided by y and rounded. *)
Definition n0 : Z := 290%Z. Definition m0 : Z := 96%Z.
Definition ei_up (G A T : list Z) (f : Z) : list Z :=
  zsub (zsub (zfloor (n0 + m0) (zscale (e17 * f) (tl G))) (zceil (n0 + m0) (zscale (hd 0%Z A) (tl T))))
       (zmul (zceil n0 (tl A)) (zceil m0 T)).
Definition ei_lo (G A T : list Z) (f : Z) : list Z :=
  zsub (zadd (zfloor (n0 + m0) (zscale (hd 0%Z A) (tl T))) (zmul (zfloor n0 (tl A)) (zfloor m0 T)))
       (zceil (n0 + m0) (zscale (e17 * f) (tl G))).
Definition win6 (c : list Z) : bool := zwins 120 100 0 1 [2; 3; 4; 5]%Z 5 c.
Lemma win6_val c y : 0 <= y <= 1 -> win6 c = true -> 0 < zev c y.
Proof. intros Hy H. apply (zwins_val _ _ _ _ _ _ _ y H). cbn [last]. lra. Qed.
Lemma hd_tl c y : zev c y = IZR (hd 0%Z c) + y * zev (tl c) y.
Proof. destruct c as [|h c]; cbn [hd tl zev]; ring. Qed.

Definition up_ok (G A T : list Z) (f : Z) : bool :=
  (0 <? hd 0 G)%Z && (hd 0 A =? e17 * hd 0 G)%Z && (hd 0 T =? f)%Z && win6 (ei_up G A T f) && win6 (zfloor n0 (tl A)).
Definition lo_ok (G A T : list Z) (f : Z) : bool :=
  (0 <? hd 0 G)%Z && (hd 0 A =? e17 * hd 0 G)%Z && (hd 0 T =? f)%Z && win6 (ei_lo G A T f) && win6 (zfloor n0 (tl A)) && win6 (zfloor m0 T).
Lemma e17_pos : 0 < IZR e17.
Proof. unfold e17. lra. Qed.
Lemma up_ok_val G A T f y : up_ok G A T f = true -> 0 < y <= 1 -> 0 <= zev T y ->
  0 < zev A y /\ zev A y * zev T y <= IZR e17 * IZR f * zev G y.
Proof.
  unfold up_ok. intros H Hy T0. repeat (apply andb_true_iff in H; let K := fresh "K" in destruct H as [H K]).
  apply Z.eqb_eq in K2, K1. apply Z.ltb_lt, IZR_lt in H. apply (win6_val _ y) in K, K0; [|lra..].
  unfold ei_up in K0. rewrite zev_sub, zev_sub, zev_mul in K0.
  assert (N0 : (0 <= n0)%Z) by discriminate. assert (M0 : (0 <= m0)%Z) by discriminate. assert (NM : (0 <= n0 + m0)%Z) by discriminate.
  destruct (zfloor_val (n0 + m0) (zscale (e17 * f) (tl G)) y NM ltac:(lra)) as [A1 _].
  destruct (zceil_val (n0 + m0) (zscale (hd 0%Z A) (tl T)) y NM ltac:(lra)) as [A2 _].
  assert (A3 := prod_up n0 m0 (tl A) T y N0 M0 ltac:(lra) K T0).
  destruct (zfloor_val n0 (tl A) y N0 ltac:(lra)) as [C1 _].
  assert (W := pow2_pos (n0 + m0) NM). assert (W0 := pow2_pos n0 N0).
  assert (Q1 : 0 < IZR (2 ^ n0) * zev (zfloor n0 (tl A)) y) by (apply Rmult_lt_0_compat; assumption).
  apply (Rmult_lt_compat_l _ _ _ W) in K0. rewrite zev_scale, mult_IZR in A1. rewrite zev_scale in A2.
  assert (T1 := hd_tl T y). rewrite K1 in T1. rewrite (hd_tl A), (hd_tl G). rewrite K2 in *. rewrite mult_IZR in *.
  assert (E17 := e17_pos).
  set (w := IZR (2 ^ (n0 + m0))) in *. set (w0 := IZR (2 ^ n0)) in *. set (d := IZR e17) in *.
  set (cu := zev (tl A) y) in *. set (g := zev (tl G) y) in *. set (g0 := IZR (hd 0%Z G)) in *.
  set (s1 := zev (tl T) y) in *. set (t1 := zev T y) in *. set (f1 := IZR f) in *.
  assert (DG : 0 < d * g0) by (apply Rmult_lt_0_compat; assumption).
  assert (X1 : 0 <= d * f1 * g - d * g0 * s1 - cu * t1) by lra.
  split.
  - assert (0 < y * cu) by (apply Rmult_lt_0_compat; lra). lra.
  - apply (Rmult_le_compat_l y) in X1; [|lra].
    replace ((d * g0 + y * cu) * t1) with (d * g0 * t1 + y * (cu * t1)) by ring. rewrite T1 at 1. lra.
Qed.
Lemma lo_ok_val G A T f y : lo_ok G A T f = true -> 0 < y <= 1 ->
  0 < zev A y /\ IZR e17 * IZR f * zev G y <= zev A y * zev T y.
Proof.
  unfold lo_ok. intros H Hy. repeat (apply andb_true_iff in H; let K := fresh "K" in destruct H as [H K]).
  apply Z.eqb_eq in K3, K2. apply Z.ltb_lt, IZR_lt in H. apply (win6_val _ y) in K, K0, K1; [|lra..].
  unfold ei_lo in K1. rewrite zev_sub, zev_add, zev_mul in K1.
  assert (N0 : (0 <= n0)%Z) by discriminate. assert (M0 : (0 <= m0)%Z) by discriminate. assert (NM : (0 <= n0 + m0)%Z) by discriminate.
  destruct (zfloor_val (n0 + m0) (zscale (hd 0%Z A) (tl T)) y NM ltac:(lra)) as [A1 _].
  destruct (zceil_val (n0 + m0) (zscale (e17 * f) (tl G)) y NM ltac:(lra)) as [A2 _].
  assert (A3 := prod_lo n0 m0 (tl A) T y N0 M0 ltac:(lra) K0 K).
  destruct (zfloor_val n0 (tl A) y N0 ltac:(lra)) as [C1 _].
  assert (W := pow2_pos (n0 + m0) NM). assert (W0 := pow2_pos n0 N0).
  assert (Q1 : 0 < IZR (2 ^ n0) * zev (zfloor n0 (tl A)) y) by (apply Rmult_lt_0_compat; assumption).
  apply (Rmult_lt_compat_l _ _ _ W) in K1. rewrite zev_scale, mult_IZR in A2. rewrite zev_scale in A1.
  assert (T1 := hd_tl T y). rewrite K2 in T1. rewrite (hd_tl A), (hd_tl G). rewrite K3 in *. rewrite mult_IZR in *.
  assert (E17 := e17_pos).
  set (w := IZR (2 ^ (n0 + m0))) in *. set (w0 := IZR (2 ^ n0)) in *. set (d := IZR e17) in *.
  set (cu := zev (tl A) y) in *. set (g := zev (tl G) y) in *. set (g0 := IZR (hd 0%Z G)) in *.
  set (s1 := zev (tl T) y) in *. set (t1 := zev T y) in *. set (f1 := IZR f) in *.
  assert (DG : 0 < d * g0) by (apply Rmult_lt_0_compat; assumption).
  assert (X1 : 0 <= d * g0 * s1 + cu * t1 - d * f1 * g) by lra.
  split.
  - assert (0 < y * cu) by (apply Rmult_lt_0_compat; lra). lra.
  - apply (Rmult_le_compat_l y) in X1; [|lra].
    replace ((d * g0 + y * cu) * t1) with (d * g0 * t1 + y * (cu * t1)) by ring. rewrite T1 at 1. lra.
Qed.
Definition tay_up : list Z := zdil 6 (etab 46). Definition tay_lo : list Z := zdil 6 (etab 47).
Lemma ei_check : up_ok GD up_fac tay_up (efac 46) = true /\ lo_ok GD lo_fac tay_lo (efac 47) = true.
Proof. vm_compute. split; reflexivity. Qed.

Definition F6 (x : R) : R := ln (x / x0) + (x - x0) * (zev P6 (x / 6) / zev Q6 (x / 6)).
Lemma GN_val y : zev GN y = IZR u29 * (zev Q6 y ^ 2 + y * (6 * (zev P6 y * zev Q6 y) + (6 * y - x0) * zev (wron P6 Q6) y)).
Proof.
  unfold GN. rewrite zev_add, zev_cons, zev_add, !zev_scale, !zev_mul, mult_IZR.
  replace (zev [- X0; 6 * u29]%Z y) with (IZR u29 * (6 * y - x0)); [ring|].
  rewrite x0_val. cbn [zev]. rewrite opp_IZR, mult_IZR. unfold X0, u29. field.
Qed.
Lemma GD_val y : zev GD y = IZR u29 * zev Q6 y ^ 2.
Proof. unfold GD. rewrite zev_scale, zev_mul. ring. Qed.

Lemma F6_derive t : 0 < t <= 6 -> is_derive F6 t (zev GN (t / 6) / zev GD (t / 6) / t).
Proof.
  intros Ht. assert (Qn := Q6_neg (t / 6) ltac:(lra)). assert (X := x0_pos).
  assert (D := rat_derive P6 Q6 (t / 6) ltac:(lra)).
  assert (D6 : is_derive (fun x => rat P6 Q6 (x / 6)) t (/ 6 * (zev (wron P6 Q6) (t / 6) / zev Q6 (t / 6) ^ 2))).
  { apply (is_derive_comp (rat P6 Q6) (fun x => x / 6)); [exact D|]. auto_derive; [exact I|field]. }
  set (h := fun x => rat P6 Q6 (x / 6)) in *.
  apply (is_derive_ext (fun x => ln (x / x0) + (x - x0) * h x)); [reflexivity|].
  evar_last.
  { auto_derive.
    - split; [apply Rmult_lt_0_compat; [lra|apply Rinv_0_lt_compat, X]|]. split; [eexists; exact D6|exact I].
    - replace (Derive (fun x => h x) t) with (/ 6 * (zev (wron P6 Q6) (t / 6) / zev Q6 (t / 6) ^ 2))
        by (symmetry; apply is_derive_unique; exact D6). reflexivity. }
  unfold h, rat. rewrite GN_val, GD_val. assert (U : IZR u29 <> 0) by (apply not_0_IZR; discriminate).
  set (q := zev Q6 (t / 6)) in *. set (p := zev P6 (t / 6)). set (w := zev (wron P6 Q6) (t / 6)). clearbody q p w.
  field. repeat split; lra.
Qed.

Lemma F6_near t : 0 < t <= 6 -> exists d, Rabs (d - gk t) <= 3 / IZR e17 /\ is_derive F6 t d.
Proof.
  intros Ht. eexists. split; [|apply F6_derive, Ht].
  assert (Qn := Q6_neg (t / 6) ltac:(lra)).
  assert (E1' := etay_sign 46 t ltac:(lra)). assert (E2 := etay_sign 47 t ltac:(lra)). cbn [Nat.even] in E1', E2. unfold etay in E1', E2.
  assert (F1 := IZR_lt _ _ (efac_pos 46)). assert (F2 := IZR_lt _ _ (efac_pos 47)).
  assert (V1 : zev tay_up (t / 6) = zev (etab 46) t) by (unfold tay_up; rewrite zdil_val; f_equal; field).
  assert (V2 : zev tay_lo (t / 6) = zev (etab 47) t) by (unfold tay_lo; rewrite zdil_val; f_equal; field).
  destruct ei_check as [CU CL]. destruct (lo_ok_val _ _ _ _ (t / 6) CL ltac:(lra)) as [PL L].
  destruct (up_ok_val _ _ _ _ (t / 6) CU ltac:(lra)) as [PU U]; clear CU CL.
  { rewrite V1. assert (P := exp_pos (- t)). apply (Rmult_le_reg_r (/ IZR (efac 46))); [apply Rinv_0_lt_compat, F1|]. unfold Rdiv in E1'. lra. }
  rewrite V1 in U. rewrite V2 in L. clear V1 V2.
  set (f1 := IZR (efac 46)) in *. set (f2 := IZR (efac 47)) in *. set (t1 := zev (etab 46) t) in *. set (t2 := zev (etab 47) t) in *.
  clearbody f1 f2 t1 t2.
  unfold up_fac in *. unfold lo_fac in *. rewrite zev_sub, zev_cons, !zev_scale in PU, U. rewrite zev_add, zev_cons, !zev_scale in PL, L.
  assert (GP : 0 < zev GD (t / 6)).
  { rewrite GD_val. apply Rmult_lt_0_compat; [unfold u29; lra|]. rewrite <- Rsqr_pow2. apply Rlt_0_sqr. lra. }
  set (n := zev GN (t / 6)) in *. set (d := zev GD (t / 6)) in *. clearbody n d. unfold e17 in *. cbn [IZR] in *.
  set (D := 100000000000000000) in *. assert (HD : 0 < D) by (unfold D; lra). clearbody D.
  assert (EP := exp_pos (- t)). assert (EP' := exp_pos t). assert (EE : exp (- t) * exp t = 1) by (rewrite <- exp_plus, Rplus_opp_l; apply exp_0).
  set (e := exp (- t)) in *. set (g := exp t) in *. unfold gk. fold g. clearbody e g.
  replace (n / d / t - g / t) with ((n / d - g) / t) by (field; lra).
  (* upper: (n/d - 3t/D) e <= 1 *)
  assert (X1 : (D * n - 3 * t * d) * e <= D * d).
  { apply Rle_trans with ((D * n - 3 * t * d) * (t1 / f1)); [apply Rmult_le_compat_l; lra|].
    apply (Rmult_le_reg_r f1); [exact F1|]. replace ((D * n - 3 * t * d) * (t1 / f1) * f1) with ((D * n - 3 * t * d) * t1) by (field; lra). lra. }
  assert (X2 : D * d <= (D * n + 3 * t * d) * e).
  { apply Rle_trans with ((D * n + 3 * t * d) * (t2 / f2)); [|apply Rmult_le_compat_l; lra].
    apply (Rmult_le_reg_r f2); [exact F2|]. replace ((D * n + 3 * t * d) * (t2 / f2) * f2) with ((D * n + 3 * t * d) * t2) by (field; lra). lra. }
  apply (Rmult_le_compat_r g) in X1; [|lra]. apply (Rmult_le_compat_r g) in X2; [|lra].
  rewrite Rmult_assoc, EE, Rmult_1_r in X1. rewrite Rmult_assoc, (Rmult_assoc (D * n + 3 * t * d)), EE, Rmult_1_r in X2.
  unfold Rdiv at 1. rewrite Rabs_mult, (Rabs_right (/ t)) by (left; apply Rinv_0_lt_compat; lra).
  apply (Rmult_le_reg_r t); [lra|]. rewrite Rmult_assoc, Rinv_l, Rmult_1_r by lra.
  apply Rabs_le. split.
  - apply (Rmult_le_reg_r (D * d)); [apply Rmult_lt_0_compat; assumption|].
    replace (- (3 / D * t) * (D * d)) with (- (3 * t * d)) by (field; lra).
    replace ((n / d - g) * (D * d)) with (D * n - D * (d * g)) by (field; lra). lra.
  - apply (Rmult_le_reg_r (D * d)); [apply Rmult_lt_0_compat; assumption|].
    replace (3 / D * t * (D * d)) with (3 * t * d) by (field; lra).
    replace ((n / d - g) * (D * d)) with (D * n - D * d * g) by (field; lra). lra.
Qed.
