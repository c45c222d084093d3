(** A concrete case of the accuracy in double on a grid: x*y on a 3 x 2 grid. *)
From Coq Require Import List Arith ZArith Reals Bool Lia Lra.
From Coquelicot Require Import Coquelicot.
From Flocq Require Import Core.Core IEEE754.BinarySingleNaN.
From Verif Require Import Outcome Num NumFun F64 S_Interp1d M_Grid S_Grid L_Grid L_GridSimplex L_GridExamples S_Integ S_Err S_GShape L_Err
  L_F64 L_Linspace64 L_F64Err S_Angles S_Double S_Grid64 L_Series64 L_Interp64 L_Special64 L_Grid64 L_Apx L_Arange64 L_Ser64 S_Simplex64 L_Simplex64 L_GShape L_GShape2 L_GShape3 L_GShape4 S_GErr64 L_GErr64.
Import ListNotations.
Local Open Scope R_scope.

Definition exg64 : list (list f64) := [map f64_ofZ [0; 1; 3]%Z; map f64_ofZ [0; 2]%Z].
Definition exd64 : list f64 := map f64_ofZ [0; 0; 0; 2; 0; 6]%Z.
Definition exp64 : list f64 := map f64_ofZ [2; 1]%Z.
Lemma exg64_real : map dvalues exg64 = exg.
Proof. unfold exg64, exg, dvalues. cbn [map]. vz. reflexivity. Qed.
Lemma exd64_real : dvalues exd64 = exxy.
Proof. unfold exd64, exxy, dvalues. cbn [map]. vz. reflexivity. Qed.
Lemma exp64_real : map2 saturated exg64 exp64 = [2; 1].
Proof.
  assert (S1 : saturated (map f64_ofZ [0; 1; 3]%Z) (f64_ofZ 2) = 2).
  { change (clamp (dvalue (f64_ofZ 0)) (dvalue (f64_ofZ 3)) (dvalue (f64_ofZ 2)) = 2). vz. unfold clamp. unfold Rmin, Rmax. repeat destruct Rle_dec; lra. }
  assert (S2 : saturated (map f64_ofZ [0; 2]%Z) (f64_ofZ 1) = 1).
  { change (clamp (dvalue (f64_ofZ 0)) (dvalue (f64_ofZ 2)) (dvalue (f64_ofZ 1)) = 1). vz. unfold clamp. unfold Rmin, Rmax. repeat destruct Rle_dec; lra. }
  unfold exg64, exp64. cbn [map map2] in *. rewrite S1, S2. reflexivity.
Qed.
Lemma exg64_good : good_axes64 exg64.
Proof.
  assert (G := exg_good). rewrite <- exg64_real in G. unfold exg64 in *. inversion G as [|? ? G1 G2]; subst. inversion G2 as [|? ? G3 G4]; subst.
  constructor; [|constructor; [|constructor]]; (split; [repeat constructor; apply fin_ofZ; reflexivity|assumption]).
Qed.
Lemma exg64_moderate : moderate_axes exg64.
Proof.
  assert (DM : 1000 <= dmax).
  { rewrite dmax_fmax. assert (A := big1003). assert (P9 := bpow_gt_0 radix2 969). assert (1000 <= bpow radix2 1000); [|lra]. apply Rle_trans with (bpow radix2 10); [simpl; lra|apply bpow_le; lia]. }
  constructor; [|constructor; [|constructor]]; cbn [map length Nat.sub nth dvalues]; vz; lra.
Qed.
Lemma exd64_finite : all_finite exd64.
Proof. repeat constructor; apply fin_ofZ; reflexivity. Qed.
Lemma exd64_magnitude : magnitude_le 6 exd64.
Proof. unfold magnitude_le, exd64. cbn [map]. repeat (constructor; [vz; rewrite Rabs_pos_eq by lra; lra|]). constructor. Qed.
Lemma six : 6 <= 2 ^ 1000.
Proof. apply Rle_trans with (2 ^ 3); [simpl; lra|]. apply Rle_pow; [lra|lia]. Qed.
Lemma exd64_near : near_table 0 exg64 exd64 pxy.
Proof.
  intros idx Hi. rewrite exd64_real, <- (lengths_dvalues exg64), exg64_real in *. rewrite (exxy_samples idx Hi), Rminus_diag_eq, Rabs_R0 by reflexivity. lra.
Qed.
Lemma small_err : 2 * (16 * u53 * 6 + 2 * eta64) <= / 1000000000000.
Proof.
  assert (TE : eta64 <= u53).
  { unfold eta64. apply Rle_trans with (bpow radix2 (-1074)); [assert (0 < bpow radix2 (-1074)) by apply bpow_gt_0; lra|]. replace u53 with (bpow radix2 (-53)) by (unfold u53; rewrite bpow_powerRZ; simpl; reflexivity). apply bpow_le. discriminate. }
  assert (U : u53 <= / 8000000000000000) by (unfold u53; simpl; lra). lra.
Qed.
Lemma ex_simplex64 : exists v, interp_simplex Debug exg64 exd64 exp64 isort64 = Ok v /\ is_finite v = true /\ Rabs (dvalue v - 2) <= 1 + / 1000000000000.
Proof.
  destruct (simplex_double_error Debug exg64 exd64 exp64 isort64 pxy [1; 1] [2; 2] 6 0 exg64_good ltac:(simpl; lia) exg64_moderate eq_refl eq_refl exd64_finite exd64_magnitude six isort64_sorts exd64_near eq_refl) as (v & E & Fv & B).
  - rewrite exg64_real. exact exg_spacings.
  - repeat (constructor; [lra|]). constructor.
  - repeat (constructor; [lra|]). constructor.
  - rewrite exg64_real, exp64_real. apply (smooth_osculates _ _ [1; 2]); [reflexivity|reflexivity|exact exxy_smooth].
  - exists v. split; [exact E|]. split; [exact Fv|]. rewrite exp64_real, uround_u53, uflow_eta in B. unfold pxy, total, sum in B. cbn [nth map2 fold_right length exg64] in B. change (INR 2) with 2 in B.
    assert (X := small_err). replace (2 * 1) with 2 in B by ring. lra.
Qed.
Lemma exxy_curved : along_axes curved exg [0; 0] pxy.
Proof.
  apply (along2_axes curved [0; 1; 3] [0; 2] (fun x y => x * y)). split; intros c _.
  - exists (fun _ => c), (fun _ => 0). split; [|split]; intros x _; [apply is_derive_Reals; auto_derive; [exact I|ring]|apply derivable_pt_lim_const|rewrite Rabs_R0; lra].
  - exists (fun _ => c), (fun _ => 0). split; [|split]; intros x _; [apply is_derive_Reals; auto_derive; [exact I|ring]|apply derivable_pt_lim_const|rewrite Rabs_R0; lra].
Qed.
Lemma ex_grid64 : exists o v, rgi_make exg64 (mkND [3; 2]%nat exd64) = Ok o /\ rgi_interp Debug o exp64 false = Ok v /\ is_finite v = true /\ Rabs (dvalue v - 2) <= / 1000000000000.
Proof.
  destruct (grid_double_error Debug exg64 (mkND [3; 2]%nat exd64) pxy [0; 0] [2; 2] 6 0 exg64_good ltac:(simpl; lia) exg64_moderate eq_refl exd64_finite exd64_magnitude six exd64_near eq_refl) as (o & Eo & H).
  - rewrite exg64_real. exact exg_spacings.
  - rewrite exg64_real. exact exxy_curved.
  - destruct (H exp64 eq_refl) as (v & E & Fv & B). exists o, v. split; [exact Eo|]. split; [exact E|]. split; [exact Fv|].
    rewrite exp64_real, uround_u53, uflow_eta in B. unfold pxy, total, sum in B. cbn [nth map2 fold_right length exg64] in B. change (INR 2) with 2 in B.
    assert (X := small_err). assert (0 <= u53) by (unfold u53; simpl; lra). replace (2 * 1) with 2 in B by ring. lra.
Qed.
