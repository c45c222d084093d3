(** Concrete tables for [L_LutErr]. *)
From Coq Require Import List Arith ZArith Reals Lra Lia Bool.
From Coq Require String.
From Coquelicot Require Import Coquelicot.
From Flocq Require Import Core.Core IEEE754.BinarySingleNaN.
From Verif Require Import Outcome Num NumFun StdAlgo F64 M_Interp1d M_Interp2d M_Lookup S_Interp1d S_Interp2d S_Lookup S_Grid S_Integ S_Angles S_Double S_Err
  L_F64 L_Linspace64 L_Series64 L_GridExamples L_Grid64 L_Ser64 L_Arange64 L_GShape4 L_GErr64b L_LutErr.
Import ListNotations.
Import String.StringSyntax.
Local Open Scope R_scope.
Local Open Scope string_scope.

Definition sq_ops : list (op1 R R) := [SetX1 [0; 1; 3]; AddY1 "square" (map (fun x => x * x) [0; 1; 3])].
Lemma ex_table1 : exists t v, lut1_run Release (lut1_new LINEAR) sq_ops = Ok t /\ lut1_eval t "square" 2 = Ok v /\ Rabs (v - 4) <= 1.
Proof.
  assert (E : exists t, lut1_run Release (lut1_new LINEAR) sq_ops = Ok t) by (eexists; reflexivity). destruct E as (t & E).
  destruct (table1_error Release LINEAR sq_ops t "square" [0; 1; 3] (fun x => x * x) (fun x => 2 * x) (fun _ => 2) 2 2 2) as (v & A & B).
  - exact E.
  - reflexivity.
  - left. reflexivity.
  - exact (proj1 (List.Forall_inv exg_good)).
  - simpl. lia.
  - intros [|[|i]] Hi; simpl in *; try lia; lra.
  - split; [|split]; intros x _; [apply is_derive_Reals; auto_derive; [exact I|ring]|apply is_derive_Reals; auto_derive; [exact I|ring]|rewrite Rabs_pos_eq; lra].
  - unfold first, final. simpl. lra.
  - exists t, v. split; [exact E|]. split; [exact A|]. replace (2 * 2) with 4 in B by ring. lra.
Qed.

Definition xy_ops : list (op2 f64) := [SetX2 (map f64_ofZ [0; 1; 3]%Z); SetY2 (map f64_ofZ [0; 2]%Z); AddData2 "xy" exd64].
Lemma ex_table2 : exists t v, lut2_run Release lut2_new xy_ops = Ok t /\ lut2_eval Release t "xy" (f64_ofZ 2) (f64_ofZ 1) = Ok v /\ Rabs (dvalue v - 2) <= / 1000000000000.
Proof.
  assert (E : exists t, lut2_run Release lut2_new xy_ops = Ok t) by (eexists; reflexivity). destruct E as (t & E).
  assert (Ex : dvalues (map f64_ofZ [0; 1; 3]%Z) = [0; 1; 3]) by (unfold dvalues; cbn [map]; vz; reflexivity).
  assert (Ey : dvalues (map f64_ofZ [0; 2]%Z) = [0; 2]) by (unfold dvalues; cbn [map]; vz; reflexivity).
  assert (V2 : dvalue (f64_ofZ 2) = 2) by (vz; reflexivity). assert (V1 : dvalue (f64_ofZ 1) = 1) by (vz; reflexivity).
  assert (P1 : forall n, (2 <= n)%nat -> 3 <= 2 ^ n) by (intros n Hn; apply Rle_trans with (2 ^ 2); [simpl; lra|apply Rle_pow; [lra|lia]]).
  assert (P100 := P1 100%nat ltac:(lia)). assert (P4 := P1 400%nat ltac:(lia)).
  assert (P8 : 8 <= 2 ^ 400) by (apply Rle_trans with (2 ^ 3); [simpl; lra|apply Rle_pow; [lra|lia]]).
  assert (I100 : / 2 ^ 100 <= 1) by (rewrite <- Rinv_1; apply Rinv_le_contravar; lra).
  assert (I200 : / 2 ^ 200 <= / 10000000000000).
  { apply Rinv_le_contravar; [lra|]. apply Rle_trans with (2 ^ 50); [simpl; lra|apply Rle_pow; [lra|lia]]. }
  assert (X3 : Rmax (Rabs 1) (Rabs 3) = 3) by (rewrite !Rabs_pos_eq by lra; apply Rmax_right; lra).
  assert (X2 : Rmax (Rabs 0) (Rabs 2) = 2) by (rewrite !Rabs_pos_eq by lra; apply Rmax_right; lra).
  destruct (table2_double_error Release xy_ops t "xy" (map f64_ofZ [0; 1; 3]%Z) (map f64_ofZ [0; 2]%Z) exd64 (f64_ofZ 2) (f64_ofZ 1) 1 0 (fun x y => x * y) 0 0 0 E eq_refl) as (v & A & Fv & B);
    rewrite ?Ex, ?Ey, ?V2, ?V1, ?exd64_real; unfold exxy; cbn [nth length map Nat.mul Nat.add]; try (rewrite ?X3, ?X2); try lra; try reflexivity.
  - repeat constructor; apply fin_ofZ; reflexivity.
  - repeat constructor; apply fin_ofZ; reflexivity.
  - exact exd64_finite.
  - exact (proj1 (List.Forall_inv exg_good)).
  - exact (proj1 (List.Forall_inv (List.Forall_inv_tail exg_good))).
  - split; simpl; lra.
  - split; [simpl; lia|]. split; [simpl; lra|right; simpl; lra].
  - split; [simpl; lia|]. split; [simpl; lra|left; reflexivity].
  - rewrite !Rabs_pos_eq by lra. lra.
  - rewrite Rminus_diag_eq, Rabs_R0 by ring. lra.
  - rewrite Rminus_diag_eq, Rabs_R0 by ring. lra.
  - rewrite Rminus_diag_eq, Rabs_R0 by ring. lra.
  - rewrite Rminus_diag_eq, Rabs_R0 by ring. lra.
  - split; intros c _.
    + exists (fun _ => c), (fun _ => 0). split; [|split]; intros x _; [apply is_derive_Reals; auto_derive; [exact I|ring]|apply derivable_pt_lim_const|rewrite Rabs_R0; lra].
    + exists (fun _ => c), (fun _ => 0). split; [|split]; intros x _; [apply is_derive_Reals; auto_derive; [exact I|ring]|apply derivable_pt_lim_const|rewrite Rabs_R0; lra].
  - exists t, v. split; [exact E|]. split; [exact A|]. revert B. rewrite Ex, Ey, V2, V1, exd64_real. unfold exxy. cbn [nth length map Nat.mul Nat.add]. rewrite X3, X2, uround_u53.
    rewrite !Rabs_R0, !(Rabs_pos_eq 2), !(Rabs_pos_eq 6) by lra. intros B.
    assert (U : u53 <= / 8000000000000000) by (unfold u53; simpl; lra). assert (0 <= u53) by (unfold u53; simpl; lra).
    replace (2 * 1) with 2 in B by ring. apply Rle_trans with (1 := B). lra.
Qed.
Lemma ex_slope2 : exists o v v', new2d Debug LINEAR [0; 1; 3] [0; 2] exxy = Ok o /\ eval2d Debug o (1 / 2) 1 = Ok v /\ eval2d Debug o 3 1 = Ok v' /\ 0 <= v' - v <= 5.
Proof.
  destruct (interp2d_slope_x Debug [0; 1; 3] [0; 2] exxy 0 2 (1 / 2) 3 1) as (o & v & v' & A & B & C & D).
  - exact (proj1 (List.Forall_inv exg_good)).
  - exact (proj1 (List.Forall_inv (List.Forall_inv_tail exg_good))).
  - simpl. lia.
  - simpl. lia.
  - reflexivity.
  - intros [|[|i]] [|[|j]] Hi Hj; simpl in *; try lia; lra.
  - split; simpl; lra.
  - split; simpl; lra.
  - lra.
  - exists o, v, v'. split; [exact A|]. split; [exact B|]. split; [exact C|]. lra.
Qed.
