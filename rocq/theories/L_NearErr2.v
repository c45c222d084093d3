(** Concrete cases for [L_NearErr]. *)
From Coq Require Import List Arith ZArith Reals Lra Lia Bool.
From Coq Require String.
From Coquelicot Require Import Coquelicot.
From Flocq Require Import Core.Core IEEE754.BinarySingleNaN.
From Verif Require Import Outcome Num NumFun StdAlgo F64 M_Interp1d M_Interp2d M_Lookup M_Grid S_Interp1d S_Interp2d S_Lookup S_Grid S_Integ S_Angles S_Double S_Err S_Lim S_Grid64 S_Near64 S_GErr64 S_NearErr
  L_F64 L_Linspace64 L_Series64 L_GridExamples L_Grid64 L_Ser64 L_Arange64 L_GShape4 L_GErr64b L_LutErr L_LutErr2 L_NearErr L_Err L_Lim L_LimC L_Interp64 L_Special64 L_F64Err.
Import ListNotations.
Import String.StringSyntax.
Local Open Scope R_scope.
Local Open Scope string_scope.

(** x y on the axes 0, 1, 3 and 0, 2: the answer at (2, 1) is a value at a node. *)
Lemma ex_near64 : exists o n, rgn_make exg64 (mkND [3; 2]%nat exd64) = Ok o /\ rgn_nearest Release o exp64 = Ok n /\ Rabs (dvalue (gn_val n) - 2) <= 5 + / 1000000000000.
Proof.
  assert (Ep : dvalues exp64 = [2; 1]) by (unfold exp64, dvalues; cbn [map]; vz; reflexivity).
  destruct (nearest_double_error Release exg64 (mkND [3; 2]%nat exd64) pxy [2; 3] [2; 2] [3; 2] 0 exp64 exg64_good) as (o & n & A & B & C); try reflexivity; try exact exd64_near.
  - assert (D : 6 <= dmax). { rewrite dmax_fmax. assert (A := big1003). assert (P9 := bpow_gt_0 radix2 969). assert (6 <= bpow radix2 1000); [|lra]. apply Rle_trans with (bpow radix2 10); [simpl; lra|apply bpow_le; lia]. }
    unfold exg64. cbn [map]. unfold doubling_ok. repeat (constructor; [repeat (constructor; [vz; rewrite Rabs_pos_eq by lra; lra|]); constructor|]). constructor.
  - rewrite exg64_real. exact exg_spacings.
  - unfold exg64. cbn [map]. unfold magnitude_le. repeat (constructor; [repeat (constructor; [vz; rewrite Rabs_pos_eq by lra; lra|]); constructor|]). constructor.
  - repeat constructor; lra.
  - repeat constructor; lra.
  - rewrite exg64_real. apply (along2_axes sloped [0; 1; 3] [0; 2] (fun x y => x * y)). split; intros c Hc x y _ _; unfold first, final in Hc; cbn [nth length Nat.sub] in Hc.
    + replace (x * c - y * c) with ((x - y) * c) by ring. rewrite Rabs_mult, (Rabs_pos_eq c) by lra. pose proof (Rabs_pos (x - y)). nra.
    + replace (c * x - c * y) with (c * (x - y)) by ring. rewrite Rabs_mult, (Rabs_pos_eq c) by lra. pose proof (Rabs_pos (x - y)). nra.
  - unfold exp64. cbn [map]. repeat constructor; apply fin_ofZ; reflexivity.
  - rewrite exg64_real, Ep. unfold exg. constructor; [unfold first, final; simpl; lra|]. constructor; [unfold first, final; simpl; lra|constructor].
  - exists o, n. split; [exact A|]. split; [exact B|]. rewrite Ep in C. unfold pxy in C. cbn [nth] in C. replace (2 * 1) with 2 in C by ring. apply Rle_trans with (1 := C).
    unfold total, sum, node_excess. cbn [map2 fold_right]. rewrite uround_u53.
    assert (U : u53 <= / 8000000000000000) by (unfold u53; simpl; lra). assert (0 <= u53) by (unfold u53; simpl; lra).
    assert (W : uflow <= / 8000000000000000). { unfold uflow, powerRZ. apply Rinv_le_contravar; [lra|]. assert (2 ^ 53 <= 2 ^ Pos.to_nat 1075) by (apply Rle_pow; [lra|lia]). lra. }
    lra.
Qed.

(** The square root tabulated on [0, 1]; x y tabulated on a rectangle. *)
Definition sqrt_ops : list (op1 R R) := [SetX1 quarters; AddY1 "other" (map (fun x => x) quarters); AddY1 "root" (map sqrt quarters)].
Lemma ex_root : exists t, lut1_run Release (lut1_new LINEAR) sqrt_ops = Ok t /\ registered1 None sqrt_ops "root" = Some (Some quarters, map sqrt quarters).
Proof. eexists. split; reflexivity. Qed.
Lemma ex_root_limit : exists h, 0 < h /\ forall bm m ops (t : lut1 R R) name xs, lut1_run bm (lut1_new m) ops = Ok t -> registered1 None ops name = Some (Some xs, map sqrt xs) ->
  is_linear m -> increasing xs -> (2 <= length xs)%nat -> spacing h xs -> first xs = 0 -> final xs = 1 ->
  forall x, 0 <= x <= 1 -> exists v, lut1_eval t name x = Ok v /\ Rabs (v - sqrt x) <= / 1000.
Proof. apply (table1_converges sqrt 0 1); [|lra]. intros x Hx. exact (sqrt_cont x Hx). Qed.
