(** Property C114: trapezoidal rule and convolution in IEEE double. *)
From Coq Require Import List Arith ZArith Reals Lia Lra.
From Flocq Require Import IEEE754.BinarySingleNaN.
From Verif Require Import Outcome Num NumFun F64 M_Basics M_Integ S_Series S_Integ S_Angles S_Double S_Trapz64 L_F64 L_Trapz64.
Import ListNotations.
Local Open Scope R_scope.

(** Uniform step: finite, within 2(n+1) roundings of the area counted with
    absolute values. *)
Theorem C114_trapz_uniform_double : forall (y : list f64) (dx : f64),
  (2 <= length y)%nat -> (Z.of_nat (length y) <= 2 ^ 43)%Z -> ordinary (2 ^ 400) y -> ordinary (2 ^ 400) [dx] ->
  exists v, trapz_uniform y dx = Ok v /\ is_finite v = true /\
    Rabs (dvalue v - areas (grid 0 (dvalue dx) (length y)) (dvalues y)) <=
      2 * (INR (length y) + 1) * uround * areas_abs (grid 0 (dvalue dx) (length y)) (dvalues y) + 2 * uflow * (Rabs (dvalue dx) + 1).
Proof. exact trapz_uniform_double_lemma. Qed.
Print Assumptions C114_trapz_uniform_double.

(** Given abscissas, in any order. *)
Theorem C114_trapz_xy_double : forall bm (x y : list f64),
  (2 <= length y)%nat -> (Z.of_nat (length y) <= 2 ^ 43)%Z -> length x = length y -> ordinary (2 ^ 400) x -> ordinary (2 ^ 400) y ->
  exists v, trapz_xy bm x y = Ok v /\ is_finite v = true /\
    Rabs (dvalue v - areas (dvalues x) (dvalues y)) <=
      2 * (INR (length y) + 2) * uround * areas_abs (dvalues x) (dvalues y) + (INR (length y) + 2) * uflow.
Proof. exact trapz_xy_double_lemma. Qed.
Print Assumptions C114_trapz_xy_double.

(** Convolution sample. *)
Theorem C114_convolution_double : forall bm (kernel signal : list f64) (dt : f64) straight,
  (2 <= length kernel)%nat -> (Z.of_nat (length kernel) <= 2 ^ 43)%Z -> (length kernel <= length signal)%nat ->
  ordinary (2 ^ 190) kernel -> ordinary (2 ^ 190) signal -> ordinary (2 ^ 400) [dt] ->
  exists v, naive_convolution bm kernel signal dt straight = Ok v /\ is_finite v = true /\
    let g := grid 0 (dvalue dt) (length kernel) in let w := lagged (dvalues kernel) (dvalues signal) straight in
    Rabs (dvalue v - areas g w) <= 2 * (INR (length kernel) + 2) * uround * areas_abs g w
      + 2 * uflow * (Rabs (dvalue dt) * (INR (length kernel) + 1) + 1).
Proof. exact convolution_double_lemma. Qed.
Print Assumptions C114_convolution_double.

(** Integer samples and step: no rounding at all. *)
Theorem C114_trapz_integers_exact : forall (y : list f64) (dx : f64) (z : list Z) (h : Z),
  (2 <= length y)%nat -> integers y z -> is_finite dx = true -> dvalue dx = IZR h ->
  (2 * fold_right Z.add 0 (map Z.abs z) <= 2 ^ 53)%Z -> (Z.abs h * (2 * fold_right Z.add 0 (map Z.abs z)) <= 2 ^ 53)%Z ->
  (Z.abs h <= 2 ^ 53)%Z ->
  exists v, trapz_uniform y dx = Ok v /\ is_finite v = true /\
    dvalue v = areas (grid 0 (IZR h) (length y)) (map IZR z).
Proof. exact trapz_integers_lemma. Qed.
Print Assumptions C114_trapz_integers_exact.

(** A NaN sample or step gives NaN. *)
Theorem C114_trapz_nan : forall (y : list f64) (dx : f64), (2 <= length y)%nat ->
  is_nan dx = true \/ Exists (fun v => is_nan v = true) y -> exists v, trapz_uniform y dx = Ok v /\ is_nan v = true.
Proof. exact trapz_nan_lemma. Qed.
Print Assumptions C114_trapz_nan.

(** On the same samples the two rules need not agree: the constant 0.1 at 0, 1, 2, 3. *)
Theorem C114_rules_agree_refuted : exists (x y : list f64) (dx v w : f64), dvalues x = grid 0 (dvalue dx) (length y) /\
  trapz_uniform y dx = Ok v /\ trapz_xy Debug x y = Ok w /\ dvalue v <> dvalue w.
Proof. exact rules_refuted_pf. Qed.
Print Assumptions C114_rules_agree_refuted.

(** 1, 4, -3, 2 at step 2: 2*((1+4) + (4-3) + (-3+2))/2 = 5. *)
Example C114_example : exists v, trapz_uniform (map f64_ofZ [1; 4; -3; 2]%Z) (f64_ofZ 2) = Ok v /\ dvalue v = 5.
Proof.
  destruct (C114_trapz_integers_exact (map f64_ofZ [1; 4; -3; 2]%Z) (f64_ofZ 2) [1; 4; -3; 2]%Z 2) as (v & A & _ & B).
  - rewrite map_length. repeat constructor.
  - cbn [map]. repeat constructor; apply ofZ_ok; lia.
  - apply ofZ_ok; lia.
  - apply ofZ_ok; lia.
  - discriminate.
  - discriminate.
  - discriminate.
  - exists v. split; [exact A|]. rewrite B, map_length. cbn. lra.
Qed.

(** The hypotheses hold of every list of integers. *)
Example C114_hyps : ordinary (2 ^ 400) (map f64_ofZ [1; 4; -3; 2]%Z).
Proof.
  assert (8 <= 2 ^ 400) by (replace 8 with (2 ^ 3) by lra; apply Rle_pow; [lra|lia]).
  assert (B : forall z, (Z.abs z <= 8)%Z -> is_finite (f64_ofZ z) = true /\ Rabs (dvalue (f64_ofZ z)) <= 2 ^ 400).
  { intros z Hz. destruct (ofZ_ok z ltac:(lia)) as (F & V). split; [exact F|]. unfold dvalue. rewrite V, <- abs_IZR. apply IZR_le in Hz. lra. }
  cbn [map]. repeat (apply Forall_cons; [apply B; lia|]). apply Forall_nil.
Qed.
