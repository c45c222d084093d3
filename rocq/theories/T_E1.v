(** C97, C98: accuracy of E1_approximation. *)
From Coq Require Import List Arith ZArith Bool Reals Lra Lia.
From Coquelicot Require Import Coquelicot.
From Verif Require Import Outcome Num NumFun M_Special S_Special L_Special L_Expint L_E1.
Local Open Scope R_scope.

(** The integral that defines E1 converges. *)
Theorem C97_specification_E1 : forall x, 0 < x ->
  is_lim (fun X => RInt (fun t => exp (- t) / t) x X) p_infty (E1 x) /\ 0 < E1 x.
Proof. exact (fun x H => conj (E1_is_lim x H) (E1_pos x H)). Qed.
Print Assumptions C97_specification_E1.

(** C97. Exact arithmetic on the coefficients as written. *)
Theorem C97_E1_accuracy_below_1 : forall x, 1 / 100000000 < x < 1 -> exists v, E1_approximation (T := R) x = Ok v /\
  Rabs (v - E1 x) <= 1 / 10000000000000000 * E1 x.
Proof. exact E1_accuracy_low. Qed.
Print Assumptions C97_E1_accuracy_below_1.

(** On [1,4) the relative error is between 5.6e-10 and 1.47e-9: the value is
    always too large. *)
Theorem C97_E1_accuracy_1_to_4 : forall x, 1 <= x < 4 -> exists v, E1_approximation (T := R) x = Ok v /\
  E1 x * (1 + 56 / 100000000000) <= v <= E1 x * (1 + 147 / 100000000000).
Proof. exact E1_accuracy_mid. Qed.
Print Assumptions C97_E1_accuracy_1_to_4.

(** From 4 on it is at most 9.5e-4, and that order is reached. *)
Theorem C97_E1_accuracy_above_4 : forall x, 4 <= x -> exists v, E1_approximation (T := R) x = Ok v /\
  E1 x * (1 - 2 / 1000000000000000) <= v <= E1 x * (1 + 95 / 100000) /\
  (x <= 10 -> E1 x * (1 + 6 / 1000000) <= v) /\ (x = 4 -> E1 x * (1 + 925 / 1000000) <= v).
Proof. exact E1_accuracy_high. Qed.
Print Assumptions C97_E1_accuracy_above_4.

(** The value at 2 with its enclosure; E1 is not zero there. *)
Example C97_example : exists v, E1_approximation (T := R) 2 = Ok v /\ 0 < E1 2 /\ E1 2 < v /\ v < E1 2 * (1 + 2 / 1000000000).
Proof.
  destruct (C97_E1_accuracy_1_to_4 2 ltac:(lra)) as [v [E [L U]]]. exists v. assert (P := E1_pos 2 ltac:(lra)).
  repeat split; [exact E|exact P|lra|lra].
Qed.

(** C98. The accuracy of the published approximation (better than 1e-15) is
    not that of the code on [1,10], and at 4 three digits are right. *)
Theorem C98_E1_accuracy_refuted : forall x, 1 <= x <= 10 -> forall v, E1_approximation (T := R) x = Ok v ->
  ~ Rabs (v - E1 x) <= 5 / 10000000000 * E1 x.
Proof. exact accuracy_fails. Qed.
Print Assumptions C98_E1_accuracy_refuted.
Theorem C98_E1_at_4_refuted : exists x, 1 / 100000000 < x /\ forall v, E1_approximation (T := R) x = Ok v ->
  ~ Rabs (v - E1 x) <= 9 / 10000 * E1 x.
Proof. exact accuracy_fails_4. Qed.
Print Assumptions C98_E1_at_4_refuted.

(** Four coefficients cause it: with entries 3 and 7 of the numerator for [1,4)
    changed to 76.33628843705946890896 and 11.07326627786831743809 (lines 487,
    491), and entries 4 and 8 of the denominator for x >= 4 changed to
    79231.787945279043698718 and 259897.62083608489777411 (lines 533, 537), the
    same formulas are accurate. *)
Theorem C98_changed_1_to_4 : forall x, 1 <= x <= 4 -> exists nd,
  inv_frac (replace (replace e1b_p 3 (nlit (T := R) 7633628843705946890896 100000000000000000000)) 7
              (nlit (T := R) 1107326627786831743809 100000000000000000000)) e1b_q x 0 9 1 0 0 = Ok nd /\
  Rabs (exp (- x) * (fst nd / snd nd) - E1 x) <= 4 / 100000000000000000 * E1 x.
Proof. exact changed_mid. Qed.
Print Assumptions C98_changed_1_to_4.
Theorem C98_changed_above_4 : forall x, 4 <= x -> exists nd,
  inv_frac e1c_p (replace (replace e1c_q 4 (nlit (T := R) 79231787945279043698718 1000000000000000000)) 8
              (nlit (T := R) 25989762083608489777411 100000000000000000)) x 0 10 1 0 0 = Ok nd /\
  Rabs (exp (- x) / x * (1 + 1 / x * fst nd / snd nd) - E1 x) <= 5 / 1000000000000000000 * E1 x.
Proof. exact changed_high. Qed.
Print Assumptions C98_changed_above_4.

(** The entries of the code that the theorems replace. *)
Example C98_example : nth 3 e1b_p 0 = 76.33628873405946890896 /\ nth 8 e1c_q 0 = 559897.62083608489777411 /\
  E1_approximation (T := R) 4 <> Ok (E1 4).
Proof.
  split; [|split].
  - unfold e1b_p. cbn [nth]. unfold nlit. cbn. lra.
  - unfold e1c_q. cbn [nth]. unfold nlit. cbn. lra.
  - intros E. apply (C98_E1_accuracy_refuted 4 ltac:(lra) _ E). rewrite Rminus_eq_0, Rabs_R0.
    assert (P := E1_pos 4 ltac:(lra)). lra.
Qed.
