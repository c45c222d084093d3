(** C99, C100: accuracy of Ei_approximation. *)
From Coq Require Import List Arith ZArith Bool Reals Lra Lia.
From Coquelicot Require Import Coquelicot.
From Verif Require Import Outcome Num NumFun M_Special S_Special S_Ei L_EiAcc.
Local Open Scope R_scope.

(** The specification determines one number for each x > 0, and has the
    derivative of the integral. *)
Theorem C99_specification_Ei : forall x, 0 < x -> exists! e, is_Ei x e.
Proof. exact Ei_spec. Qed.
Print Assumptions C99_specification_Ei.
Theorem C99_specification_derivative : forall f : R -> R, (forall x, 0 < x -> is_Ei x (f x)) ->
  forall x, 0 < x -> is_derive f x (exp x / x).
Proof. exact Ei_spec_derive. Qed.
Print Assumptions C99_specification_derivative.

(** C99. Exact arithmetic on the coefficients as written; absolute error below
    6 (Ei has a zero there), relative error from 6 on. *)
Theorem C99_Ei_accuracy_below_6 : forall x e, 1 / 100000000 < x < 6 -> is_Ei x e ->
  exists v, Ei_approximation (T := R) x = Ok v /\ Rabs (v - e) <= 3 / 10000000000000000.
Proof. exact Ei_below_6. Qed.
Print Assumptions C99_Ei_accuracy_below_6.

(** On [6,12) the value is always too large. *)
Theorem C99_Ei_accuracy_6_to_12 : forall x e, 6 <= x < 12 -> is_Ei x e ->
  exists v, Ei_approximation (T := R) x = Ok v /\ 0 < e /\
  e * (1 + 99 / 10000000000000000) <= v <= e * (1 + 24 / 1000000000000).
Proof. exact Ei_6_to_12. Qed.
Print Assumptions C99_Ei_accuracy_6_to_12.

(** Partial reals leave out the one argument at which a denominator is zero. *)
Theorem C99_Ei_accuracy_above_12 : forall x e v, 12 <= x -> is_Ei x e ->
  Ei_approximation (NT := PNum) (NF := PNumFm) (NR := PNumTr) (Some x) = Ok (Some v) ->
  0 < e /\ Rabs (v - e) <= 4 / 100000000000000000 * e.
Proof. exact Ei_above_12. Qed.
Print Assumptions C99_Ei_accuracy_above_12.

(** The scaled function from 24 on. *)
Theorem C99_expEi_accuracy : forall Ei x e, 24 <= x -> is_Ei x e ->
  exists v, expEi (T := R) Ei x = Ok v /\ Rabs (v - exp (- x) * e) <= 4 / 100000000000000000 * (exp (- x) * e).
Proof. exact expEi_accuracy. Qed.
Print Assumptions C99_expEi_accuracy.

Example C99_example : exists e v, is_Ei 7 e /\ Ei_approximation (T := R) 7 = Ok v /\ 0 < e /\ e < v /\ v < e * (1 + 3 / 100000000000).
Proof.
  destruct (C99_specification_Ei 7 ltac:(lra)) as [e [E _]]. destruct (C99_Ei_accuracy_6_to_12 7 e ltac:(lra) E) as [v [V [P [L U]]]].
  exists e, v. repeat split; try assumption; lra.
Qed.

(** C100. An error of at most 1e-15, as elsewhere, is not reached anywhere on
    [6,12); at 6 the relative error is above 2.3e-11. *)
Theorem C100_Ei_accuracy_refuted : exists x e, 1 / 100000000 < x /\ is_Ei x e /\
  forall v, Ei_approximation (T := R) x = Ok v -> 236 / 10000000000000 * e < v - e.
Proof. exact Ei_at_6. Qed.
Print Assumptions C100_Ei_accuracy_refuted.

(** One coefficient of the table is responsible. *)
Theorem C100_changed_6_to_12 : forall x e, 6 <= x <= 12 -> is_Ei x e -> exists f,
  cf (T := R) (replace ei12_alpha 9 (nlit (T := R) (-2645677793077147237806) 1000000000000000000000)) ei12_beta x = Ok f /\
  Rabs (exp x / x * f - e) <= 3 / 100000000000000000 * e.
Proof. exact Ei_fixed. Qed.
Print Assumptions C100_changed_6_to_12.

(** The entry of the code, and the formula it is used in. *)
Example C100_example : nth 9 ei12_alpha 0 = -2.645977793077147237806 /\
  Ei_approximation (T := R) 8 = (let* f := cf (T := R) ei12_alpha ei12_beta 8 in Ok (exp 8 / 8 * f)).
Proof.
  split; [unfold ei12_alpha; cbn [nth]; unfold nlit; cbn; lra|].
  unfold Ei_approximation. rewrite L_Special.rejected_R.
  assert (E : Rleb 8 (1 / 100000000) = false) by (apply Rleb_false; lra). rewrite E. cbn [nlt nle nofZ RNum RNum_at].
  assert (E1 : Rltb 8 6 = false) by (apply Rltb_false; lra). assert (E2 : Rleb 6 8 = true) by (apply Rleb_true; lra).
  assert (E3 : Rltb 8 12 = true) by (apply Rltb_true; lra). rewrite E1, E2, E3, andb_false_r. reflexivity.
Qed.
