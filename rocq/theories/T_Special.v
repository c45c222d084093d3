(** C83: where the exponential integral approximations are defined. *)
From Coq Require Import List Arith ZArith Bool Reals Lra Lia.
From Verif Require Import Outcome Num NumFun M_Special S_Special L_Special L_EiDef.
Local Open Scope R_scope.

(** C83. Arguments up to 1e-8 end the program, all others give a value. *)
Theorem C83_E1_outcome : forall x,
  (x <= 1 / 100000000 -> E1_approximation (T := R) x = Exit 0) /\
  (1 / 100000000 < x -> exists v, E1_approximation (T := R) x = Ok v).
Proof. exact E1_outcome. Qed.
Print Assumptions C83_E1_outcome.

Theorem C83_Ei_outcome : forall x,
  (x <= 1 / 100000000 -> Ei_approximation (T := R) x = Exit 0) /\
  (1 / 100000000 < x -> exists v, Ei_approximation (T := R) x = Ok v).
Proof. exact Ei_outcome. Qed.
Print Assumptions C83_Ei_outcome.

(** E1: no branch divides by zero or takes the logarithm of a non-positive
    number; run on partial reals the model gives the same, defined, number. *)
Theorem C83_E1_defined : forall x,
  E1_approximation (NT := PNum) (NF := PNumFm) (NR := PNumTr) (Some x) = defined (E1_approximation (T := R) x).
Proof. exact E1_defined. Qed.
Print Assumptions C83_E1_defined.

(** Ei: the same except at exactly one argument, near 18.03, where an
    intermediate denominator of the continued fraction is zero. *)
Theorem C83_Ei_defined_except_once : exists s, 1803 / 100 < s < 1804 / 100 /\
  (forall x, x <> s -> Ei_approximation (NT := PNum) (NF := PNumFm) (NR := PNumTr) (Some x) = defined (Ei_approximation (T := R) x)) /\
  Ei_approximation (NT := PNum) (NF := PNumFm) (NR := PNumTr) (Some s) = Ok None.
Proof. exact Ei_defined_except. Qed.
Print Assumptions C83_Ei_defined_except_once.

Theorem C83_Ei_defined_refuted : exists x, 1 / 100000000 < x /\
  Ei_approximation (NT := PNum) (NF := PNumFm) (NR := PNumTr) (Some x) <> defined (Ei_approximation (T := R) x).
Proof. exact Ei_not_defined. Qed.
Print Assumptions C83_Ei_defined_refuted.

(** expEi is exp(-x) times Ei: times the value supplied by Boost below 24,
    times that of Ei_approximation from 24 on, and defined there. *)
Theorem C83_expEi_scaled : forall (Ei : R -> R) x,
  (x < 24 -> expEi (T := R) Ei x = Ok (exp (- x) * Ei x)) /\
  (24 <= x -> expEi (T := R) Ei x = omap (Rmult (exp (- x))) (Ei_approximation (T := R) x)).
Proof. exact expEi_scaled. Qed.
Print Assumptions C83_expEi_scaled.

Theorem C83_expEi_defined : forall (Ei : option R -> option R) x, 24 <= x ->
  expEi (NT := PNum) (NR := PNumTr) Ei (Some x) = defined (expEi (T := R) (fun x => x) x).
Proof. exact expEi_defined. Qed.
Print Assumptions C83_expEi_defined.

(** Partial reals do notice a division by zero. *)
Example C83_example_partial : ndiv (Num := PNum) (Some 1) (Some 0) = None /\ ndiv (Num := PNum) (Some 1) (Some 2) = Some (1 / 2).
Proof. split; cbn; [destruct (Reqb 0 0) eqn:E|destruct (Reqb 2 0) eqn:E]; try reflexivity; [apply Reqb_false in E|apply Reqb_true in E]; lra. Qed.
Example C83_example : exists v, Ei_approximation (NT := PNum) (NF := PNumFm) (NR := PNumTr) (Some 7) = Ok (Some v) /\
  E1_approximation (T := R) 0 = Exit 0 /\ expEi (T := R) (fun x => x) 2 = Ok (exp (- (2)) * 2).
Proof.
  destruct C83_Ei_defined_except_once as [s [S [D _]]]. destruct (proj2 (C83_Ei_outcome 7) ltac:(lra)) as [v E].
  exists v. rewrite D by lra. rewrite E. split; [reflexivity|]. split.
  - apply C83_E1_outcome. lra.
  - apply (C83_expEi_scaled (fun x => x) 2). lra.
Qed.
