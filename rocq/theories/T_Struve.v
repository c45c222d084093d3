(** Property C101: the Struve functions of orders 0 and 1 and the derivative
    of the order 0 one (BoostFunctions.h).  [Y] stands for
    [boost::math::cyl_neumann], about which only its error at the argument
    is assumed. *)
From Coq Require Import ZArith Reals Lra.
From Coquelicot Require Import Coquelicot.
From Verif Require Import Outcome Num NumFun M_Special S_Special S_Struve L_StruveK L_StruveY L_Struve.
Open Scope R_scope.

(** Order 0: absolute error at most 1.25e-8 on the whole half line, plus the
    error of Boost's Y_0 beyond 3. *)
Theorem C101_order_0 : forall (Y : R -> R -> R) x eps, 0 <= x -> 0 <= eps ->
  Rabs (Y 0 x - BesselY 0 x) <= eps ->
  exists v, Struve_zero_order Y x = Ok v /\
    Rabs (v - StruveH0 x) <= 125 / 10000000000 + (if Rleb x 3 then 0 else eps).
Proof. exact struve0_accuracy. Qed.
Print Assumptions C101_order_0.

(** Order 1: at most 2.5e-9 up to 3 and 3e-8 beyond. *)
Theorem C101_order_1 : forall (Y : R -> R -> R) x eps, 0 <= x -> 0 <= eps ->
  Rabs (Y 1 x - BesselY 1 x) <= eps ->
  exists v, Struve_first_order Y x = Ok v /\
    Rabs (v - StruveH1 x) <= if Rleb x 3 then 25 / 10000000000 else 3 / 100000000 + eps.
Proof. exact struve1_accuracy. Qed.
Print Assumptions C101_order_1.

(** The derivative really is one of H_0, to the same accuracy. *)
Theorem C101_derivative : forall (Y : R -> R -> R) x eps, 0 <= x -> 0 <= eps ->
  Rabs (Y 1 x - BesselY 1 x) <= eps ->
  ex_derive StruveH0 x /\
  exists v, Struve_zero_order_derivative Y x = Ok v /\
    Rabs (v - Derive StruveH0 x) <= if Rleb x 3 then 25 / 10000000000 else 3 / 100000000 + eps.
Proof. exact derivative_full. Qed.
Print Assumptions C101_derivative.

(** The program terminates with status 0 for exactly the negative arguments. *)
Theorem C101_exit : forall (Y : R -> R -> R) x,
  (Struve_zero_order Y x = Exit 0 <-> x < 0) /\
  (Struve_first_order Y x = Exit 0 <-> x < 0) /\
  (Struve_zero_order_derivative Y x = Exit 0 <-> x < 0).
Proof. exact struve_exit_iff. Qed.
Print Assumptions C101_exit.

(** Yet the functions exist there: H_0 is odd and H_1 is even. *)
Theorem C101_parity : forall x, StruveH0 (- x) = - StruveH0 x /\ StruveH1 (- x) = StruveH1 x.
Proof. exact struve_parity. Qed.
Print Assumptions C101_parity.

(** "Every real argument gets a value" is false. *)
Theorem C101_all_arguments_refuted : exists x, forall (Y : R -> R -> R),
  (forall v, Struve_zero_order Y x <> Ok v) /\ (forall v, Struve_first_order Y x <> Ok v) /\
  (forall v, Struve_zero_order_derivative Y x <> Ok v).
Proof. exact struve_no_value. Qed.
Print Assumptions C101_all_arguments_refuted.

(** No step divides by zero or takes an undefined power, as long as Boost's
    function is defined at the argument. *)
Theorem C101_defined : forall (Y : R -> R -> R) Yp x,
  (forall n, Yp (Some n) (Some x) = Some (Y n x)) ->
  Struve_zero_order (NT := PNum) (NR := PNumTr) Yp (Some x) = defined (Struve_zero_order Y x) /\
  Struve_first_order (NT := PNum) (NR := PNumTr) Yp (Some x) = defined (Struve_first_order Y x) /\
  Struve_zero_order_derivative (NT := PNum) (NR := PNumTr) Yp (Some x) = defined (Struve_zero_order_derivative Y x).
Proof. exact struve_defined. Qed.
Print Assumptions C101_defined.

(** With the exact Y the hypotheses hold with eps = 0, on both branches. *)
Example C101_example : (exists v, Struve_zero_order BesselY 2 = Ok v /\ Rabs (v - StruveH0 2) <= 125 / 10000000000) /\
  (exists v, Struve_first_order BesselY 10 = Ok v /\ Rabs (v - StruveH1 10) <= 3 / 100000000).
Proof.
  assert (Z : forall a, Rabs (a - a) <= 0) by (intros; rewrite Rminus_diag_eq, Rabs_R0 by reflexivity; lra).
  split.
  - destruct (C101_order_0 BesselY 2 0 ltac:(lra) ltac:(lra) (Z _)) as [v [E B]]. exists v. split; [exact E|].
    destruct (Rleb 2 3); lra.
  - destruct (C101_order_1 BesselY 10 0 ltac:(lra) ltac:(lra) (Z _)) as [v [E B]]. exists v. split; [exact E|].
    destruct (Rleb 10 3); lra.
Qed.
