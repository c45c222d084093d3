(** C82: derivatives of Bessel functions. *)
From Coq Require Import List Arith ZArith Bool Reals Lra Lia.
From Coquelicot Require Import Coquelicot.
From Verif Require Import Outcome Num NumFun M_Special S_Special L_Bessel.
Local Open Scope R_scope.

(** C82. [F] is Boost's function; it is required to satisfy the classical
    relations at the order and argument asked for. *)
Theorem C82_bessel_derivative : forall (F : R -> R -> R) order x, x <> 0 -> bessel_relations F order x ->
  is_derive (F order) x (bessel_derivative (T := R) Ropp F order x).
Proof. exact derivative_lemma. Qed.
Print Assumptions C82_bessel_derivative.

Theorem C82_bessel_i_derivative : forall (F : R -> R -> R) order x, x <> 0 -> modified_i_relations F order x ->
  is_derive (F order) x (bessel_i_derivative (T := R) F order x).
Proof. exact i_derivative_lemma. Qed.
Print Assumptions C82_bessel_i_derivative.

Theorem C82_bessel_k_derivative : forall (F : R -> R -> R) order x, x <> 0 -> modified_k_relations F order x ->
  is_derive (F order) x (bessel_k_derivative (T := R) Ropp F order x).
Proof. exact k_derivative_lemma. Qed.
Print Assumptions C82_bessel_k_derivative.

(** The Hankel function is J + iY. *)
Theorem C82_hankel_derivative : forall (J Y : R -> R -> R) order x, x <> 0 ->
  bessel_relations J order x -> bessel_relations Y order x ->
  let d := bessel_derivative (T := R) (VT := VNum_complex) (fun z => (- fst z, - snd z)) (fun o z => (J o z, Y o z)) order x in
  is_derive (J order) x (fst d) /\ is_derive (Y order) x (snd d).
Proof. exact hankel_lemma. Qed.
Print Assumptions C82_hankel_derivative.

(** The relations are those of the Bessel functions of integer order. *)
Theorem C82_relations_J : forall (n : Z) x, x <> 0 -> bessel_relations BesselJ (IZR n) x.
Proof. exact BesselJ_relations. Qed.
Print Assumptions C82_relations_J.
Theorem C82_relations_I : forall (n : Z) x, x <> 0 -> modified_i_relations BesselI (IZR n) x.
Proof. exact BesselI_relations. Qed.
Print Assumptions C82_relations_I.
(** (-1)^n I_n satisfies the relations of K. *)
Theorem C82_relations_K : forall (n : Z) x, x <> 0 ->
  modified_k_relations (fun n x => cos (n * PI) * BesselI n x) (IZR n) x.
Proof. exact AltI_relations. Qed.
Print Assumptions C82_relations_K.

Example C82_example : is_derive (BesselJ 2) 3 (BesselJ 1 3 - 2 / 3 * BesselJ 2 3) /\
  is_derive (BesselI 0) 5 (BesselI 1 5).
Proof.
  split.
  - assert (H := C82_bessel_derivative BesselJ (IZR 2) 3 ltac:(lra) (C82_relations_J 2 3 ltac:(lra))).
    unfold bessel_derivative in H. cbv [neq RNum RNum_at nofZ vsub vmull VNum_self nsub nmul ndiv] in H.
    destruct (Reqb 2 0) eqn:E; [apply Reqb_true in E; lra|]. replace (2 - 1) with 1 in H by ring. exact H.
  - assert (H := C82_bessel_i_derivative BesselI (IZR 0) 5 ltac:(lra) (C82_relations_I 0 5 ltac:(lra))).
    unfold bessel_i_derivative in H. cbv [neq RNum RNum_at nofZ] in H.
    destruct (Reqb 0 0) eqn:E; [exact H|apply Reqb_false in E; lra].
Qed.

(** Integer argument types: the value agrees with the formula exactly when x
    divides the order (or the function vanishes there), and x = 0 is a
    division by zero. *)
Theorem C82_integer_arguments : forall (F : R -> R -> R) (order x : Z), x <> 0%Z -> order <> 0%Z ->
  let G := fun o z : Z => F (IZR o) (IZR z) in
  (bessel_derivative_int (T := R) G order x = Ok (bessel_derivative (T := R) Ropp F (IZR order) (IZR x))
     <-> Z.rem order x = 0%Z \/ F (IZR order) (IZR x) = 0) /\
  (bessel_i_derivative_int (T := R) G order x = Ok (bessel_i_derivative (T := R) F (IZR order) (IZR x))
     <-> Z.rem order x = 0%Z \/ F (IZR order) (IZR x) = 0) /\
  (bessel_k_derivative_int (T := R) G order x = Ok (bessel_k_derivative (T := R) Ropp F (IZR order) (IZR x))
     <-> Z.rem order x = 0%Z \/ F (IZR order) (IZR x) = 0).
Proof. exact int_lemma. Qed.
Print Assumptions C82_integer_arguments.

Theorem C82_integer_order_zero : forall (F : R -> R -> R) (order x : Z), order = 0%Z ->
  let G := fun o z : Z => F (IZR o) (IZR z) in
  bessel_derivative_int (T := R) G order x = Ok (bessel_derivative (T := R) Ropp F 0 (IZR x)) /\
  bessel_i_derivative_int (T := R) G order x = Ok (bessel_i_derivative (T := R) F 0 (IZR x)) /\
  bessel_k_derivative_int (T := R) G order x = Ok (bessel_k_derivative (T := R) Ropp F 0 (IZR x)).
Proof. exact int_order_zero. Qed.
Print Assumptions C82_integer_order_zero.

Theorem C82_integer_zero : forall (F : R -> R -> R) (order : Z), order <> 0%Z ->
  let G := fun o z : Z => F (IZR o) (IZR z) in
  bessel_derivative_int (T := R) G order 0 = UB /\ bessel_i_derivative_int (T := R) G order 0 = UB /\
  bessel_k_derivative_int (T := R) G order 0 = UB.
Proof. exact int_zero_div. Qed.
Print Assumptions C82_integer_zero.

(** "With integer arguments the wrapper returns the derivative" is false. *)
Theorem C82_integer_arguments_refuted : exists order x : Z, x <> 0%Z /\
  (forall v, bessel_i_derivative_int (T := R) (fun o z => BesselI (IZR o) (IZR z)) order x = Ok v ->
     ~ is_derive (BesselI (IZR order)) (IZR x) v).
Proof. exact int_refuted. Qed.
Print Assumptions C82_integer_arguments_refuted.

(** 4/2 is exact, 1/2 is not. *)
Example C82_integer_example : Z.rem 4 2 = 0%Z /\ Z.rem 1 2 <> 0%Z /\ BesselI 1 2 <> 0.
Proof. repeat split; [discriminate|]. apply Rgt_not_eq, BesselI_1_pos. lra. Qed.
