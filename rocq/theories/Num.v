(** Scalar types.  The C++ code is templated on its scalar type; the model is
    parameterised by a record of operations with no laws attached. *)
From Coq Require Import ZArith Reals Bool.

Class Num (T : Type) : Type := {
  nadd : T -> T -> T;
  nsub : T -> T -> T;
  nmul : T -> T -> T;
  ndiv : T -> T -> T;
  nneg : T -> T;
  nlt : T -> T -> bool;          (* C++ a < b; a > b is [nlt b a] *)
  nle : T -> T -> bool;          (* C++ a <= b; a >= b is [nle b a] *)
  neq : T -> T -> bool;          (* C++ a == b *)
  nofZ : Z -> T;                 (* integer literal or int -> scalar conversion *)
  npi : T                        (* the constant M_PI *)
}.

Declare Scope num_scope.
Delimit Scope num_scope with num.
Infix "+" := nadd : num_scope.
Infix "-" := nsub : num_scope.
Infix "*" := nmul : num_scope.
Infix "/" := ndiv : num_scope.
Infix "<?" := nlt : num_scope.
Infix "<=?" := nle : num_scope.
Infix "==" := neq (at level 70) : num_scope.

(** Decimal literal [p/q] (e.g. 0.5 is [nlit 1 2]).  For binary64 this is the
    correctly rounded literal when both [p] and [q] are exactly
    representable. *)
Definition nlit {T} `{Num T} (p q : Z) : T := ndiv (nofZ p) (nofZ q).

(** Ordinates: a scalar type acted on by the abscissa type
    ([YScalar] of Interp1d.h, real or [std::complex]). *)
Class VNum (T V : Type) : Type := {
  vadd : V -> V -> V;
  vsub : V -> V -> V;
  vmulr : V -> T -> V;   (* y * x *)
  vmull : T -> V -> V;   (* x * y *)
  vdivr : V -> T -> V    (* y / x *)
}.

Global Instance VNum_self {T} `{Num T} : VNum T T := {
  vadd := nadd; vsub := nsub; vmulr := nmul; vmull := nmul; vdivr := ndiv
}.

(** [std::complex<T>]: operators with a real operand act on both components. *)
Definition VNum_complex {T} `{Num T} : VNum T (T * T) := {|
  vadd a b := (nadd (fst a) (fst b), nadd (snd a) (snd b));
  vsub a b := (nsub (fst a) (fst b), nsub (snd a) (snd b));
  vmulr a x := (nmul (fst a) x, nmul (snd a) x);
  vmull x a := (nmul x (fst a), nmul x (snd a));
  vdivr a x := (ndiv (fst a) x, ndiv (snd a) x)
|}.

(** Exact arithmetic: the reals, [p] being the value used for M_PI. *)
Definition Rltb (x y : R) : bool := if Rlt_dec x y then true else false.
Definition Rleb (x y : R) : bool := if Rle_dec x y then true else false.
Definition Reqb (x y : R) : bool := if Req_EM_T x y then true else false.

Definition RNum_at (p : R) : Num R := {|
  nadd := Rplus; nsub := Rminus; nmul := Rmult; ndiv := Rdiv; nneg := Ropp;
  nlt := Rltb; nle := Rleb; neq := Reqb; nofZ := IZR; npi := p
|}.

Global Instance RNum : Num R := RNum_at PI.

Lemma Rltb_true x y : Rltb x y = true <-> (x < y)%R.
Proof. unfold Rltb. destruct (Rlt_dec x y); split; intros; auto; discriminate. Qed.
Lemma Rltb_false x y : Rltb x y = false <-> (y <= x)%R.
Proof.
  unfold Rltb. destruct (Rlt_dec x y) as [H|H]; split; intros H'; auto; try discriminate.
  - exfalso. apply (Rlt_not_le _ _ H H').
  - apply Rnot_lt_le; auto.
Qed.
Lemma Rleb_true x y : Rleb x y = true <-> (x <= y)%R.
Proof. unfold Rleb. destruct (Rle_dec x y); split; intros; auto; discriminate. Qed.
Lemma Rleb_false x y : Rleb x y = false <-> (y < x)%R.
Proof.
  unfold Rleb. destruct (Rle_dec x y) as [H|H]; split; intros H'; auto; try discriminate.
  - exfalso. apply (Rlt_not_le _ _ H' H).
  - apply Rnot_le_lt; auto.
Qed.
Lemma Reqb_true x y : Reqb x y = true <-> x = y.
Proof. unfold Reqb. destruct (Req_EM_T x y); split; intros; auto; discriminate. Qed.
Lemma Reqb_false x y : Reqb x y = false <-> x <> y.
Proof. unfold Reqb. destruct (Req_EM_T x y); split; intros; auto; try discriminate; contradiction. Qed.

(** Case analysis on the next real comparison in the goal. *)
Ltac rcmp :=
  match goal with
  | |- context [Rltb ?a ?b] =>
      let E := fresh "E" in destruct (Rltb a b) eqn:E; [apply Rltb_true in E | apply Rltb_false in E]
  | |- context [Rleb ?a ?b] =>
      let E := fresh "E" in destruct (Rleb a b) eqn:E; [apply Rleb_true in E | apply Rleb_false in E]
  | |- context [Reqb ?a ?b] =>
      let E := fresh "E" in destruct (Reqb a b) eqn:E; [apply Reqb_true in E | apply Reqb_false in E]
  end.

(** Integers with truncating division (a C++ integer type, no overflow); used
    by executable examples of the theorems that hold for every scalar type. *)
Definition ZNum : Num Z := {|
  nadd := Z.add; nsub := Z.sub; nmul := Z.mul; ndiv := Z.quot; nneg := Z.opp;
  nlt := Z.ltb; nle := Z.leb; neq := Z.eqb; nofZ := fun z => z; npi := 3%Z
|}.
