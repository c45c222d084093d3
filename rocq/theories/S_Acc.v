(** Specification vocabulary for limits of axes and sizes of tables; depends on
    the type of client calls only. *)
From Coq Require Import List Arith Reals.
From Verif Require Import M_Lookup.
Import ListNotations.
Open Scope R_scope.

(** Smallest and largest element. *)
Definition is_minimum (l : list R) (m : R) : Prop := In m l /\ forall x, In x l -> m <= x.
Definition is_maximum (l : list R) (m : R) : Prop := In m l /\ forall x, In x l -> x <= m.

(** Abscissae and ordinates in force after a sequence of calls on a 2D table,
    [cur] being those in force before. *)
Fixpoint last_x2 {T} (cur : option (list T)) (ops : list (op2 T)) : option (list T) :=
  match ops with
  | [] => cur
  | SetX2 xs :: ops' => last_x2 (Some xs) ops'
  | _ :: ops' => last_x2 cur ops'
  end.
Fixpoint last_y2 {T} (cur : option (list T)) (ops : list (op2 T)) : option (list T) :=
  match ops with
  | [] => cur
  | SetY2 ys :: ops' => last_y2 (Some ys) ops'
  | _ :: ops' => last_y2 cur ops'
  end.

(** Pairwise closeness of the common prefix of two vectors. *)
Definition all_close (rtol atol : R) (a b : list R) : Prop :=
  forall i, (i < length a)%nat -> (i < length b)%nat ->
    Rabs (nth i a 0 - nth i b 0) <= atol + rtol * Rabs (nth i b 0).
