(** Specification vocabulary for units, vector generation, elementwise
    operations, comparisons and rounding. *)
From Coq Require Import List Arith ZArith Reals.
From Verif Require Import Outcome M_Basics.
Import ListNotations.
Open Scope R_scope.

(** One unit of speed in metres per second. *)
Definition metres_per_second (u : speed_unit) : R :=
  match u with MS => 1 | KNOT => 1852 / 3600 | KMH => 1000 / 3600 end.

(** [x], read in unit [u], denotes the frequency of [f] hertz; [p] is pi. *)
Definition denotes_hertz (p : R) (u : frequency_unit) (x f : R) : Prop :=
  match u with
  | HERTZ => x = f
  | RADS => x = 2 * p * f
  | DEGS => x = 360 * f
  | DEGM => x = 360 * 60 * f
  | RPM => x = 60 * f
  | PERIOD_S => x * f = 1
  end.

(** Elements of [l] as a function of the index. *)
Definition elements (l : list R) (n : nat) (g : nat -> R) : Prop :=
  length l = n /\ forall k, (k < n)%nat -> nth k l 0 = g k.

Fixpoint total (l : list R) : R :=
  match l with [] => 0 | x :: l' => x + total l' end.

(** Closest point of [[lo, hi]] to [v]. *)
Definition closest_point (lo hi v r : R) : Prop :=
  lo <= r <= hi /\ forall q, lo <= q <= hi -> Rabs (r - v) <= Rabs (q - v).

Definition clampZ (lo hi v : Z) : Z := Z.max lo (Z.min hi v).
Definition int64 (z : Z) : Prop := (- 2 ^ 63 <= z <= 2 ^ 63 - 1)%Z.

(** [op] applies [f] elementwise to vectors of equal lengths; otherwise a
    debug build aborts, and a release build reads past the end of a shorter
    second vector. *)
Definition elementwise (f : R -> R -> R) (op : build -> list R -> list R -> outcome (list R)) : Prop :=
  (forall bm a b, length a = length b ->
     exists l, op bm a b = Ok l /\ elements l (length a) (fun i => f (nth i a 0%R) (nth i b 0%R))) /\
  (forall a b, length a <> length b -> op Debug a b = Abort) /\
  (forall a b, (length b < length a)%nat -> op Release a b = UB) /\
  (forall a b, (length a <= length b)%nat ->
     exists l, op Release a b = Ok l /\ elements l (length a) (fun i => f (nth i a 0%R) (nth i b 0%R))).
