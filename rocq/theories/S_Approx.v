(** Vocabulary for the tolerance comparisons. *)
From Coq Require Import List Arith Reals.
From Verif Require Import S_Series.
Import ListNotations.
Local Open Scope R_scope.

(** Euclidean norm and distance of coefficient lists. *)
Definition norm2 (a : list R) : R := sqrt (bsum (length a) (fun i => nth i a 0 ^ 2)).
Definition distance2 (a b : list R) : R := sqrt (bsum (length a) (fun i => (nth i a 0 - nth i b 0) ^ 2)).

Definition zeros (n : nat) : list R := repeat 0 n.
Definition kronecker (i j : nat) : R := if Nat.eqb i j then 1 else 0.
