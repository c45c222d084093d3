(** Vocabulary for sampling by repeated addition in binary64. *)
From Coq Require Import List Arith Reals.
From Verif Require Import F64 S_Angles S_Double.
Import ListNotations.
Local Open Scope R_scope.

(** Sum of the magnitudes. *)
Definition abs_sum (l : list R) : R := fold_right (fun v s => Rabs v + s) 0 l.
