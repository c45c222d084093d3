(** Specification vocabulary: coefficient matrices of unequal shapes. *)
From Coq Require Import List Arith Reals.
From Verif Require Import Outcome M_Series S_Series.
Import ListNotations.
Open Scope R_scope.

(** What Eigen does with an index out of range. *)
Definition out_of_bounds {A} (bm : build) : outcome A := match bm with Debug => Abort | Release => UB end.

(** At least [m] rows and at least one column. *)
Definition tall {T} (m : nat) (A : mat T) : Prop := (m <= m_rows A)%nat /\ (0 < m_cols A)%nat.

(** The sum over the first [m] rows of each matrix, all its columns. *)
Definition ragged_sum (m : nat) (b : list (mat R)) (u v w : R) : R :=
  bsum (length b) (fun k => bsum m (fun i => bsum (m_cols (nth k b (mkMat 0 0 (fun _ _ => 0)))) (fun j => coef3 b i j k * u ^ i * v ^ j * w ^ k))).

(** The point of [-1, 1] standing for a coordinate. *)
Definition on_unit (a : axis R) (x : R) : R := match a with Closed lo hi => segment_unit lo hi x | Opened lo => halfline_unit lo x end.
(** Some matrix has fewer rows than the first, none is without columns. *)
Definition rows_missing {T} (b : list (mat T)) : Prop := match b with [] => False | A :: b' => (0 < m_rows A)%nat /\ Forall (fun C => 0 < m_cols C)%nat b /\ Exists (fun C => m_rows C < m_rows A)%nat b' end.
(** Some matrix is smaller than the first in some direction. *)
Definition smaller_than_first {T} (b : list (mat T)) : Prop := match b with [] => False | A :: b' => (0 < m_rows A)%nat /\ (0 < m_cols A)%nat /\ Exists (fun C => m_rows C < m_rows A \/ m_cols C < m_cols A)%nat b' end.
(** [n] rows at least are present in the precomputed matrix. *)
Definition first_rows {T} (b : list (mat T)) : nat := match b with [] => 0%nat | A :: _ => m_rows A end.
