(** C105: Cholesky updates and inverse of Matrix.h. *)
From mathcomp Require Import all_ssreflect all_fingroup all_algebra.
From Verif Require Import Outcome M_Matrix S_Matrix L_MatrixUpd.
Set Implicit Arguments.
Unset Strict Implicit.
Unset Printing Implicit Defensive.
Import Order.Theory GRing.Theory Num.Theory.
Local Open Scope ring_scope.

(** When Eigen's factorisation and its update succeed, both methods give a
    lower triangular factor of A + sigma v v^T, for A symmetric; otherwise of
    the update of the symmetric matrix with the lower triangle of A. *)
Theorem C105_update (F : realFieldType) n (llt : 'M[F]_n -> bool * 'M[F]_n) upd A v sigma :
  chol_ok llt -> update_ok upd -> (llt A).1 -> (upd (llt A).2 v sigma).1 ->
  let L := GetCholeskyUpdate llt upd A v sigma in
  [/\ InPlaceCholeskyUpdate llt upd A v sigma = L, lower_triangular L,
      symmetric A -> L *m L^T = A + sigma *: (v *m v^T) &
      L *m L^T = MakeSymmetricFromLower A + sigma *: (v *m v^T)].
Proof. exact (@update_lemma F n llt upd A v sigma). Qed.
Print Assumptions C105_update.

(** "A matrix without a Cholesky factor is reported": false, a matrix is
    always returned, here one that is not a factor. *)
Theorem C105_failure_reported_refuted (F : realFieldType) n (llt : 'M[F]_n.+1 -> bool * 'M[F]_n.+1) upd v :
  exists A : 'M[F]_n.+1, symmetric A /\ forall sigma, sigma <= 0 ->
    GetCholeskyUpdate llt upd A v sigma *m (GetCholeskyUpdate llt upd A v sigma)^T <> A + sigma *: (v *m v^T).
Proof. exact (@update_silent F n llt upd v). Qed.
Print Assumptions C105_failure_reported_refuted.

(** The first in-place call leaves the factor in the object, and the second one
    factorises it again. *)
Theorem C105_in_place_twice (F : realFieldType) (llt : 'M[F]_1 -> bool * 'M[F]_1) upd :
  chol_ok llt -> update_ok upd -> forall A : 'M[F]_1, 1 < A 0 0 -> (llt A).1 ->
  let A1 := InPlaceCholeskyUpdate llt upd A 0 0 in
  let A2 := InPlaceCholeskyUpdate llt upd A1 0 0 in
  (upd (llt A).2 0 0).1 -> (llt A1).1 -> (upd (llt A1).2 0 0).1 ->
  A1 *m A1^T = A /\ A2 *m A2^T = A1 /\ A2 *m A2^T <> A.
Proof. exact (@in_place_twice F llt upd). Qed.
Print Assumptions C105_in_place_twice.

(** "Two in-place updates give a factor of the matrix updated twice" is false. *)
Theorem C105_in_place_twice_refuted : exists (llt : 'M[rat]_1 -> bool * 'M[rat]_1) upd A v w s t,
  [/\ chol_ok llt, update_ok upd, symmetric A &
      let A1 := InPlaceCholeskyUpdate llt upd A v s in
      let A2 := InPlaceCholeskyUpdate llt upd A1 w t in
      [/\ (llt A).1, (upd (llt A).2 v s).1, (llt A1).1 & (upd (llt A1).2 w t).1] /\
      A2 *m A2^T <> A + s *: (v *m v^T) + t *: (w *m w^T)].
Proof. exact in_place_twice_witness. Qed.
Print Assumptions C105_in_place_twice_refuted.

Example C105_example : chol_ok llt1 /\ update_ok upd1 /\
  (let A1 := InPlaceCholeskyUpdate llt1 upd1 m16 0 0 in
   [/\ 1 < m16 0 0, (llt1 m16).1, (upd1 (llt1 m16).2 0 0).1, (llt1 A1).1 & (upd1 (llt1 A1).2 0 0).1]).
Proof. exact (conj llt1_ok (conj upd1_ok m16_ok)). Qed.

(** GetInverse and Inverse give the two-sided inverse. *)
Theorem C105_inverse (F : realFieldType) n (inv : 'M[F]_n -> 'M[F]_n) A :
  (forall B, B \in unitmx -> inv B *m B = 1%:M) -> A \in unitmx ->
  [/\ GetInverse inv A = Inverse inv A, GetInverse inv A *m A = 1%:M & A *m GetInverse inv A = 1%:M].
Proof. exact (@inverse_lemma F n inv A). Qed.
Print Assumptions C105_inverse.
Example C105_inverse_example : (forall B : 'M[rat]_2, B \in unitmx -> invmx B *m B = 1%:M) /\ (1%:M : 'M[rat]_2) \in unitmx.
Proof. by split; [exact: mulVmx|exact: unitmx1]. Qed.
