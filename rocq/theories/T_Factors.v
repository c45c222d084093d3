(** C149: what the triangular factors tell about a matrix. *)
From mathcomp Require Import all_ssreflect all_fingroup all_algebra.
From Verif Require Import Outcome M_Matrix S_Matrix L_Matrix L_MatrixEx L_Factors.
Set Implicit Arguments.
Unset Strict Implicit.
Unset Printing Implicit Defensive.
Import Order.Theory GRing.Theory Num.Theory.
Local Open Scope ring_scope.

(** C149: the determinant is the product of the diagonal of U, with the sign of
    the row exchanges; the matrix is invertible when no diagonal entry is 0. *)
Theorem C149_lu_determinant (F : realFieldType) n (A : 'M[F]_n) perm mlu P L U :
  lu_of A perm mlu -> GetLUDecomposition perm mlu = (P, L, U) ->
  \det A = (-1) ^+ perm * \prod_i U i i /\ (A \in unitmx <-> forall i, U i i != 0).
Proof. exact (@lu_det_pf F n A perm mlu P L U). Qed.
Print Assumptions C149_lu_determinant.
Example C149_lu_example : lu_of exA (tperm 0 1) exmlu /\ \det exA = - 2%:R.
Proof. exact (conj ex_lu ex_lu_det). Qed.

(** C149: the Gram determinant is the square of the product of the diagonal of
    R; the columns are independent when no diagonal entry is 0 ... *)
Theorem C149_qr_determinant (F : realFieldType) bm m n (A : 'M[F]_(m, n)) Q mqr Q1 R1 :
  (n <= m)%N -> qr_of A Q mqr -> GetQRDecomposition bm Q mqr = Ok (Q1, R1) ->
  \det (A^T *m A) = (\prod_i R1 i i) ^+ 2 /\
  ((forall w : 'cV[F]_n, A *m w = 0 -> w = 0) <-> forall i, R1 i i != 0).
Proof. exact (@qr_det_pf F bm m n A Q mqr Q1 R1). Qed.
Print Assumptions C149_qr_determinant.

(** ... and then any two factorisations agree up to the signs of the columns
    of Q and of the rows of R. *)
Theorem C149_qr_signs (F : realFieldType) bm bm' m n (A : 'M[F]_(m, n)) Q mqr Q' mqr' Q1 R1 Q2 R2 :
  (n <= m)%N -> qr_of A Q mqr -> qr_of A Q' mqr' ->
  GetQRDecomposition bm Q mqr = Ok (Q1, R1) -> GetQRDecomposition bm' Q' mqr' = Ok (Q2, R2) ->
  (forall w : 'cV[F]_n, A *m w = 0 -> w = 0) ->
  exists e : 'rV[F]_n, (forall i, e 0 i = 1 \/ e 0 i = -1) /\ Q2 = Q1 *m diag_mx e /\ R2 = diag_mx e *m R1.
Proof. exact (@qr_same_pf F bm bm' m n A Q mqr Q' mqr' Q1 R1 Q2 R2). Qed.
Print Assumptions C149_qr_signs.
Example C149_qr_example : (2 <= 2)%N /\ qr_of (rot *m exT) rot exmqr /\ qr_of (rot *m exT) (- rot) (- exmqr) /\
  forall w : 'cV[rat]_2, rot *m exT *m w = 0 -> w = 0.
Proof. exact (conj isT (conj ex_qr (conj ex_qr_opp ex_qr_free))). Qed.

(** C149: a symmetric matrix for which a Cholesky factor is returned is positive
    semi-definite; its determinant is the square of the product of the diagonal;
    it is invertible, and positive definite, when no diagonal entry is 0. *)
Theorem C149_cholesky (F : realFieldType) n llt (A : 'M[F]_n) L :
  llt_ok llt -> symmetric A -> GetCholeskyDecomposition llt A = Ok L ->
  [/\ forall x, 0 <= quad A x, \det A = (\prod_i L i i) ^+ 2, A \in unitmx <-> (forall i, L i i != 0) &
      (forall i, L i i != 0) <-> forall x, x != 0 -> 0 < quad A x].
Proof. exact (@chol_pf F n llt A L). Qed.
Print Assumptions C149_cholesky.

(** C149: factors with positive diagonals are equal. *)
Theorem C149_cholesky_unique (F : realFieldType) n llt llt' (A : 'M[F]_n) L L' :
  llt_ok llt -> llt_ok llt' -> symmetric A ->
  GetCholeskyDecomposition llt A = Ok L -> GetCholeskyDecomposition llt' A = Ok L' ->
  (forall i, 0 < L i i) -> (forall i, 0 < L' i i) -> L = L'.
Proof. exact (@chol_same_pf F n llt llt' A L L'). Qed.
Print Assumptions C149_cholesky_unique.

(** C149: when a Cholesky factor is returned IsPositiveSemiDefinite answers true. *)
Theorem C149_cholesky_positive (F : realFieldType) n llt (A : 'M[F]_n) L re eps :
  llt_ok llt -> symmetric A -> GetCholeskyDecomposition llt A = Ok L ->
  eigen_symmetric A re -> 0 < eps -> IsPositiveSemiDefinite A re eps = true.
Proof. exact (@chol_psd_pf F n llt A L re eps). Qed.
Print Assumptions C149_cholesky_positive.
Example C149_cholesky_example : llt_ok llt_one /\ symmetric syA /\ GetCholeskyDecomposition llt_one syA = Ok nsL /\ forall i, 0 < nsL i i.
Proof. exact (conj llt_one_ok (conj syA_symmetric (conj syA_result nsL_pos))). Qed.
Example C149_positive_example : llt_ok llt_four /\ symmetric ((4%:R)%:M : 'M[rat]_1) /\
  GetCholeskyDecomposition llt_four ((4%:R)%:M : 'M[rat]_1) = Ok (2%:R)%:M /\ eigen_symmetric ((4%:R)%:M : 'M[rat]_1) [:: 4%:R].
Proof. exact ex_four. Qed.
