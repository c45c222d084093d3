(** Theorems about Matrix.h and VectorN.h: C78-C81, C95, C96. *)
From mathcomp Require Import all_ssreflect all_fingroup all_algebra.
From Verif Require Import Outcome M_Matrix S_Matrix L_Matrix L_MatrixEx.
Set Implicit Arguments.
Unset Strict Implicit.
Unset Printing Implicit Defensive.
Import Order.Theory GRing.Theory Num.Theory.
Local Open Scope ring_scope.

(** ** C78 *)
Theorem C78_cholesky_ignores_the_upper_triangle (F : realFieldType) n llt (A : 'M[F]_n) : llt_ok llt ->
  (forall B, agree_lower A B -> GetCholeskyDecomposition llt A = GetCholeskyDecomposition llt B) /\
  forall L, GetCholeskyDecomposition llt A = Ok L ->
    [/\ lower_triangular L, symmetric A -> L *m L^T = A & ~ symmetric A -> L *m L^T <> A].
Proof. exact (@cholesky_all F n llt A). Qed.
Print Assumptions C78_cholesky_ignores_the_upper_triangle.
Example C78_example : llt_ok llt_one /\
  GetCholeskyDecomposition llt_one syA = Ok nsL /\ symmetric syA /\
  GetCholeskyDecomposition llt_one nsA = Ok nsL /\ ~ symmetric nsA.
Proof. exact (conj llt_one_ok (conj syA_result (conj syA_symmetric (conj nsA_result nsA_not_symmetric)))). Qed.

Theorem C78_cholesky_rejects_non_square (F : realFieldType) m n llt (A : 'M[F]_(m, n)) :
  m <> n -> GetCholeskyDecomposition llt A = Throw RuntimeError.
Proof. exact (@cholesky_nonsquare F m n llt A). Qed.
Print Assumptions C78_cholesky_rejects_non_square.
Example C78_non_square_example : 2%N <> 3%N.
Proof. by []. Qed.

(** The claim "IsSymmetric() tells whether the matrix is symmetric". *)
Theorem C78_IsSymmetric_refuted : exists A : 'M[rat]_2, IsSymmetric A = true /\ ~ symmetric A.
Proof. exact (ex_intro _ nsA (conj (always_symmetric nsA) nsA_not_symmetric)). Qed.
Print Assumptions C78_IsSymmetric_refuted.

(** The claim "GetCholeskyDecomposition throws on a non symmetric matrix". *)
Theorem C78_cholesky_guard_refuted : exists llt (A L : 'M[rat]_2),
  [/\ llt_ok llt, ~ symmetric A & GetCholeskyDecomposition llt A = Ok L].
Proof. exact (ex_intro _ llt_one (ex_intro _ nsA (ex_intro _ nsL (And3 llt_one_ok nsA_not_symmetric nsA_result)))). Qed.
Print Assumptions C78_cholesky_guard_refuted.

(** ** C79 *)
Theorem C79_pseudo_inverse (F : realFieldType) m n k (A : 'M[F]_(m, n)) (U : 'M[F]_(m, k)) S (V : 'M[F]_(n, k)) (tol : F) :
  svd_of A U S V -> 0 <= tol ->
  (moore_penrose A (GetPseudoInverse U S V tol) <-> forall i, S i 0 = 0 \/ tol < S i 0).
Proof. exact (fun H => @pinv_iff F m n k A U S V tol H). Qed.
Print Assumptions C79_pseudo_inverse.
Example C79_example : svd_of svA rot (col2 3%:R 0) rot /\ (0 : rat) <= 1%:R / 10%:R /\
  forall i, (col2 3%:R 0) i 0 = 0 \/ 1%:R / 10%:R < (col2 3%:R 0) i 0.
Proof. exact (conj svA_svd (conj isT svA_ok)). Qed.

Theorem C79_pseudo_inverse_of_truncated (F : realFieldType) m n k (A : 'M[F]_(m, n)) (U : 'M[F]_(m, k)) S (V : 'M[F]_(n, k)) (tol : F) :
  svd_of A U S V -> 0 <= tol ->
  moore_penrose (U *m diag_mx (\row_i (if tol < S i 0 then S i 0 else 0)) *m V^T) (GetPseudoInverse U S V tol).
Proof. exact (@pinv_truncated F m n k A U S V tol). Qed.
Print Assumptions C79_pseudo_inverse_of_truncated.
Example C79_truncated_example : svd_of svA rot (col2 3%:R 0) rot /\ (0 : rat) <= 4%:R.
Proof. exact (conj svA_svd isT). Qed.

(** The four Penrose conditions determine the inverse. *)
Theorem C79_moore_penrose_unique (F : realFieldType) m n (A : 'M[F]_(m, n)) P Q :
  moore_penrose A P -> moore_penrose A Q -> P = Q.
Proof. exact (@mp_unique F m n A P Q). Qed.
Print Assumptions C79_moore_penrose_unique.

(** The claim "an invertible matrix times its pseudo-inverse is the identity":
    for every positive tolerance some invertible matrix is sent to zero. *)
Theorem C79_invertible_refuted (F : realFieldType) (tol : F) : 0 < tol ->
  exists A S : 'M[F]_1, [/\ svd_of A 1%:M S 1%:M, A \in unitmx & GetPseudoInverse 1%:M S 1%:M tol = 0].
Proof. exact (@small_lost F tol). Qed.
Print Assumptions C79_invertible_refuted.

(** ** C80 *)
Theorem C80_constrained_least_squares (F : realFieldType) bm m p r (A : 'M[F]_(m, p + r)) b (C : 'M[F]_(p, p + r)) d Q mqr lu ls :
  qr_of C^T Q mqr -> solve_ok lu -> least_squares_ok ls ->
  bm = Release \/ ((0 < r) && (p + r < m))%N -> row_free C ->
  exists x, LeastSquareSolverConstraint bm A b d Q mqr lu ls = Ok x /\ constrained_minimiser A b C d x.
Proof. exact (fun H1 H2 H3 => @lssc_optimal F m p r A b C d Q mqr lu ls H1 H2 H3 bm). Qed.
Print Assumptions C80_constrained_least_squares.
Example C80_example : qr_of csC^T (rot : 'M[rat]_(1 + 1)) csM /\ solve_ok (@lu0 [realFieldType of rat] 1) /\
  least_squares_ok (@ls0 [realFieldType of rat] 3 1) /\ ((0 < 1) && (1 + 1 < 3))%N /\ row_free csC.
Proof. exact (conj cs_qr (conj (@lu0_ok _ 1) (conj (@ls0_ok _ 3 1) (conj isT cs_free)))). Qed.

(** The factorisation contracts used above can be met in every dimension. *)
Theorem C80_contracts_satisfiable (F : realFieldType) m n :
  (exists lu, @solve_ok F n lu) /\ exists ls, @least_squares_ok F m n ls.
Proof. exact (conj (ex_intro _ _ (@lu0_ok F n)) (ex_intro _ _ (@ls0_ok F m n))). Qed.
Print Assumptions C80_contracts_satisfiable.

Theorem C80_minimiser_unique (F : realFieldType) m p n (A : 'M[F]_(m, n)) b (C : 'M[F]_(p, n)) d x1 x2 :
  (forall x : 'cV[F]_n, A *m x = 0 -> C *m x = 0 -> x = 0) ->
  constrained_minimiser A b C d x1 -> constrained_minimiser A b C d x2 -> x1 = x2.
Proof. exact (@constrained_unique F m p n A b C d x1 x2). Qed.
Print Assumptions C80_minimiser_unique.

(** Without the full rank hypothesis the constraint still holds when it can. *)
Theorem C80_feasible (F : realFieldType) m p r (A : 'M[F]_(m, p + r)) b (C : 'M[F]_(p, p + r)) d Q mqr lu ls x :
  qr_of C^T Q mqr -> solve_ok lu -> (exists x0, C *m x0 = d) ->
  LeastSquareSolverConstraint Release A b d Q mqr lu ls = Ok x -> C *m x = d.
Proof. exact (fun H1 H2 => @lssc_feasible F m p r A b C d Q mqr lu ls H1 H2 x). Qed.
Print Assumptions C80_feasible.
Example C80_feasible_example : qr_of csC^T (rot : 'M[rat]_(1 + 1)) csM /\ solve_ok (@lu0 [realFieldType of rat] 1) /\
  exists x0, csC *m x0 = csC *m (const_mx 1 : 'cV[rat]_2).
Proof. exact (conj cs_qr (conj (@lu0_ok _ 1) (ex_intro _ _ erefl))). Qed.

(** but the minimum can be missed. *)
Theorem C80_rank_deficient_refuted :
  exists (A : 'M[rat]_(3, 1 + 1)) b (C : 'M[rat]_(1, 1 + 1)) d Q mqr lu ls,
    [/\ qr_of C^T Q mqr, solve_ok lu & least_squares_ok ls] /\ (exists x0, C *m x0 = d) /\
    exists x, LeastSquareSolverConstraint Debug A b d Q mqr lu ls = Ok x /\ ~ constrained_minimiser A b C d x.
Proof. exact rank_deficient_witness. Qed.
Print Assumptions C80_rank_deficient_refuted.

Theorem C80_debug_abort (F : realFieldType) m p r (A : 'M[F]_(m, p + r)) b d Q mqr lu ls :
  ~~ ((0 < r) && (p + r < m))%N -> LeastSquareSolverConstraint Debug A b d Q mqr lu ls = Abort.
Proof. exact (@lssc_debug F m p r A b d Q mqr lu ls). Qed.
Print Assumptions C80_debug_abort.
Example C80_debug_abort_example : ~~ ((0 < 1) && (2 + 1 < 3))%N.
Proof. by []. Qed.

(** ** C81 *)
Theorem C81_make_symmetric (F : realFieldType) n (A : 'M[F]_n) :
  [/\ symmetric (MakeSymmetricFromUpper A), agree_upper (MakeSymmetricFromUpper A) A,
      symmetric (MakeSymmetricFromLower A) & agree_lower (MakeSymmetricFromLower A) A].
Proof. exact (make_symmetric_all A). Qed.
Print Assumptions C81_make_symmetric.
Example C81_make_symmetric_example : MakeSymmetricFromUpper nsA = mx2 4%:R 7%:R 7%:R 2%:R /\
  MakeSymmetricFromLower nsA = mx2 4%:R 2%:R 2%:R 2%:R.
Proof. by split; apply: mx2_eq; rewrite !mxE. Qed.

Theorem C81_make_symmetric_keeps_symmetric (F : realFieldType) n (A : 'M[F]_n) : symmetric A ->
  MakeSymmetricFromUpper A = A /\ MakeSymmetricFromLower A = A.
Proof. exact (@symmetric_fixed F n A). Qed.
Print Assumptions C81_make_symmetric_keeps_symmetric.
Example C81_keeps_example : symmetric syA.
Proof. exact syA_symmetric. Qed.

Theorem C81_sort (F : realFieldType) (stdsort : seq F -> seq F) v : sort_ok stdsort ->
  [/\ perm_eq (VectorSort stdsort true v) v, sorted <=%R (VectorSort stdsort true v),
      perm_eq (VectorSort stdsort false v) v & sorted >=%R (VectorSort stdsort false v)].
Proof. exact (@sort_lemma F stdsort v). Qed.
Print Assumptions C81_sort.
Example C81_sort_example : sort_ok (sort (<=%R : rel rat)) /\
  VectorSort (sort (<=%R : rel rat)) false [:: 2%:R; 3%:R; 1] = [:: 3%:R; 2%:R; 1].
Proof. exact (conj (@sort_meets [realFieldType of rat]) erefl). Qed.

Theorem C81_sort_determined (F : realFieldType) (s1 s2 : seq F -> seq F) asc v : sort_ok s1 -> sort_ok s2 ->
  VectorSort s1 asc v = VectorSort s2 asc v.
Proof. exact (@sort_unique_lemma F s1 s2 asc v). Qed.
Print Assumptions C81_sort_determined.

Theorem C81_reverse (F : realFieldType) (v : seq F) : VectorReverse (VectorReverse v) = v /\
  size (VectorReverse v) = size v /\ forall i, (i < size v)%N -> nth 0 (VectorReverse v) i = nth 0 v (size v - i.+1).
Proof. exact (reverse_lemma v). Qed.
Print Assumptions C81_reverse.

Theorem C81_square_and_diagonal (F : realFieldType) n (v : 'cV[F]_n) : (forall i j, GetMatrixSquare v i j = v i 0 * v j 0) /\
  (forall i j, GetDiagonalMatrix v i j = if i == j then v i 0 else 0) /\
  symmetric (GetMatrixSquare v) /\ symmetric (GetDiagonalMatrix v).
Proof. exact (square_lemma v). Qed.
Print Assumptions C81_square_and_diagonal.

(** ** C95 *)
Theorem C95_thin_qr (F : realFieldType) bm m n (A : 'M[F]_(m, n)) Q mqr : (n <= m)%N -> qr_of A Q mqr ->
  exists Q1 R1, GetQRDecomposition bm Q mqr = Ok (Q1, R1) /\
    [/\ orthonormal_columns Q1, upper_triangular R1 & A = Q1 *m R1].
Proof. exact (@thin_qr_lemma F bm m n A Q mqr). Qed.
Print Assumptions C95_thin_qr.
Theorem C95_full_qr (F : realFieldType) bm m n (A : 'M[F]_(m, n)) Q mqr (H : (n <= m)%N) : qr_of A Q mqr ->
  exists R1, GetFullQRDecomposition bm Q mqr = Ok (Q, R1) /\
    [/\ orthonormal_columns Q, upper_triangular R1 & forall i j, A i j = \sum_k Q i (widen_ord H k) * R1 k j].
Proof. exact (@full_qr_lemma F bm m n A Q mqr H). Qed.
Print Assumptions C95_full_qr.
Example C95_qr_example : (1 <= 2)%N /\ qr_of csC^T (rot : 'M[rat]_(1 + 1)) csM.
Proof. exact (conj isT cs_qr). Qed.
Theorem C95_wide_matrix (F : realFieldType) bm m n Q (mqr : 'M[F]_(m, n)) : (m < n)%N ->
  GetQRDecomposition bm Q mqr = (if bm is Debug then Abort else UB) /\
  GetFullQRDecomposition bm Q mqr = (if bm is Debug then Abort else UB).
Proof. exact (@thin_qr_bad F bm m n Q mqr). Qed.
Print Assumptions C95_wide_matrix.
Theorem C95_lu (F : realFieldType) n (A : 'M[F]_n) perm mlu : lu_of A perm mlu ->
  exists P L U, GetLUDecomposition perm mlu = (P, L, U) /\
    [/\ is_perm_mx P, lower_triangular L /\ unit_diagonal L, upper_triangular U & P *m A = L *m U].
Proof. exact (@lu_lemma F n A perm mlu). Qed.
Print Assumptions C95_lu.
Example C95_lu_example : lu_of exA (tperm 0 1) exmlu.
Proof. exact ex_lu. Qed.

(** ** C96 *)
Theorem C96_positive_semi_definite (F : realFieldType) n (A : 'M[F]_n) re eps : eigen_symmetric A re ->
  (IsPositiveSemiDefinite A re eps = true <-> forall x, x != 0 -> - eps * sqnorm x < quad A x).
Proof. exact (@psd_lemma F n A re eps). Qed.
Print Assumptions C96_positive_semi_definite.
Example C96_example : eigen_symmetric psA [:: 1; 2%:R] /\ IsPositiveSemiDefinite psA [:: 1; 2%:R] (1%:R / 2%:R) = true.
Proof. exact (conj psA_eigen isT). Qed.
(** A matrix that is not square is never positive semi-definite. *)
Theorem C96_not_square (F : realFieldType) m n (A : 'M[F]_(m, n)) re eps : m <> n -> IsPositiveSemiDefinite A re eps = false.
Proof. exact (@psd_not_square F m n A re eps). Qed.
Print Assumptions C96_not_square.
Example C96_not_square_example : IsPositiveSemiDefinite (0 : 'M[rat]_(2, 3)) [:: 1] 1 = false.
Proof. by apply: C96_not_square. Qed.
(** The claim for matrices that are not symmetric. *)
Theorem C96_nonsymmetric_refuted : exists (A : 'M[rat]_2) re eps x,
  [/\ eigen_real A re, 0 < eps, IsPositiveSemiDefinite A re eps = true & quad A x < - eps * sqnorm x].
Proof. exact (ex_intro _ jordan (ex_intro _ [:: 1; 1] (ex_intro _ (1%:R / 2%:R) (ex_intro _ (col2 1 (- 1)) (And4 jordan_eigen isT isT jordan_quad))))). Qed.
Print Assumptions C96_nonsymmetric_refuted.
