(** C148: solving systems with the pseudo-inverse. *)
From mathcomp Require Import all_ssreflect all_fingroup all_algebra.
From Verif Require Import Outcome M_Matrix S_Matrix L_Matrix L_MatrixEx L_Pinv.
Set Implicit Arguments.
Unset Strict Implicit.
Unset Printing Implicit Defensive.
Import Order.Theory GRing.Theory Num.Theory.
Local Open Scope ring_scope.

(** C148: the pseudo-inverse times b is the shortest of the least squares
    solutions, and the only one of that length. *)
Theorem C148_least_squares (F : realFieldType) m n k (A : 'M[F]_(m, n)) (U : 'M[F]_(m, k)) S (V : 'M[F]_(n, k)) (tol : F) (b : 'cV[F]_m) :
  svd_of A U S V -> 0 <= tol -> (forall i, S i 0 = 0 \/ tol < S i 0) ->
  let x := GetPseudoInverse U S V tol *m b in
  (forall z, sqnorm (A *m x - b) <= sqnorm (A *m z - b)) /\
  (forall z, sqnorm (A *m z - b) <= sqnorm (A *m x - b) -> sqnorm x <= sqnorm z /\ (sqnorm z <= sqnorm x -> z = x)).
Proof. exact (fun H => @least_pf F m n k A U S V tol H b). Qed.
Print Assumptions C148_least_squares.
Example C148_least_squares_example : svd_of svA rot (col2 3%:R 0) rot /\ (0 : rat) <= 1%:R / 10%:R /\
  (forall i, (col2 3%:R 0) i 0 = 0 \/ 1%:R / 10%:R < (col2 3%:R 0) i 0) /\
  GetPseudoInverse rot (col2 3%:R 0) rot (1%:R / 10%:R) *m col2 25%:R 0 = col2 3%:R 4%:R.
Proof. exact (conj svA_svd (conj isT (conj svA_ok ex_value))). Qed.

(** C148: it solves the systems that have a solution. *)
Theorem C148_solves (F : realFieldType) m n k (A : 'M[F]_(m, n)) (U : 'M[F]_(m, k)) S (V : 'M[F]_(n, k)) (tol : F) (b : 'cV[F]_m) :
  svd_of A U S V -> 0 <= tol -> (forall i, S i 0 = 0 \/ tol < S i 0) ->
  (exists y, A *m y = b) -> A *m (GetPseudoInverse U S V tol *m b) = b.
Proof. exact (fun H => @solves_pf F m n k A U S V tol H b). Qed.
Print Assumptions C148_solves.
Example C148_solves_example : exists y, svA *m y = col2 3%:R 4%:R.
Proof. exact sv_image. Qed.

(** C148: left inverse of a one-to-one matrix, right inverse of a matrix
    reaching every vector, inverse of an invertible matrix. *)
Theorem C148_left_inverse (F : realFieldType) m n k (A : 'M[F]_(m, n)) (U : 'M[F]_(m, k)) S (V : 'M[F]_(n, k)) (tol : F) :
  svd_of A U S V -> 0 <= tol -> (forall i, S i 0 = 0 \/ tol < S i 0) ->
  (forall w : 'cV[F]_n, A *m w = 0 -> w = 0) -> GetPseudoInverse U S V tol *m A = 1%:M.
Proof. exact (fun H => @left_pf F m n k A U S V tol H). Qed.
Print Assumptions C148_left_inverse.
Theorem C148_right_inverse (F : realFieldType) m n k (A : 'M[F]_(m, n)) (U : 'M[F]_(m, k)) S (V : 'M[F]_(n, k)) (tol : F) :
  svd_of A U S V -> 0 <= tol -> (forall i, S i 0 = 0 \/ tol < S i 0) ->
  (forall b : 'cV[F]_m, exists y, A *m y = b) -> A *m GetPseudoInverse U S V tol = 1%:M.
Proof. exact (fun H => @right_pf F m n k A U S V tol H). Qed.
Print Assumptions C148_right_inverse.
Theorem C148_inverse (F : realFieldType) n k (A : 'M[F]_n) (U : 'M[F]_(n, k)) S (V : 'M[F]_(n, k)) (tol : F) :
  svd_of A U S V -> 0 <= tol -> (forall i, S i 0 = 0 \/ tol < S i 0) ->
  A \in unitmx -> GetPseudoInverse U S V tol = invmx A.
Proof. exact (@inverse_pf F n k A U S V tol). Qed.
Print Assumptions C148_inverse.
Example C148_inverse_example : svd_of psA rot (col2 1 2%:R) rot /\ (0 : rat) <= 1%:R / 10%:R /\
  (forall i, (col2 1 2%:R) i 0 = 0 \/ 1%:R / 10%:R < (col2 1 2%:R) i 0) /\ psA \in unitmx.
Proof. exact (conj ps_svd (conj isT (conj ps_kept ps_unit))). Qed.

(** C148: the pseudo-inverse of the pseudo-inverse is the matrix. *)
Theorem C148_involution (F : realFieldType) m n k l (A : 'M[F]_(m, n)) (U : 'M[F]_(m, k)) S (V : 'M[F]_(n, k)) (tol : F)
    (U' : 'M[F]_(n, l)) S' (V' : 'M[F]_(m, l)) (tol' : F) :
  svd_of A U S V -> 0 <= tol -> (forall i, S i 0 = 0 \/ tol < S i 0) ->
  svd_of (GetPseudoInverse U S V tol) U' S' V' -> 0 <= tol' -> (forall i, S' i 0 = 0 \/ tol' < S' i 0) ->
  GetPseudoInverse U' S' V' tol' = A.
Proof. exact (@involution_pf F m n k l A U S V tol U' S' V' tol'). Qed.
Print Assumptions C148_involution.

(** C148: the answer depends on the matrix and the tolerance only, not on the
    singular value decomposition found. *)
Theorem C148_any_decomposition (F : realFieldType) m n k l (A : 'M[F]_(m, n)) (tol : F) (U : 'M[F]_(m, k)) S (V : 'M[F]_(n, k))
    (U' : 'M[F]_(m, l)) S' (V' : 'M[F]_(n, l)) :
  0 <= tol -> svd_of A U S V -> svd_of A U' S' V' -> GetPseudoInverse U S V tol = GetPseudoInverse U' S' V' tol.
Proof. exact (fun T0 => @same_pf F m n A tol T0 k l U S V U' S' V'). Qed.
Print Assumptions C148_any_decomposition.
Example C148_any_decomposition_example :
  svd_of (1%:M : 'M[rat]_2) 1%:M (col2 1 1) 1%:M /\ svd_of (1%:M : 'M[rat]_2) rot (col2 1 1) rot /\ rot <> 1%:M.
Proof. exact ex_two. Qed.

(** C148: whatever the singular values, a positive tolerance bounds the
    solution by |b| / tol ... *)
Theorem C148_bounded (F : realFieldType) m n k (A : 'M[F]_(m, n)) (U : 'M[F]_(m, k)) S (V : 'M[F]_(n, k)) (tol : F) (b : 'cV[F]_m) :
  svd_of A U S V -> 0 < tol -> sqnorm (GetPseudoInverse U S V tol *m b) <= sqnorm b / tol ^+ 2.
Proof. exact (fun H => @bounded_pf F m n k A U S V tol H b). Qed.
Print Assumptions C148_bounded.

(** ... leaves at most tol |y| of a system solved by y ... *)
Theorem C148_consistent (F : realFieldType) m n k (A : 'M[F]_(m, n)) (U : 'M[F]_(m, k)) S (V : 'M[F]_(n, k)) (tol : F) (y : 'cV[F]_n) :
  svd_of A U S V -> 0 <= tol ->
  sqnorm (A *m (GetPseudoInverse U S V tol *m (A *m y)) - A *m y) <= tol ^+ 2 * sqnorm y.
Proof. exact (fun H => @consistent_pf F m n k A U S V tol H y). Qed.
Print Assumptions C148_consistent.

(** ... and misses the residual of any z by at most tol |z| (the square of a
    sum of two norms, weighted by any t > 0). *)
Theorem C148_residual (F : realFieldType) m n k (A : 'M[F]_(m, n)) (U : 'M[F]_(m, k)) S (V : 'M[F]_(n, k)) (tol : F) (b : 'cV[F]_m) (z : 'cV[F]_n) (t : F) :
  svd_of A U S V -> 0 <= tol -> 0 < t ->
  sqnorm (A *m (GetPseudoInverse U S V tol *m b) - b) <= (1 + t) * sqnorm (A *m z - b) + (1 + t^-1) * (tol ^+ 2 * sqnorm z).
Proof. exact (fun H => @residual_pf F m n k A U S V tol H b z t). Qed.
Print Assumptions C148_residual.
(** With the tolerance 3/2 the singular value 1 is dropped. *)
Example C148_truncated_example : svd_of psA rot (col2 1 2%:R) rot /\ (0 : rat) < 3%:R / 2%:R.
Proof. exact (conj ps_svd isT). Qed.
