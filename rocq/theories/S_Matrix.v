(** Specification vocabulary for matrices, and the documented contracts of
    Eigen's factorisations. *)
From mathcomp Require Import all_ssreflect all_fingroup all_algebra.
From Verif Require Import Outcome.
Set Implicit Arguments.
Unset Strict Implicit.
Unset Printing Implicit Defensive.
Import GRing.Theory Num.Theory.
Local Open Scope ring_scope.

Section Spec.
Variable F : realFieldType.

Definition symmetric n (A : 'M[F]_n) := A^T = A.
Definition upper_triangular m n (A : 'M[F]_(m, n)) := forall (i : 'I_m) (j : 'I_n), (j < i)%N -> A i j = 0.
Definition lower_triangular m n (A : 'M[F]_(m, n)) := forall (i : 'I_m) (j : 'I_n), (i < j)%N -> A i j = 0.
Definition unit_diagonal n (A : 'M[F]_n) := forall i, A i i = 1.
Definition orthonormal_columns m n (Q : 'M[F]_(m, n)) := Q^T *m Q = 1%:M.
Definition sqnorm n (v : 'cV[F]_n) : F := \sum_i v i 0 ^+ 2.
Definition agree_upper m n (A B : 'M[F]_(m, n)) := forall (i : 'I_m) (j : 'I_n), (i <= j)%N -> A i j = B i j.
Definition agree_lower m n (A B : 'M[F]_(m, n)) := forall (i : 'I_m) (j : 'I_n), (j <= i)%N -> A i j = B i j.

(** x^T A x. *)
Definition quad n (A : 'M[F]_n) (x : 'cV[F]_n) : F := \sum_i \sum_j x i 0 * A i j * x j 0.
(** The four Penrose conditions. *)
Definition moore_penrose m n (A : 'M[F]_(m, n)) (P : 'M[F]_(n, m)) :=
  [/\ A *m P *m A = A, P *m A *m P = P, (A *m P)^T = A *m P & (P *m A)^T = P *m A].

(** x minimises |A x - b|^2 subject to C x = d. *)
Definition constrained_minimiser m p n (A : 'M[F]_(m, n)) (b : 'cV[F]_m) (C : 'M[F]_(p, n)) (d : 'cV[F]_p) (x : 'cV[F]_n) :=
  C *m x = d /\ forall x', C *m x' = d -> sqnorm (A *m x - b) <= sqnorm (A *m x' - b).

(** ** Contracts *)
(** Thin SVD (JacobiSVD). *)
Definition svd_of m n k (A : 'M[F]_(m, n)) (U : 'M[F]_(m, k)) (S : 'cV[F]_k) (V : 'M[F]_(n, k)) :=
  [/\ orthonormal_columns U, orthonormal_columns V, A = U *m diag_mx S^T *m V^T & forall i, 0 <= S i 0].
(** HouseholderQR: Q is orthogonal and A = Q T, T being the upper triangle of matrixQR(). *)
Definition qr_of m n (A : 'M[F]_(m, n)) (Q : 'M[F]_m) (mqr : 'M[F]_(m, n)) :=
  orthonormal_columns Q /\ exists T, [/\ upper_triangular T, agree_upper T mqr & A = Q *m T].
(** PartialPivLU: row i of A is row perm(i) of L U, L and U being packed in matrixLU(). *)
Definition lu_of n (A : 'M[F]_n) (perm : 'S_n) (mlu : 'M[F]_n) :=
  exists L U, [/\ lower_triangular L, unit_diagonal L & forall i j : 'I_n, (j < i)%N -> L i j = mlu i j] /\
              [/\ upper_triangular U, agree_upper U mlu & forall i j, A i j = (L *m U) (perm i) j].
(** LLT reads the lower triangle only; on success L L^T is the symmetric
    matrix with that lower triangle. *)
Definition llt_ok n (llt : 'M[F]_n -> option 'M[F]_n) :=
  (forall A B, agree_lower A B -> llt A = llt B) /\
  (forall A L, llt A = Some L ->
     lower_triangular L /\ forall B, symmetric B -> agree_lower A B -> L *m L^T = B).
(** LLT and its rank one update, with the success flag. *)
Definition chol_ok n (llt : 'M[F]_n -> bool * 'M[F]_n) :=
  (forall A B, agree_lower A B -> llt A = llt B) /\
  (forall A, (llt A).1 -> lower_triangular (llt A).2 /\
     forall B, symmetric B -> agree_lower A B -> (llt A).2 *m (llt A).2^T = B).
Definition update_ok n (upd : 'M[F]_n -> 'cV[F]_n -> F -> bool * 'M[F]_n) :=
  forall L v sigma, lower_triangular L -> (upd L v sigma).1 ->
    lower_triangular (upd L v sigma).2 /\
    (upd L v sigma).2 *m (upd L v sigma).2^T = L *m L^T + sigma *: (v *m v^T).
(** FullPivLU::solve returns a solution when there is one. *)
Definition solve_ok n (lu : 'M[F]_n -> 'cV[F]_n -> 'cV[F]_n) :=
  forall M d, (exists y, M *m y = d) -> M *m lu M d = d.
(** BDCSVD::solve returns a least squares solution. *)
Definition least_squares_ok m n (ls : 'M[F]_(m, n) -> 'cV[F]_m -> 'cV[F]_n) :=
  forall M c z, sqnorm (M *m ls M c - c) <= sqnorm (M *m z - c).
(** Real eigenvalues, with multiplicities, of any square matrix. *)
Definition eigen_real n (A : 'M[F]_n) (re : seq F) := char_poly A = \prod_(x <- re) ('X - x%:P).
(** Real parts of the eigenvalues of a symmetric matrix: a diagonalisation in
    an orthonormal basis. *)
Definition eigen_symmetric n (A : 'M[F]_n) (re : seq F) :=
  exists (Q : 'M[F]_n) (w : 'rV[F]_n), [/\ orthonormal_columns Q, A = Q *m diag_mx w *m Q^T & re = [seq w 0 i | i <- enum 'I_n]].
(** std::sort with operator< on a total order. *)
Definition sort_ok (stdsort : seq F -> seq F) :=
  forall v, sorted <=%R (stdsort v) /\ perm_eq (stdsort v) v.
End Spec.
