(** Model of src/MathUtils/Matrix.h (MatrixMN) for real scalars: matrices over
    an ordered field, with exact arithmetic.  Matrix33.h and Matrix66.h repeat
    the same bodies at the sizes 3 x 3 and 6 x 6.

    The factorisations themselves are Eigen's and are not in /repo.  Their raw
    results are arguments of the definitions below, and S_Matrix.v states what
    Eigen documents about them; the code modelled here is what Matrix.h does
    with these results.  adjoint() is the transpose (real scalars).  Not
    modelled: print, Randomize, the tolerance of IsEqual / IsIdentity (Eigen's
    isApprox), IsOrthogonal (Eigen's isOrthogonal accepts vectors only, so an
    instantiation does not compile), Eigenvalues. *)
From mathcomp Require Import all_ssreflect all_fingroup all_algebra.
From Verif Require Import Outcome.
Set Implicit Arguments.
Unset Strict Implicit.
Unset Printing Implicit Defensive.
Import GRing.Theory Num.Theory.
Local Open Scope ring_scope.

Section Matrix.
Variable F : realFieldType.

(** Eigen's triangularView<Upper>, <StrictlyLower> and
    selfadjointView<Upper>, <Lower>, assigned to a dense matrix. *)
Definition upper_view m n (A : 'M[F]_(m, n)) : 'M[F]_(m, n) :=
  \matrix_(i, j) (if (i <= j)%N then A i j else 0).
Definition strict_lower_view m n (A : 'M[F]_(m, n)) : 'M[F]_(m, n) :=
  \matrix_(i, j) (if (j < i)%N then A i j else 0).
Definition sym_upper_view n (A : 'M[F]_n) : 'M[F]_n :=
  \matrix_(i, j) (if (i <= j)%N then A i j else A j i).
Definition sym_lower_view n (A : 'M[F]_n) : 'M[F]_n :=
  \matrix_(i, j) (if (j <= i)%N then A i j else A j i).

(** Matrix.h:186-198. *)
Definition MakeSymmetricFromUpper n (A : 'M[F]_n) : 'M[F]_n := sym_upper_view A.
Definition MakeSymmetricFromLower n (A : 'M[F]_n) : 'M[F]_n := sym_lower_view A.

(** Matrix.h:264-268 (transposeInPlace). *)
Definition Transpose m n (A : 'M[F]_(m, n)) : 'M[F]_(n, m) := A^T.

(** Matrix.h:287-297 on a square matrix: the comparison with the adjoint is
    computed into an unused variable. *)
Definition IsSymmetric n (A : 'M[F]_n) : bool := true.

(** Matrix.h:309-312. *)
Definition IsSquare m n (A : 'M[F]_(m, n)) : bool := m == n.

(** Matrix.h:282-285; [re] is the list of real parts of Eigen's eigenvalues(). *)
Definition IsPositiveSemiDefinite m n (A : 'M[F]_(m, n)) (re : seq F) (epsilon : F) : bool :=
  (m == n) && all (fun x => - epsilon < x) re.

(** Matrix.h:324-341.  [Qfull], [mqr]: householderQ() and matrixQR() of
    householderQr(), Identity(rows, cols) is pid_mx.  The block of the cols()
    first rows exists because rows() >= cols(), which the assert demands. *)
Definition block_rows m n (A : 'M[F]_(m, n)) k (H : (k <= m)%N) : 'M[F]_(k, n) :=
  \matrix_(i, j) A (widen_ord H i) j.
Definition GetQRDecomposition (bm : build) m n (Qfull : 'M[F]_m) (mqr : 'M[F]_(m, n)) :
  outcome ('M[F]_(m, n) * 'M[F]_n) :=
  let* _ := cassert bm (n <= m)%N in
  match @idP (n <= m)%N with
  | ReflectT H => Ok (Qfull *m pid_mx n, block_rows (upper_view mqr) H)
  | ReflectF _ => UB
  end.
(** Matrix.h:343-359. *)
Definition GetFullQRDecomposition (bm : build) m n (Qfull : 'M[F]_m) (mqr : 'M[F]_(m, n)) :
  outcome ('M[F]_m * 'M[F]_n) :=
  let* _ := cassert bm (n <= m)%N in
  match @idP (n <= m)%N with
  | ReflectT H => Ok (Qfull, block_rows (upper_view mqr) H)
  | ReflectF _ => UB
  end.

(** Matrix.h:361-386 on a square matrix.  [perm]: permutationP(), as the
    matrix with a 1 at (perm i, i) in Eigen's convention; [mlu]: matrixLU(). *)
Definition GetLUDecomposition n (perm : 'S_n) (mlu : 'M[F]_n) : 'M[F]_n * 'M[F]_n * 'M[F]_n :=
  let PP := \matrix_(i, j) (if i == perm j then 1 else 0) in
  (PP, strict_lower_view mlu + 1%:M, upper_view mlu).

(** Matrix.h:388-410.  [llt] is Eigen's llt() on square matrices: None when
    info() == NumericalIssue, otherwise matrixL(). *)
Definition GetCholeskyDecomposition m n (llt : 'M[F]_m -> option 'M[F]_m) (A : 'M[F]_(m, n)) : outcome ('M[F]_m) :=
  if ~~ IsSquare A then Throw RuntimeError
  else match @eqP _ n m with
  | ReflectT e =>
      let B := castmx (erefl m, e) A in
      if ~~ IsSymmetric B then Throw RuntimeError
      else if llt B is Some L then Ok L else Throw RuntimeError
  | ReflectF _ => UB
  end.

(** Matrix.h:412-419.  [llt], [upd]: llt() and LLT::rankUpdate, as (success,
    factor); the success flags are not consulted. *)
Definition GetCholeskyUpdate n (llt : 'M[F]_n -> bool * 'M[F]_n) (upd : 'M[F]_n -> 'cV[F]_n -> F -> bool * 'M[F]_n)
  (A : 'M[F]_n) (v : 'cV[F]_n) (sigma : F) : 'M[F]_n :=
  (upd (llt A).2 v sigma).2.
(** Matrix.h:422-429: the object after the call. *)
Definition InPlaceCholeskyUpdate n (llt : 'M[F]_n -> bool * 'M[F]_n) (upd : 'M[F]_n -> 'cV[F]_n -> F -> bool * 'M[F]_n)
  (A : 'M[F]_n) (v : 'cV[F]_n) (sigma : F) : 'M[F]_n :=
  let out := (upd (llt A).2 v sigma).2 in out.

(** Matrix.h:270-280; [inv]: Eigen's inverse(), evaluated before the swap. *)
Definition Inverse n (inv : 'M[F]_n -> 'M[F]_n) (A : 'M[F]_n) : 'M[F]_n := inv A.
Definition GetInverse n (inv : 'M[F]_n -> 'M[F]_n) (A : 'M[F]_n) : 'M[F]_n :=
  let newMat := A in Inverse inv newMat.

(** Matrix.h:452-468.  [U], [S], [V]: the thin SVD. *)
Definition GetPseudoInverse m n k (U : 'M[F]_(m, k)) (S : 'cV[F]_k) (V : 'M[F]_(n, k)) (tol : F) : 'M[F]_(n, m) :=
  let S' := \col_i (if tol < S i 0 then 1 / S i 0 else 0) in
  V *m diag_mx (S'^T) *m U^T.

(** Matrix.h:485-537.  The matrix is m x (p + r), C is p x (p + r): the shape
    asserts on b, C, d are built into the types, the two remaining ones are
    n > p and m > n.  [Q], [mqr]: householderQr() of the transpose of C;
    [lu]: fullPivLu().solve, [ls]: bdcSvd().solve. *)
Definition LeastSquareSolverConstraint (bm : build) m p r (A : 'M[F]_(m, p + r)) (b : 'cV[F]_m) (d : 'cV[F]_p)
  (Q : 'M[F]_(p + r)) (mqr : 'M[F]_(p + r, p))
  (lu : 'M[F]_p -> 'cV[F]_p -> 'cV[F]_p) (ls : 'M[F]_(m, r) -> 'cV[F]_m -> 'cV[F]_r) : outcome ('cV[F]_(p + r)) :=
  let* _ := cassert bm (p < p + r)%N in
  let* _ := cassert bm (p + r < m)%N in
  let* QR := GetFullQRDecomposition bm Q mqr in
  let R := Transpose QR.2 in
  let y := lu R d in
  let AQ := A *m QR.1 in
  let A1 := lsubmx AQ in
  let A2 := rsubmx AQ in
  let z := ls A2 (b - A1 *m y) in
  Ok (QR.1 *m col_mx y z).

(** VectorN.h:71-83, 129-137. *)
Definition GetMatrixSquare n (v : 'cV[F]_n) : 'M[F]_n := v *m v^T.
Definition GetDiagonalMatrix n (v : 'cV[F]_n) : 'M[F]_n := diag_mx v^T.

(** VectorN.h:139-142 (std::reverse) and 121-127; [stdsort] is std::sort with
    operator<. *)
Definition VectorReverse (v : seq F) : seq F := rev v.
Definition VectorSort (stdsort : seq F -> seq F) (ascending : bool) (v : seq F) : seq F :=
  let v := stdsort v in
  if ~~ ascending then VectorReverse v else v.
End Matrix.
