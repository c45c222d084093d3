(** Concrete matrices over the rationals, for the examples and the
    refutations of T_Matrix.v. *)
From mathcomp Require Import all_ssreflect all_fingroup all_algebra.
From Verif Require Import Outcome M_Matrix S_Matrix L_Matrix.
Set Implicit Arguments.
Unset Strict Implicit.
Unset Printing Implicit Defensive.
Import Order.Theory GRing.Theory Num.Theory.
Local Open Scope ring_scope.

Definition mx2 (a b c d : rat) : 'M[rat]_2 :=
  \matrix_(i, j) (if i == 0 then (if j == 0 then a else b) else (if j == 0 then c else d)).
Definition col2 (a b : rat) : 'cV[rat]_2 := \col_i (if i == 0 then a else b).
Definition col3 (a b c : rat) : 'cV[rat]_3 := \col_i (if i == 0 then a else if i == 1 then b else c).

Lemma ord2 (P : 'I_2 -> Prop) : P 0 -> P 1 -> forall i, P i.
Proof.
move=> H0 H1 i; case: (eqVneq i 0) => [->|N] //.
have -> // : i = 1 by apply: val_inj; case: i N => [[|[|]]].
Qed.
Lemma mx2_eq (A B : 'M[rat]_2) : A 0 0 = B 0 0 -> A 0 1 = B 0 1 -> A 1 0 = B 1 0 -> A 1 1 = B 1 1 -> A = B.
Proof. by move=> *; apply/matrixP; apply: ord2; apply: ord2. Qed.
Lemma sum2 (f : 'I_2 -> rat) : \sum_i f i = f 0 + f 1.
Proof. by rewrite big_ord_recl big_ord1; congr (_ + f _); apply: val_inj. Qed.
Ltac c2 := rewrite ?mxE ?sum2 ?mxE ?sum2 ?mxE ?sum2 ?mxE; (by vm_compute || by apply/eqP; vm_compute).

Definition rot := mx2 (3%:R / 5%:R) (- (4%:R / 5%:R)) (4%:R / 5%:R) (3%:R / 5%:R).
Lemma rot_orth : orthonormal_columns rot.
Proof. by apply: mx2_eq; rewrite !mxE !sum2 !mxE; apply/eqP; vm_compute. Qed.

(** *** Pseudo-inverse: a matrix of rank one and one with a small singular value. *)
Definition svA := rot *m diag_mx (col2 3%:R 0)^T *m rot^T.
Lemma svA_svd : svd_of svA rot (col2 3%:R 0) rot.
Proof. by split=> //; [exact: rot_orth|exact: rot_orth|apply: ord2; rewrite mxE]. Qed.
Lemma svA_ok : forall i, (col2 3%:R 0) i 0 = 0 \/ 1%:R / 10%:R < (col2 3%:R 0) i 0.
Proof. by apply: ord2; rewrite mxE; [right|left]. Qed.

Lemma small_lost (F : realFieldType) (tol : F) : 0 < tol ->
  exists A S : 'M[F]_1, [/\ svd_of A 1%:M S 1%:M, A \in unitmx & GetPseudoInverse 1%:M S 1%:M tol = 0].
Proof.
move=> T; exists tol%:M, tol%:M; split.
- split; rewrite /orthonormal_columns ?trmx1 ?mulmx1 ?mul1mx //.
    by apply/matrixP=> i j; rewrite !ord1 !mxE.
  by move=> i; rewrite ord1 mxE ltW.
- by rewrite unitmxE det_scalar expr1 unitfE gt_eqF.
- rewrite /GetPseudoInverse trmx1 mulmx1 mul1mx; apply/matrixP=> i j; rewrite !ord1 !mxE eqxx /= ltxx.
  by rewrite mul0rn.
Qed.

(** *** Cholesky *)
Definition nsA := mx2 4%:R 7%:R 2%:R 2%:R.
Definition nsL := mx2 2%:R 0 1 1.
Definition llt_one (A : 'M[rat]_2) : option 'M[rat]_2 :=
  if [&& A 0 0 == 4%:R, A 1 0 == 2%:R & A 1 1 == 2%:R] then Some nsL else None.
Lemma llt_one_ok : llt_ok llt_one.
Proof.
split.
- by move=> A B H; rewrite /llt_one (H 0 0) // (H 1 0) // (H 1 1).
- move=> A L; rewrite /llt_one; case: and3P => // -[/eqP E0 /eqP E1 /eqP E2] [<-]; split.
    by apply: ord2; apply: ord2 => //= _; rewrite mxE.
  move=> B S H.
  have B01 : B 0 1 = B 1 0 by rewrite -{1}S mxE.
  have F0 := H 0 0 isT; have F1 := H 1 0 isT; have F2 := H 1 1 isT.
  by apply: mx2_eq; rewrite ?B01 -?F0 -?F1 -?F2 ?E0 ?E1 ?E2 !mxE sum2 !mxE; apply/eqP; vm_compute.
Qed.
Lemma nsA_result : GetCholeskyDecomposition llt_one nsA = Ok nsL.
Proof. by rewrite cholesky_square /llt_one !mxE. Qed.
Lemma nsA_not_symmetric : ~ symmetric nsA.
Proof. by move/matrixP=> /(_ 0 1); rewrite !mxE. Qed.
Definition syA := mx2 4%:R 2%:R 2%:R 2%:R.
Lemma syA_symmetric : symmetric syA.
Proof. by apply: mx2_eq; rewrite !mxE. Qed.
Lemma syA_result : GetCholeskyDecomposition llt_one syA = Ok nsL.
Proof. by rewrite cholesky_square /llt_one !mxE. Qed.

(** *** QR and LU *)
Definition exT := mx2 5%:R 1 0 2%:R.
Definition exmqr := mx2 5%:R 1 7%:R 2%:R.
Lemma ex_qr : qr_of (rot *m exT) rot exmqr.
Proof.
split; first exact: rot_orth.
by exists exT; split=> //; apply: ord2; apply: ord2 => //= _; rewrite !mxE.
Qed.
Definition exA := mx2 1 2%:R 3%:R 4%:R.
Definition exmlu := mx2 3%:R 4%:R (1%:R / 3%:R) (2%:R / 3%:R).
Lemma ex_lu : lu_of exA (tperm 0 1) exmlu.
Proof.
exists (mx2 1 0 (1%:R / 3%:R) 1), (mx2 3%:R 4%:R 0 (2%:R / 3%:R)); split; split.
- by apply: ord2; apply: ord2 => //= _; rewrite !mxE.
- by apply: ord2; rewrite !mxE.
- by apply: ord2; apply: ord2 => //= _; rewrite !mxE.
- by apply: ord2; apply: ord2 => //= _; rewrite !mxE.
- by apply: ord2; apply: ord2 => //= _; rewrite !mxE.
- by apply: ord2; apply: ord2; rewrite ?tpermL ?tpermR !mxE sum2 !mxE; apply/eqP; vm_compute.
Qed.

(** *** Eigenvalues *)
Definition psA := rot *m diag_mx (col2 1 2%:R)^T *m rot^T.
Lemma psA_eigen : eigen_symmetric psA [:: 1; 2%:R].
Proof.
exists rot, (col2 1 2%:R)^T; split=> //; first exact: rot_orth.
by rewrite enum_ordSl enum_ordSl enum_ord0 /= !mxE.
Qed.
Definition jordan := mx2 1 0 4%:R 1.
Lemma jordan_eigen : eigen_real jordan [:: 1; 1].
Proof.
rewrite /eigen_real char_poly_trig.
  by rewrite big_ord_recl big_ord1 !big_cons big_nil !mxE mulr1.
by apply/is_trig_mxP; apply: ord2; apply: ord2 => //= _; rewrite mxE.
Qed.
Lemma jordan_quad : quad jordan (col2 1 (- 1)) < - (1%:R / 2%:R) * sqnorm (col2 1 (- 1)).
Proof. by rewrite /quad /sqnorm !sum2 !mxE; vm_compute. Qed.

(** *** Constrained least squares *)
Definition csC : 'M[rat]_(1, 1 + 1) := \matrix_(i, j) (if (j == 0 :> nat)%N then 3%:R else 4%:R).
Definition csM : 'M[rat]_(1 + 1, 1) := \matrix_(i, j) (if (i == 0 :> nat)%N then 5%:R else 7%:R).
Definition csR : 'M[rat]_(1 + 1, 1) := \matrix_(i, j) (if (i == 0 :> nat)%N then 5%:R else 0).
Lemma cs_qr : qr_of csC^T (rot : 'M[rat]_(1 + 1)) csM.
Proof.
split; first exact: rot_orth.
exists csR; split.
- by apply: ord2 => j; rewrite (ord1 j) //= => _; rewrite mxE.
- by apply: ord2 => j; rewrite (ord1 j) //= => _; rewrite !mxE.
- by apply/matrixP; apply: ord2 => j; rewrite (ord1 j) !mxE sum2 !mxE; apply/eqP; vm_compute.
Qed.
Lemma cs_free : row_free csC.
Proof.
rewrite /row_free eqn_leq rank_leq_row lt0n mxrank_eq0; apply/eqP=> /matrixP /(_ 0 0).
by rewrite !mxE.
Qed.

(** Rank-deficient constraint 0 x = 0. *)
Definition rdA : 'M[rat]_(3, 1 + 1) := \matrix_(i, j) (if (i == j :> nat)%N then 1 else 0).
Definition rdb : 'cV[rat]_3 := \col_i (if (i < 2)%N then 1 else 0).
Lemma rd_qr : qr_of (0 : 'M[rat]_(1, 1 + 1))^T (1%:M : 'M[rat]_(1 + 1)) (0 : 'M[rat]_(1 + 1, 1)).
Proof.
split; first by rewrite /orthonormal_columns trmx1 mulmx1.
by exists 0; rewrite trmx0 mulmx0; split=> // i j _; rewrite mxE.
Qed.
Lemma rd_bad x : LeastSquareSolverConstraint Debug rdA rdb 0 1%:M 0 (@lu0 _ 1) (@ls0 _ 3 1) = Ok x ->
  ~ constrained_minimiser rdA rdb (0 : 'M[rat]_(1, 1 + 1)) 0 x.
Proof.
rewrite lssc_val; last by right.
case=> <- [_] /(_ (const_mx 1)); rewrite mul0mx => /(_ erefl).
have -> : lu0 (block_rows (upper_view (0 : 'M[rat]_(1 + 1, 1))) (leq_addr 1 1))^T 0 = 0.
  by rewrite /lu0 trmx0 mul0mx trmx0.
move: (ls0 _ _) => z.
have -> : rdA *m const_mx 1 - rdb = 0.
  by apply/colP; case=> [[|[|[|]]]] // i; rewrite !mxE sum2 !mxE; apply/eqP; vm_compute.
have -> : sqnorm (0 : 'cV[rat]_3) = 0 by rewrite /sqnorm big1 // => i _; rewrite mxE expr0n.
move=> L; have : rdA *m (1%:M *m col_mx 0 z) - rdb = 0.
  by apply: sqnorm_eq0; apply/eqP; rewrite eq_le L sqnorm_ge0.
move/colP=> /(_ 0); rewrite mul1mx mxE [(rdA *m _) _ _]mxE sum2.
have -> : col_mx 0 z (0 : 'I_(1 + 1)) 0 = 0.
  by rewrite (_ : (0 : 'I_(1 + 1)) = lshift 1 0) ?col_mxEu ?mxE //; apply: val_inj.
by rewrite !mxE /= mul0r mulr0 add0r.
Qed.

Lemma rank_deficient_witness :
  exists (A : 'M[rat]_(3, 1 + 1)) b (C : 'M[rat]_(1, 1 + 1)) d Q mqr lu ls,
    [/\ qr_of C^T Q mqr, solve_ok lu & least_squares_ok ls] /\ (exists x0, C *m x0 = d) /\
    exists x, LeastSquareSolverConstraint Debug A b d Q mqr lu ls = Ok x /\ ~ constrained_minimiser A b C d x.
Proof.
exists rdA, rdb, 0, 0, 1%:M, 0, (@lu0 _ 1), (@ls0 _ 3 1); split.
  by split; [exact: rd_qr|exact: lu0_ok|exact: ls0_ok].
split; first by exists 0; rewrite mulmx0.
case E: (LeastSquareSolverConstraint Debug rdA rdb 0 1%:M 0 (@lu0 _ 1) (@ls0 _ 3 1)) => [x|e|z||];
  try by move: E; rewrite lssc_val; last by right.
by exists x; split=> //; apply: rd_bad.
Qed.
Lemma sort_meets (F : realFieldType) : sort_ok (sort (<=%R : rel F)).
Proof. by move=> v; split; [apply: sort_sorted; apply: le_total|rewrite perm_sort]. Qed.
