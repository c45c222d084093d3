(** Proofs about Matrix.h and VectorN.h. *)
From mathcomp Require Import all_ssreflect all_fingroup all_algebra.
From Verif Require Import Outcome M_Matrix S_Matrix.
Set Implicit Arguments.
Unset Strict Implicit.
Unset Printing Implicit Defensive.
Import Order.Theory GRing.Theory Num.Theory.
Local Open Scope ring_scope.

Section Proofs.
Variable F : realFieldType.

(** ** C81 *)
Lemma from_upper_lemma n (A : 'M[F]_n) :
  symmetric (MakeSymmetricFromUpper A) /\ agree_upper (MakeSymmetricFromUpper A) A.
Proof.
split; last by move=> i j H; rewrite mxE H.
apply/matrixP=> i j; rewrite !mxE; case: (ltngtP i j) => [H|H|H] //.
by rewrite (ord_inj H).
Qed.
Lemma from_lower_lemma n (A : 'M[F]_n) :
  symmetric (MakeSymmetricFromLower A) /\ agree_lower (MakeSymmetricFromLower A) A.
Proof.
split; last by move=> i j H; rewrite mxE H.
apply/matrixP=> i j; rewrite !mxE; case: (ltngtP i j) => [H|H|H] //.
by rewrite (ord_inj H).
Qed.
Lemma symmetric_lower_unique n (A B : 'M[F]_n) : symmetric A -> symmetric B -> agree_lower A B -> A = B.
Proof.
move=> SA SB H; apply/matrixP=> i j; case: (leqP j i) => [|/ltnW] L; first exact: H.
by rewrite -SA -SB !mxE; apply: H.
Qed.
Lemma symmetric_upper_unique n (A B : 'M[F]_n) : symmetric A -> symmetric B -> agree_upper A B -> A = B.
Proof.
move=> SA SB H; apply/matrixP=> i j; case: (leqP i j) => [|/ltnW] L; first exact: H.
by rewrite -SA -SB !mxE; apply: H.
Qed.
Lemma symmetric_fixed n (A : 'M[F]_n) : symmetric A -> MakeSymmetricFromUpper A = A /\ MakeSymmetricFromLower A = A.
Proof.
move=> S; split.
  by have [S' H] := from_upper_lemma A; apply: symmetric_upper_unique.
by have [S' H] := from_lower_lemma A; apply: symmetric_lower_unique.
Qed.

Lemma sort_lemma (stdsort : seq F -> seq F) v : sort_ok stdsort ->
  [/\ perm_eq (VectorSort stdsort true v) v, sorted <=%R (VectorSort stdsort true v),
      perm_eq (VectorSort stdsort false v) v & sorted >=%R (VectorSort stdsort false v)].
Proof.
move=> /(_ v) [S P]; split=> //; first by rewrite /VectorSort /= /VectorReverse perm_rev.
by rewrite /VectorSort /= /VectorReverse rev_sorted.
Qed.
Lemma sort_unique_lemma (s1 s2 : seq F -> seq F) asc v : sort_ok s1 -> sort_ok s2 ->
  VectorSort s1 asc v = VectorSort s2 asc v.
Proof.
move=> /(_ v) [S1 P1] /(_ v) [S2 P2].
have E : s1 v = s2 v.
  apply: (sorted_eq le_trans le_anti) => //.
  by rewrite (perm_trans P1) // perm_sym.
by rewrite /VectorSort E.
Qed.
Lemma reverse_lemma (v : seq F) : VectorReverse (VectorReverse v) = v /\
  size (VectorReverse v) = size v /\ forall i, (i < size v)%N -> nth 0 (VectorReverse v) i = nth 0 v (size v - i.+1).
Proof. by split; [exact: revK|split; [exact: size_rev|move=> i H; rewrite nth_rev]]. Qed.
Lemma square_lemma n (v : 'cV[F]_n) : (forall i j, GetMatrixSquare v i j = v i 0 * v j 0) /\
  (forall i j, GetDiagonalMatrix v i j = if i == j then v i 0 else 0) /\
  symmetric (GetMatrixSquare v) /\ symmetric (GetDiagonalMatrix v).
Proof.
split; first by move=> i j; rewrite !mxE big_ord1 !mxE.
split; first by move=> i j; rewrite !mxE; case: eqP => [->|].
by split; rewrite /symmetric /GetMatrixSquare ?trmx_mul ?trmxK // tr_diag_mx.
Qed.

(** ** C78 *)
Lemma always_symmetric n (A : 'M[F]_n) : IsSymmetric A = true.
Proof. by []. Qed.

Lemma cholesky_square n llt (A : 'M[F]_n) :
  GetCholeskyDecomposition llt A = if llt A is Some L then Ok L else Throw RuntimeError.
Proof.
rewrite /GetCholeskyDecomposition /IsSquare eqxx /=.
by case: eqP => // e; rewrite castmx_id.
Qed.

Lemma cholesky_nonsquare m n llt (A : 'M[F]_(m, n)) : m <> n -> GetCholeskyDecomposition llt A = Throw RuntimeError.
Proof. by move=> /eqP /negbTE H; rewrite /GetCholeskyDecomposition /IsSquare H. Qed.

Lemma cholesky_lower n llt (A : 'M[F]_n) : llt_ok llt ->
  GetCholeskyDecomposition llt A = GetCholeskyDecomposition llt (MakeSymmetricFromLower A) /\
  forall L, GetCholeskyDecomposition llt A = Ok L -> lower_triangular L /\ L *m L^T = MakeSymmetricFromLower A.
Proof.
move=> [H1 H2]; have [S H] := from_lower_lemma A.
have H' : agree_lower A (MakeSymmetricFromLower A) by move=> i j L; rewrite H.
split; first by rewrite !cholesky_square (H1 _ _ H').
move=> L; rewrite cholesky_square; case E: (llt A) => [L'|] // [<-].
by have [T P] := H2 _ _ E; split=> //; apply: P.
Qed.
Lemma cholesky_symmetric n llt (A : 'M[F]_n) L : llt_ok llt -> symmetric A ->
  GetCholeskyDecomposition llt A = Ok L -> lower_triangular L /\ L *m L^T = A.
Proof.
by move=> H S E; have [_ /(_ _ E)] := cholesky_lower A H; rewrite (symmetric_fixed S).2.
Qed.
Lemma cholesky_wrong n llt (A : 'M[F]_n) L : llt_ok llt -> ~ symmetric A ->
  GetCholeskyDecomposition llt A = Ok L -> L *m L^T <> A.
Proof.
move=> H N E P; apply: N; have [_ /(_ _ E) [_ Q]] := cholesky_lower A H.
by rewrite -P Q; exact: (from_lower_lemma A).1.
Qed.

(** ** C79 *)
Section Pinv.
Variables (m n k : nat) (A : 'M[F]_(m, n)) (U : 'M[F]_(m, k)) (S : 'cV[F]_k) (V : 'M[F]_(n, k)) (tol : F).
Hypothesis SVD : svd_of A U S V.
Let Sp : 'cV[F]_k := \col_i (if tol < S i 0 then 1 / S i 0 else 0).
Let P := GetPseudoInverse U S V tol.

Lemma udv_mul a b c d (X : 'M[F]_(a, k)) (x : 'rV[F]_k) (Y : 'M[F]_(b, k)) (y : 'rV[F]_k) (Z : 'M[F]_(c, k)) (W : 'M[F]_(d, k)) :
  Y^T *m Y = 1%:M ->
  (X *m diag_mx x *m Y^T) *m (Y *m diag_mx y *m Z^T) = X *m diag_mx (\row_i (x 0 i * y 0 i)) *m Z^T.
Proof.
move=> H; rewrite -!mulmxA (mulmxA Y^T) H mul1mx !mulmxA; congr (_ *m _).
by rewrite -mulmxA; congr (_ *m _); rewrite mulmx_diag.
Qed.

Lemma AP_eq : A *m P = U *m diag_mx (\row_i (S i 0 * Sp i 0)) *m U^T.
Proof.
have [HU HV -> _] := SVD; rewrite /P /GetPseudoInverse (udv_mul _ _ _ _ V) //.
by congr (_ *m diag_mx _ *m _); apply/rowP=> i; rewrite !mxE.
Qed.
Lemma PA_eq : P *m A = V *m diag_mx (\row_i (Sp i 0 * S i 0)) *m V^T.
Proof.
have [HU HV -> _] := SVD; rewrite /P /GetPseudoInverse (udv_mul _ _ _ _ V) //.
by congr (_ *m diag_mx _ *m _); apply/rowP=> i; rewrite !mxE.
Qed.
Lemma APA_eq : A *m P *m A = U *m diag_mx (\row_i (S i 0 * Sp i 0 * S i 0)) *m V^T.
Proof.
rewrite AP_eq; have [HU HV -> _] := SVD; rewrite (udv_mul _ _ _ _ V) //.
by congr (_ *m diag_mx _ *m _); apply/rowP=> i; rewrite !mxE.
Qed.
Lemma udu_sym a (X : 'M[F]_(a, k)) (x : 'rV[F]_k) : (X *m diag_mx x *m X^T)^T = X *m diag_mx x *m X^T.
Proof. by rewrite !trmx_mul trmxK tr_diag_mx mulmxA. Qed.

(** All conditions but the first hold whatever the tolerance. *)
Lemma pinv_three : 0 <= tol -> [/\ P *m A *m P = P, (A *m P)^T = A *m P & (P *m A)^T = P *m A].
Proof.
move=> T0; split; [|by rewrite AP_eq udu_sym|by rewrite PA_eq udu_sym].
have [HU HV E S0] := SVD; rewrite PA_eq /P /GetPseudoInverse (udv_mul _ _ _ _ V) //.
congr (_ *m diag_mx _ *m _); apply/rowP=> i; rewrite !mxE.
case: ifP => H; last by rewrite mulr0.
have N : S i 0 != 0 by rewrite gt_eqF // (le_lt_trans T0 H).
by rewrite div1r mulVf // mul1r.
Qed.

Lemma pinv_first : 0 <= tol -> (A *m P *m A = A <-> forall i, S i 0 = 0 \/ tol < S i 0).
Proof.
move=> T0; have [HU HV E S0] := SVD; split.
- rewrite APA_eq => H i.
  have G : U^T *m (U *m diag_mx (\row_i (S i 0 * Sp i 0 * S i 0)) *m V^T) *m V = U^T *m A *m V by rewrite H.
  move: G; rewrite E !mulmxA HU !mul1mx -!mulmxA HV !mulmx1 => /(congr1 (fun M : 'M_k => M i i)).
  rewrite !mxE eqxx !mulr1n; case: ifP => [_ _|_]; [by right|].
  by rewrite mulr0 mul0r => <-; left.
- move=> H; rewrite APA_eq [RHS]E; congr (_ *m diag_mx _ *m _); apply/rowP=> i; rewrite !mxE.
  case: (H i) => [->|L]; first by rewrite mulr0.
  rewrite L; have N : S i 0 != 0 by rewrite gt_eqF // (le_lt_trans T0 L).
  by rewrite div1r mulfV // mul1r.
Qed.

Lemma pinv_iff : 0 <= tol -> (moore_penrose A P <-> forall i, S i 0 = 0 \/ tol < S i 0).
Proof.
move=> T0; have [H2 H3 H4] := pinv_three T0; split; first by case=> H _ _ _; apply/pinv_first.
by move=> H; split=> //; apply/pinv_first.
Qed.
End Pinv.

Lemma mp_unique m n (A : 'M[F]_(m, n)) P Q : moore_penrose A P -> moore_penrose A Q -> P = Q.
Proof.
move=> [A1 A2 A3 A4] [B1 B2 B3 B4].
have E1 : A *m P = A *m Q.
  have H : (A *m Q) *m (A *m P) = A *m P by rewrite mulmxA B1.
  have H' : (A *m P) *m (A *m Q) = A *m Q by rewrite mulmxA A1.
  have K : ((A *m P) *m (A *m Q))^T = A *m Q by rewrite H'.
  by move: K; rewrite trmx_mul A3 B3 H.
have E2 : P *m A = Q *m A.
  have H : (P *m A) *m (Q *m A) = P *m A by rewrite -mulmxA (mulmxA A) B1.
  have H' : (Q *m A) *m (P *m A) = Q *m A by rewrite -mulmxA (mulmxA A) A1.
  have K : ((Q *m A) *m (P *m A))^T = Q *m A by rewrite H'.
  by move: K; rewrite trmx_mul A4 B4 H.
by rewrite -A2 -mulmxA E1 mulmxA E2 B2.
Qed.

(** ** C95 *)
Lemma cassert_true bm b : b = true -> cassert bm b = Ok tt.
Proof. by move=> ->; case: bm. Qed.

Lemma upper_view_of m n (mqr T : 'M[F]_(m, n)) : upper_triangular T -> agree_upper T mqr -> T = upper_view mqr.
Proof.
move=> H1 H2; apply/matrixP=> i j; rewrite mxE; case: leqP => L; [exact: H2|exact: H1].
Qed.

Lemma upper_rows m n (M : 'M[F]_(m, n)) (H : (n <= m)%N) :
  upper_view M = pid_mx n *m block_rows (upper_view M) H.
Proof.
apply/matrixP=> i j; rewrite [RHS]mxE; case: (ltnP i n) => L.
- rewrite (bigD1 (Ordinal L)) //= big1 => [|k /negbTE N]; first last.
    rewrite mxE; case: (eqVneq (i : nat) k) => [E|_]; last by rewrite mul0r.
    by move: N; rewrite -val_eqE /= E eqxx.
  rewrite addr0 !mxE /= eqxx L mul1r.
  by rewrite (_ : widen_ord H (Ordinal L) = i) //; apply: val_inj.
- rewrite big1 => [|k _]; last first.
    rewrite mxE; case: (eqVneq (i : nat) k) => [E|_]; last by rewrite mul0r.
    by move: (ltn_ord k); rewrite -E ltnNge L.
  by rewrite mxE leqNgt (leq_trans (ltn_ord j) L).
Qed.

Lemma block_upper m n (M : 'M[F]_(m, n)) (H : (n <= m)%N) : upper_triangular (block_rows (upper_view M) H).
Proof. by move=> i j L; rewrite !mxE /= leqNgt L. Qed.

Lemma pid_orth m n : (n <= m)%N -> (pid_mx n : 'M[F]_(m, n))^T *m pid_mx n = 1%:M.
Proof.
move=> H; by rewrite tr_pid_mx mul_pid_mx minnn (minn_idPr H) pid_mx_1.
Qed.

Lemma thin_qr_lemma bm m n (A : 'M[F]_(m, n)) Q mqr : (n <= m)%N -> qr_of A Q mqr ->
  exists Q1 R1, GetQRDecomposition bm Q mqr = Ok (Q1, R1) /\
    [/\ orthonormal_columns Q1, upper_triangular R1 & A = Q1 *m R1].
Proof.
move=> H [OQ [T [T1 T2 ->]]]; rewrite /GetQRDecomposition cassert_true //=.
case: {-}_ / idP => [H'|] //.
exists (Q *m pid_mx n), (block_rows (upper_view mqr) H'); split=> //; split.
- by rewrite /orthonormal_columns trmx_mul mulmxA -(mulmxA _ Q^T) OQ mulmx1 pid_orth.
- exact: block_upper.
- by rewrite -mulmxA -upper_rows (upper_view_of T1 T2).
Qed.

Lemma thin_qr_bad bm m n Q (mqr : 'M[F]_(m, n)) : (m < n)%N ->
  GetQRDecomposition bm Q mqr = (if bm is Debug then Abort else UB) /\
  GetFullQRDecomposition bm Q mqr = (if bm is Debug then Abort else UB).
Proof.
move=> H; have N : (n <= m)%N = false by rewrite leqNgt H.
have E : cassert bm (n <= m)%N = (if bm is Debug then Abort else Ok tt) by rewrite N; case: bm.
rewrite /GetQRDecomposition /GetFullQRDecomposition E; case: bm {E} => //=.
by case: {-}_ / idP => [H'|] //; rewrite H' in N.
Qed.

Lemma full_qr_val bm m n Q (mqr : 'M[F]_(m, n)) (H : (n <= m)%N) :
  GetFullQRDecomposition bm Q mqr = Ok (Q, block_rows (upper_view mqr) H).
Proof.
rewrite /GetFullQRDecomposition cassert_true //=.
by case: {-}_ / idP => [H'|] //; rewrite (bool_irrelevance H' H).
Qed.

Lemma full_qr_lemma bm m n (A : 'M[F]_(m, n)) Q mqr (H : (n <= m)%N) : qr_of A Q mqr ->
  exists R1, GetFullQRDecomposition bm Q mqr = Ok (Q, R1) /\
    [/\ orthonormal_columns Q, upper_triangular R1 & forall i j, A i j = \sum_k Q i (widen_ord H k) * R1 k j].
Proof.
move=> [OQ [T [T1 T2 ->]]]; rewrite (full_qr_val bm Q mqr H).
exists (block_rows (upper_view mqr) H); split=> //; split=> //; first exact: block_upper.
move=> i j; rewrite (upper_view_of T1 T2) [in LHS](upper_rows mqr H) mulmxA mxE.
apply: eq_bigr => k _; congr (_ * _); rewrite mxE (bigD1 (widen_ord H k)) //= big1 => [|l /negbTE N].
  by rewrite addr0 mxE /= eqxx ltn_ord mulr1.
rewrite mxE; case: (eqVneq (l : nat) k) => [E|_]; last by rewrite mulr0.
by move: N; rewrite -val_eqE /= E eqxx.
Qed.

Lemma lu_lemma n (A : 'M[F]_n) perm mlu : lu_of A perm mlu ->
  exists P L U, GetLUDecomposition perm mlu = (P, L, U) /\
    [/\ is_perm_mx P, lower_triangular L /\ unit_diagonal L, upper_triangular U & P *m A = L *m U].
Proof.
move=> [L [U [[L1 L2 L3] [U1 U2 E]]]].
exists (perm_mx perm^-1%g), L, U.
have EL : strict_lower_view mlu + 1%:M = L.
  apply/matrixP=> i j; rewrite !mxE; case: (ltngtP j i) => [H|H|/ord_inj ->].
  - by rewrite L3 //; case: eqP => [e|]; [rewrite e ltnn in H|rewrite mulr0n addr0].
  - by rewrite L1 // add0r; case: eqP => // e; rewrite e ltnn in H.
  - by rewrite eqxx L2 add0r.
have EP : \matrix_(i, j) (if i == perm j then 1 else 0) = perm_mx perm^-1%g :> 'M[F]_n.
  apply/matrixP=> i j; rewrite !mxE.
  have -> : (perm^-1%g i == j) = (i == perm j) by rewrite -(inj_eq (@perm_inj _ perm)) permKV.
  by case: eqP.
split; first by rewrite /GetLUDecomposition EL EP (upper_view_of U1 U2).
split=> //; first exact: perm_mx_is_perm.
apply/matrixP=> i j; rewrite -row_permE mxE E permKV //.
Qed.

(** ** Norms *)
Lemma sqnorm_ge0 n (v : 'cV[F]_n) : 0 <= sqnorm v.
Proof. by apply: sumr_ge0 => i _; rewrite sqr_ge0. Qed.
Lemma sqnorm_mul n (v : 'cV[F]_n) : sqnorm v = (v^T *m v) 0 0.
Proof. by rewrite mxE; apply: eq_bigr => i _; rewrite mxE expr2. Qed.
Lemma sqnorm_eq0 n (v : 'cV[F]_n) : sqnorm v = 0 -> v = 0.
Proof.
move=> H; apply/colP=> i; rewrite !mxE.
have := @psumr_eq0P _ _ xpredT (fun i => v i 0 ^+ 2) (fun i _ => sqr_ge0 _) H i isT.
by move/eqP; rewrite sqrf_eq0 => /eqP.
Qed.

(** ** Canonical solvers: the contracts can be met. *)
Definition lu0 n (M : 'M[F]_n) (d : 'cV[F]_n) : 'cV[F]_n := (d^T *m pinvmx M^T)^T.
Lemma lu0_ok n : solve_ok (@lu0 n).
Proof.
move=> M d [y Hy]; apply: trmx_inj; rewrite trmx_mul trmxK mulmxKpV //.
by rewrite -Hy trmx_mul submxMl.
Qed.

Lemma gram_rank m n (A : 'M[F]_(m, n)) : (A <= A^T *m A)%MS.
Proof.
have S : (A^T *m A <= A)%MS by rewrite submxMl.
suff H : (\rank A <= \rank (A^T *m A))%N.
  by have := mxrank_leqif_sup S; rewrite /leqif => -[_ <-]; rewrite eqn_leq H mxrankS.
have K : (kermx (A^T *m A) <= kermx A^T)%MS.
  apply/sub_kermxP; have E := mulmx_ker (A^T *m A).
  set X := kermx _ in E *; apply/row_matrixP=> i; rewrite row0.
  have Z : (row i X *m A^T) *m (row i X *m A^T)^T = 0.
    by rewrite trmx_mul trmxK mulmxA -(mulmxA _ A^T) -row_mul E row0 mul0mx.
  apply: trmx_inj; rewrite trmx0 row_mul; apply: sqnorm_eq0.
  by rewrite sqnorm_mul trmxK Z mxE.
have := mxrankS K; rewrite !mxrank_ker mxrank_tr.
move=> R; rewrite -(subKn (rank_leq_col A)) -(subKn (rank_leq_col (A^T *m A))); exact: leq_sub2l.
Qed.

Definition ls0 m n (M : 'M[F]_(m, n)) (c : 'cV[F]_m) : 'cV[F]_n := (c^T *m M *m pinvmx (M^T *m M))^T.
Lemma ls0_normal m n (M : 'M[F]_(m, n)) c : M^T *m (M *m ls0 M c - c) = 0.
Proof.
apply/eqP; rewrite mulmxBr subr_eq0 mulmxA; apply/eqP; apply: trmx_inj.
rewrite trmx_mul trmx_mul trmxK trmxK trmx_mul trmxK mulmxKpV //.
by apply: submx_trans (gram_rank M); rewrite submxMl.
Qed.
Lemma sqnormD n (u v : 'cV[F]_n) : sqnorm (u + v) = sqnorm u + 2%:R * (u^T *m v) 0 0 + sqnorm v.
Proof.
rewrite mxE mulr_sumr -!big_split /=; apply: eq_bigr => i _; rewrite !mxE sqrrD -mulr_natl.
by rewrite mulr_natl.
Qed.
Lemma normal_minimal m n (M : 'M[F]_(m, n)) c x : M^T *m (M *m x - c) = 0 -> forall z, sqnorm (M *m x - c) <= sqnorm (M *m z - c).
Proof.
move=> H z; have -> : M *m z - c = (M *m x - c) + M *m (z - x).
  by rewrite mulmxBr [RHS]addrC addrA subrK.
rewrite [X in _ <= X]sqnormD; have -> : (M *m x - c)^T *m (M *m (z - x)) = 0.
  by rewrite mulmxA -[(_ - _)^T *m M]trmxK trmx_mul trmxK H trmx0 mul0mx.
by rewrite mxE mulr0 addr0 ler_addl sqnorm_ge0.
Qed.
Lemma ls0_ok m n : least_squares_ok (@ls0 m n).
Proof. by move=> M c z; apply: normal_minimal; apply: ls0_normal. Qed.

(** ** C80 *)
Lemma ltn_self_add p r : (p < p + r)%N = (0 < r)%N.
Proof. by rewrite -{1}(addn0 p) ltn_add2l. Qed.
Section Constraint.
Variables (m p r : nat) (A : 'M[F]_(m, p + r)) (b : 'cV[F]_m) (C : 'M[F]_(p, p + r)) (d : 'cV[F]_p).
Variables (Q : 'M[F]_(p + r)) (mqr : 'M[F]_(p + r, p)).
Variables (lu : 'M[F]_p -> 'cV[F]_p -> 'cV[F]_p) (ls : 'M[F]_(m, r) -> 'cV[F]_m -> 'cV[F]_r).
Hypotheses (HQ : qr_of C^T Q mqr) (Hlu : solve_ok lu) (Hls : least_squares_ok ls).
Let H : (p <= p + r)%N := leq_addr r p.
Let R1 := block_rows (upper_view mqr) H.

Lemma lssc_debug : ~~ ((0 < r) && (p + r < m))%N -> LeastSquareSolverConstraint Debug A b d Q mqr lu ls = Abort.
Proof.
rewrite /LeastSquareSolverConstraint /cassert ltn_self_add.
by case: (0 < r)%N => //=; case: (p + r < m)%N.
Qed.

Lemma lssc_val bm : bm = Release \/ ((0 < r) && (p + r < m))%N ->
  LeastSquareSolverConstraint bm A b d Q mqr lu ls =
  Ok (Q *m col_mx (lu R1^T d) (ls (rsubmx (A *m Q)) (b - lsubmx (A *m Q) *m lu R1^T d))).
Proof.
move=> G; rewrite /LeastSquareSolverConstraint.
have E1 : cassert bm (p < p + r)%N = Ok tt.
  by case: G => [->|/andP [G _]] //; apply: cassert_true; rewrite ltn_self_add.
have E2 : cassert bm (p + r < m)%N = Ok tt by case: G => [->|/andP [_ G]] //; apply: cassert_true.
by rewrite E1 E2 /= (full_qr_val bm Q mqr H).
Qed.

Lemma QQt : Q *m Q^T = 1%:M.
Proof. by case: HQ => /mulmx1C. Qed.

Lemma C_eq : C *m Q = row_mx R1^T 0.
Proof.
case: HQ => OQ [T [T1 T2 E]]; apply: trmx_inj; rewrite trmx_mul E mulmxA OQ mul1mx tr_row_mx trmxK trmx0.
rewrite (upper_view_of T1 T2); apply/matrixP=> i j; case: (split_ordP i) => k ->.
  by rewrite col_mxEu [in RHS]mxE; congr (upper_view mqr _ _); apply: val_inj.
by rewrite col_mxEd !mxE /= leqNgt (leq_trans (ltn_ord j)) ?leq_addr.
Qed.

Lemma C_col (y : 'cV[F]_p) (z : 'cV[F]_r) : C *m (Q *m col_mx y z) = R1^T *m y.
Proof. by rewrite mulmxA C_eq mul_row_col mul0mx addr0. Qed.

Lemma feasible_split x : C *m x = d -> exists y z, x = Q *m col_mx y z /\ R1^T *m y = d.
Proof.
move=> E; exists (usubmx (Q^T *m x)), (dsubmx (Q^T *m x)).
have X : x = Q *m col_mx (usubmx (Q^T *m x)) (dsubmx (Q^T *m x)) by rewrite vsubmxK mulmxA QQt mul1mx.
by split=> //; rewrite -(C_col _ (dsubmx (Q^T *m x))) -X.
Qed.

Lemma lssc_feasible x : (exists x0, C *m x0 = d) ->
  LeastSquareSolverConstraint Release A b d Q mqr lu ls = Ok x -> C *m x = d.
Proof.
move=> [x0 /feasible_split [y [z [_ E]]]]; rewrite lssc_val; last by left.
by case=> <-; rewrite C_col Hlu //; exists y.
Qed.

Lemma lssc_optimal bm : bm = Release \/ ((0 < r) && (p + r < m))%N -> row_free C ->
  exists x, LeastSquareSolverConstraint bm A b d Q mqr lu ls = Ok x /\ constrained_minimiser A b C d x.
Proof.
move=> G FC; rewrite lssc_val //; eexists; split; first by [].
have UR : R1^T \in unitmx.
  rewrite -row_free_unit /row_free eqn_leq rank_leq_row /=.
  have EC : C = R1^T *m row_mx 1%:M 0 *m Q^T by rewrite mul_mx_row mulmx1 mulmx0 -C_eq -mulmxA QQt mulmx1.
  have L : (\rank C <= \rank R1^T)%N by rewrite {1}EC -mulmxA mxrankM_maxl.
  by apply: leq_trans L; move: FC; rewrite /row_free => /eqP ->.
set y := lu R1^T d.
have Ey : R1^T *m y = d by apply: Hlu; exists (invmx R1^T *m d); rewrite mulKVmx.
split; first by rewrite C_col.
move=> x' /feasible_split [y' [z' [-> E']]].
have Yy : y' = y by rewrite -(mulKmx UR y') E' -Ey mulKmx.
rewrite Yy.
have K w : A *m (Q *m col_mx y w) - b = rsubmx (A *m Q) *m w - (b - lsubmx (A *m Q) *m y).
  by rewrite mulmxA -{1}(hsubmxK (A *m Q)) mul_row_col opprB addrA [_ *m y + _]addrC.
by rewrite !K; apply: Hls.
Qed.
End Constraint.

Lemma para (a b : F) : (a - b) ^+ 2 + (a + b) ^+ 2 = 2%:R * a ^+ 2 + 2%:R * b ^+ 2.
Proof. by rewrite sqrrB sqrrD addrACA [X in X + _]addrACA addNr addr0 -!mulr2n !mulr_natl. Qed.

Lemma constrained_unique m p n (A : 'M[F]_(m, n)) b (C : 'M[F]_(p, n)) d x1 x2 :
  (forall x : 'cV[F]_n, A *m x = 0 -> C *m x = 0 -> x = 0) ->
  constrained_minimiser A b C d x1 -> constrained_minimiser A b C d x2 -> x1 = x2.
Proof.
move=> I [E1 M1] [E2 M2].
set h : F := 2%:R^-1.
have h2 : h + h = 1 by rewrite -mulr2n -[_ *+ 2]mulr_natl mulfV // pnatr_eq0.
have Em : C *m (h *: (x1 + x2)) = d.
  by rewrite -scalemxAr mulmxDr E1 E2 scalerDr -scalerDl h2 scale1r.
have L1 := M1 _ Em; have L2 := M2 _ Em.
apply/eqP; rewrite -subr_eq0; apply/eqP; apply: I; last by rewrite mulmxBr E1 E2 subrr.
apply: sqnorm_eq0; apply/eqP; rewrite eq_le sqnorm_ge0 andbT.
set r1 := A *m x1 - b in L1; set r2 := A *m x2 - b in L2.
have Er : A *m (h *: (x1 + x2)) - b = h *: (r1 + r2).
  by rewrite -scalemxAr mulmxDr /r1 /r2 addrACA -opprD scalerBr [h *: (b + b)]scalerDr -scalerDl h2 scale1r.
rewrite Er in L1 L2.
have -> : A *m (x1 - x2) = r1 - r2 by rewrite mulmxBr /r1 /r2 opprB addrA subrK.
have E4 : sqnorm (r1 + r2) = 4%:R * sqnorm (h *: (r1 + r2)).
  rewrite /sqnorm mulr_sumr; apply: eq_bigr => i _; rewrite [in RHS]mxE exprMn mulrA.
  suff -> : 4%:R * h ^+ 2 = 1 by rewrite mul1r.
  by rewrite (natrM _ 2 2) -expr2 -exprMn mulfV ?expr1n // pnatr_eq0.
have P : sqnorm (r1 - r2) + sqnorm (r1 + r2) = 2%:R * sqnorm r1 + 2%:R * sqnorm r2.
  rewrite /sqnorm !mulr_sumr -!big_split /=; apply: eq_bigr => i _.
  rewrite -para; move: r1 r2 {L1 L2 Er E4} => r1 r2.
  by rewrite [(r1 - r2) i 0]mxE [(- r2) i 0]mxE [(r1 + r2) i 0]mxE.
have E4' : 4%:R * sqnorm (h *: (r1 + r2)) = 2%:R * sqnorm (h *: (r1 + r2)) + 2%:R * sqnorm (h *: (r1 + r2)).
  by rewrite -mulrDl -natrD.
rewrite -(ler_add2r (sqnorm (r1 + r2))) P add0r E4 E4'.
by apply: ler_add; rewrite ler_pmul2l ?ltr0n.
Qed.

(** ** C96 *)
Lemma quad_mul n (A : 'M[F]_n) x : quad A x = (x^T *m A *m x) 0 0.
Proof.
rewrite mxE /quad exchange_big /=; apply: eq_bigr => j _; rewrite mxE mulr_suml.
by apply: eq_bigr => i _; rewrite mxE.
Qed.
Lemma quad_diag n (w : 'rV[F]_n) (x : 'cV[F]_n) : quad (diag_mx w) x = \sum_i w 0 i * x i 0 ^+ 2.
Proof.
apply: eq_bigr => i _; rewrite (bigD1 i) //= big1 => [|j N].
  by rewrite addr0 mxE eqxx mulr1n mulrAC -expr2 mulrC.
by rewrite mxE eq_sym (negbTE N) mulr0n mulr0 mul0r.
Qed.
Lemma sqnorm_orth n (Q : 'M[F]_n) x : orthonormal_columns Q -> sqnorm (Q *m x) = sqnorm x.
Proof. by move=> H; rewrite !sqnorm_mul trmx_mul mulmxA -(mulmxA _ Q^T) H mulmx1. Qed.
Lemma quad_orth n (Q : 'M[F]_n) w x : orthonormal_columns Q ->
  quad (Q *m diag_mx w *m Q^T) (Q *m x) = quad (diag_mx w) x.
Proof.
move=> H; rewrite !quad_mul trmx_mul !mulmxA -(mulmxA x^T) H mulmx1 -!mulmxA (mulmxA Q^T) H mul1mx.
by [].
Qed.

Lemma psd_not_square m n (A : 'M[F]_(m, n)) re eps : m <> n -> IsPositiveSemiDefinite A re eps = false.
Proof. by rewrite /IsPositiveSemiDefinite => /eqP/negbTE ->. Qed.
Lemma psd_lemma n (A : 'M[F]_n) re eps : eigen_symmetric A re ->
  (IsPositiveSemiDefinite A re eps = true <-> forall x, x != 0 -> - eps * sqnorm x < quad A x).
Proof.
move=> [Q [w [OQ -> ->]]]; have QQ := mulmx1C OQ.
rewrite /IsPositiveSemiDefinite eqxx /=; split.
- move=> /allP H x N.
  set y := Q^T *m x; have X : x = Q *m y by rewrite mulmxA QQ mul1mx.
  have Ny : y != 0 by apply: contra_neq N => Y; rewrite X Y mulmx0.
  rewrite X quad_orth // quad_diag sqnorm_orth // /sqnorm mulr_sumr -subr_gt0 -sumrB.
  have [i Ni] : exists i, y i 0 != 0.
    apply/existsP; rewrite -negb_forall; apply: contra Ny => /forallP Z.
    by apply/eqP/colP=> i; rewrite (eqP (Z i)) mxE.
  have L j : - eps < w 0 j by apply: H; apply: map_f; rewrite mem_enum.
  rewrite (bigD1 i) //=; apply: ltr_paddr.
    by apply: sumr_ge0 => k _; rewrite -mulrBl mulr_ge0 ?sqr_ge0 // subr_ge0 ltW.
  by rewrite -mulrBl mulr_gt0 ?subr_gt0 // lt_def sqr_ge0 sqrf_eq0 Ni.
- move=> H; apply/allP=> v /mapP [i _ ->].
  set e : 'cV[F]_n := delta_mx i 0.
  have Ei j : e j 0 = (j == i)%:R by rewrite mxE eqxx andbT.
  have Ne : e != 0 by apply/eqP=> /colP /(_ i); rewrite Ei mxE eqxx => /eqP; rewrite oner_eq0.
  have NQ : Q *m e != 0.
    apply: contra_neq Ne => Z; have : Q^T *m (Q *m e) = 0 by rewrite Z mulmx0.
    by rewrite mulmxA OQ mul1mx.
  have := H _ NQ; rewrite quad_orth // quad_diag sqnorm_orth // /sqnorm.
  rewrite (bigD1 i) //= big1 => [|j /negbTE N]; last by rewrite Ei N expr0n.
  rewrite (bigD1 i) //= big1 => [|j /negbTE N]; last by rewrite Ei N expr0n mulr0.
  by rewrite Ei eqxx expr1n !mulr1 !addr0 mulr1.
Qed.

Lemma pinv_truncated m n k (A : 'M[F]_(m, n)) (U : 'M[F]_(m, k)) (S : 'cV[F]_k) (V : 'M[F]_(n, k)) tol :
  svd_of A U S V -> 0 <= tol ->
  moore_penrose (U *m diag_mx (\row_i (if tol < S i 0 then S i 0 else 0)) *m V^T) (GetPseudoInverse U S V tol).
Proof.
move=> [HU HV _ S0] T0; set S' : 'cV[F]_k := \col_i (if tol < S i 0 then S i 0 else 0).
have E : GetPseudoInverse U S V tol = GetPseudoInverse U S' V tol.
  rewrite /GetPseudoInverse; congr (_ *m diag_mx _ *m _); apply/rowP=> i; rewrite !mxE.
  by case: ifP => [->|_] //; rewrite ltNge T0.
rewrite E; have SV : svd_of (U *m diag_mx (\row_i (if tol < S i 0 then S i 0 else 0)) *m V^T) U S' V.
  split=> //; last by move=> i; rewrite mxE; case: ifP.
  by congr (_ *m diag_mx _ *m _); apply/rowP=> i; rewrite !mxE.
by apply/(pinv_iff SV T0) => i; rewrite mxE; case: ifP; [right|left].
Qed.

Lemma cholesky_all n llt (A : 'M[F]_n) : llt_ok llt ->
  (forall B, agree_lower A B -> GetCholeskyDecomposition llt A = GetCholeskyDecomposition llt B) /\
  forall L, GetCholeskyDecomposition llt A = Ok L ->
    [/\ lower_triangular L, symmetric A -> L *m L^T = A & ~ symmetric A -> L *m L^T <> A].
Proof.
move=> H; split.
  by move=> B AB; rewrite !cholesky_square; case: H => /(_ _ _ AB) ->.
move=> L E; have [_ /(_ _ E) [LL _]] := cholesky_lower A H; split=> //.
  by move=> S; case: (cholesky_symmetric H S E).
by move=> N; apply: (cholesky_wrong H N E).
Qed.
Lemma make_symmetric_all n (A : 'M[F]_n) :
  [/\ symmetric (MakeSymmetricFromUpper A), agree_upper (MakeSymmetricFromUpper A) A,
      symmetric (MakeSymmetricFromLower A) & agree_lower (MakeSymmetricFromLower A) A].
Proof. by have [H1 H2] := from_upper_lemma A; have [H3 H4] := from_lower_lemma A. Qed.
End Proofs.
