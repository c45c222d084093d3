(** What the triangular factors tell about a matrix. *)
From mathcomp Require Import all_ssreflect all_fingroup all_algebra.
From Verif Require Import Outcome M_Matrix S_Matrix L_Matrix L_MatrixEx.
Set Implicit Arguments.
Unset Strict Implicit.
Unset Printing Implicit Defensive.
Import Order.Theory GRing.Theory Num.Theory.
Local Open Scope ring_scope.

Section Proofs.
Variable F : realFieldType.

(** ** Triangular matrices *)
Lemma det_lower n (L : 'M[F]_n) : lower_triangular L -> \det L = \prod_i L i i.
Proof. by move=> H; apply: det_trig; apply/is_trig_mxP => i j; apply: H. Qed.
Lemma det_upper n (U : 'M[F]_n) : upper_triangular U -> \det U = \prod_i U i i.
Proof.
move=> H; rewrite -det_tr det_lower => [|i j L]; last by rewrite mxE H.
by apply: eq_bigr => i _; rewrite mxE.
Qed.
Lemma prod_unit n (f : 'I_n -> F) : (\prod_i f i \is a GRing.unit) <-> forall i, f i != 0.
Proof.
rewrite unitfE; split=> [/prodf_neq0 H i|H]; first exact: H.
by apply/prodf_neq0 => i _.
Qed.

(** ** LU *)
Lemma lu_det_pf n (A : 'M[F]_n) perm mlu P L U : lu_of A perm mlu -> GetLUDecomposition perm mlu = (P, L, U) ->
  \det A = (-1) ^+ perm * \prod_i U i i /\ (A \in unitmx <-> forall i, U i i != 0).
Proof.
move=> H E; have [P' [L' [U' [E' [_ [HL HD] HU PA]]]]] := lu_lemma H.
move: E; rewrite E' => -[? ? ?]; subst P' L' U'.
have EP : P = (perm_mx perm)^T.
  have : GetLUDecomposition perm mlu = (P, L, U) by [].
  by rewrite /GetLUDecomposition => -[<- _ _]; apply/matrixP => i j; rewrite !mxE eq_sym; case: eqP.
have D : \det A = (-1) ^+ perm * \prod_i U i i.
  have := congr1 determinant PA; rewrite !det_mulmx EP det_tr det_perm (det_lower HL) (det_upper HU) big1 => [|i _]; last exact: HD.
  by rewrite mul1r => <-; rewrite mulrA -expr2 sqrr_sign mul1r.
split=> //; rewrite unitmxE D unitrM unitrX ?unitrN1 //=; exact: prod_unit.
Qed.

(** ** QR *)
Lemma gram_qr m n (Q : 'M[F]_(m, n)) (R : 'M[F]_n) : orthonormal_columns Q -> (Q *m R)^T *m (Q *m R) = R^T *m R.
Proof. by move=> H; rewrite trmx_mul mulmxA -(mulmxA _ Q^T) H mulmx1. Qed.
Lemma qr_det_pf bm m n (A : 'M[F]_(m, n)) Q mqr Q1 R1 : (n <= m)%N -> qr_of A Q mqr -> GetQRDecomposition bm Q mqr = Ok (Q1, R1) ->
  \det (A^T *m A) = (\prod_i R1 i i) ^+ 2 /\
  ((forall w : 'cV[F]_n, A *m w = 0 -> w = 0) <-> forall i, R1 i i != 0).
Proof.
move=> mn H E; have [Q' [R' [E' [HQ HR AE]]]] := thin_qr_lemma bm mn H.
move: E; rewrite E' => -[? ?]; subst Q' R'.
split; first by rewrite AE gram_qr // det_mulmx det_tr (det_upper HR) expr2.
rewrite -(prod_unit (fun i => R1 i i)) -(det_upper HR); split.
- move=> I; rewrite unitfE -det_tr; apply/det0P => -[v N Z]; case/eqP: N; apply: trmx_inj; rewrite trmx0; apply: I.
  by rewrite AE -mulmxA -[R1]trmxK -trmx_mul Z trmx0 mulmx0.
- rewrite -unitmxE => I w; rewrite AE -mulmxA => Z.
  have : Q1^T *m (Q1 *m (R1 *m w)) = 0 by rewrite Z mulmx0.
  by rewrite mulmxA HQ mul1mx => Z'; rewrite -(mulKmx I w) Z' mulmx0.
Qed.

(** ** Uniqueness *)
Lemma lower_unique n (L M : 'M[F]_n) : lower_triangular L -> lower_triangular M -> (forall i, L i i != 0) -> L *m L^T = M *m M^T ->
  forall j, exists e, (e = 1 \/ e = -1) /\ forall i, L i j = e * M i j.
Proof.
move=> HL HM N E j; move: {2}j.+1 (ltnSn j) => p; elim: p j => // p IH j; rewrite ltnS => jp.
have K i : L i j * L j j = M i j * M j j.
  have := congr1 (fun X : 'M_n => X i j) E; rewrite !mxE (bigD1 j) //= [RHS](bigD1 j) //= !mxE.
  have -> : \sum_(k < n | k != j) L i k * L^T k j = \sum_(k < n | k != j) M i k * M^T k j.
    apply: eq_bigr => k kj; rewrite !mxE; case: (ltnP k j) => [lt|ge].
      have [e [He Ee]] := IH k (leq_trans lt jp); rewrite !Ee mulrACA.
      by case: He => ->; rewrite ?mulr1 ?mul1r ?mulrNN ?mulr1 ?mul1r.
    have lt : (j < k)%N by rewrite ltn_neqAle ge andbT eq_sym; move: kj; rewrite -val_eqE.
    by rewrite (HL j k lt) (HM j k lt) !mulr0.
  by move/addIr.
have S : (L j j) ^+ 2 = (M j j) ^+ 2 by rewrite !expr2 K.
exists (M j j / L j j); split.
  have : (M j j / L j j) ^+ 2 == 1 by rewrite expr_div_n -S divff // expf_eq0 /= N.
  by rewrite sqrf_eq1 => /orP[/eqP ->|/eqP ->]; [left|right].
by move=> i; rewrite mulrC mulrA -K mulfK.
Qed.
Lemma cholesky_unique n (L M : 'M[F]_n) : lower_triangular L -> lower_triangular M -> (forall i, 0 < L i i) -> (forall i, 0 < M i i) ->
  L *m L^T = M *m M^T -> L = M.
Proof.
move=> HL HM PL PM E; apply/matrixP=> i j.
have [e [[->|->] Ee]] := lower_unique HL HM (fun i => lt0r_neq0 (PL i)) E j; first by rewrite Ee mul1r.
by have := PL j; rewrite Ee mulN1r oppr_gt0 => /(lt_trans (PM j)); rewrite ltxx.
Qed.
Lemma qr_unique m n (Q Q' : 'M[F]_(m, n)) (R R' : 'M[F]_n) : orthonormal_columns Q -> orthonormal_columns Q' ->
  upper_triangular R -> upper_triangular R' -> (forall i, R i i != 0) -> Q *m R = Q' *m R' ->
  exists e : 'rV[F]_n, (forall i, e 0 i = 1 \/ e 0 i = -1) /\ Q' = Q *m diag_mx e /\ R' = diag_mx e *m R.
Proof.
move=> HQ HQ' HR HR' N E; have G : R^T *m R^T^T = R'^T *m R'^T^T by rewrite !trmxK -(gram_qr R HQ) -(gram_qr R' HQ') E.
have LR : lower_triangular R^T by move=> i j L; rewrite mxE HR.
have LR' : lower_triangular R'^T by move=> i j L; rewrite mxE HR'.
have NR i : R^T i i != 0 by rewrite mxE.
have U j := lower_unique LR LR' NR G j.
pose e := \row_j (R' j j / R j j).
have Ee j : (e 0 j = 1 \/ e 0 j = -1) /\ forall i, R' j i = e 0 j * R j i.
  have [f [Hf Ef]] := U j; have Fj := Ef j; rewrite !mxE in Fj.
  have F0 : f * f = 1 by case: Hf => ->; rewrite ?mulr1 ?mulrNN ?mulr1.
  have -> : e 0 j = f.
    by rewrite mxE; apply: (mulIf (N j)); rewrite mulfVK // Fj mulrA F0 mul1r.
  split=> // i; have := Ef i; rewrite !mxE => ->; by rewrite mulrA F0 mul1r.
clearbody e.
have RE : R' = diag_mx e *m R by apply/matrixP=> j i; rewrite mul_diag_mx mxE; case: (Ee j).
exists e; split; [by move=> j; case: (Ee j)|split=> //].
have I : R \in unitmx by rewrite unitmxE (det_upper HR); apply/prod_unit.
have DD : diag_mx e *m diag_mx e = 1%:M.
  apply/matrixP=> i j; rewrite mulmx_diag !mxE; case: eqP => //= _; rewrite mulr1n.
  by case: (Ee i) => -[->|->] _; rewrite ?mulr1 ?mulrNN ?mulr1.
have K : Q = Q' *m diag_mx e by rewrite -[Q](mulmxK I) E RE mulmxA mulmxK.
by rewrite K -mulmxA DD mulmx1.
Qed.
Lemma qr_same_pf bm bm' m n (A : 'M[F]_(m, n)) Q mqr Q' mqr' Q1 R1 Q2 R2 : (n <= m)%N -> qr_of A Q mqr -> qr_of A Q' mqr' ->
  GetQRDecomposition bm Q mqr = Ok (Q1, R1) -> GetQRDecomposition bm' Q' mqr' = Ok (Q2, R2) ->
  (forall w : 'cV[F]_n, A *m w = 0 -> w = 0) ->
  exists e : 'rV[F]_n, (forall i, e 0 i = 1 \/ e 0 i = -1) /\ Q2 = Q1 *m diag_mx e /\ R2 = diag_mx e *m R1.
Proof.
move=> mn H H' E E' I; have N := (qr_det_pf mn H E).2.1 I.
have [? [? [X [HQ HR AE]]]] := thin_qr_lemma bm mn H; move: X; rewrite E => -[? ?]; subst.
have [? [? [X [HQ' HR' AE']]]] := thin_qr_lemma bm' mn H'; move: X; rewrite E' => -[? ?]; subst.
exact: qr_unique.
Qed.

(** ** Cholesky *)
Lemma quad_chol n (L : 'M[F]_n) x : quad (L *m L^T) x = sqnorm (L^T *m x).
Proof. by rewrite quad_mul sqnorm_mul trmx_mul trmxK !mulmxA. Qed.
Lemma chol_pf n llt (A : 'M[F]_n) L : llt_ok llt -> symmetric A -> GetCholeskyDecomposition llt A = Ok L ->
  [/\ forall x, 0 <= quad A x, \det A = (\prod_i L i i) ^+ 2, A \in unitmx <-> (forall i, L i i != 0) &
      (forall i, L i i != 0) <-> forall x, x != 0 -> 0 < quad A x].
Proof.
move=> H SA E; have [_ /(_ L E) [HL /(_ SA) LL _]] := cholesky_all A H.
have D : \det A = (\prod_i L i i) ^+ 2 by rewrite -LL det_mulmx det_tr (det_lower HL) expr2.
have UU : A \in unitmx <-> (forall i, L i i != 0) by rewrite unitmxE D unitrX_pos //; apply: prod_unit.
split=> //.
- by move=> x; rewrite -LL quad_chol sqnorm_ge0.
- split=> [N x X|N].
    rewrite -LL quad_chol lt_neqAle sqnorm_ge0 andbT eq_sym; apply/negP => /eqP /sqnorm_eq0 Z.
    have I : L^T \in unitmx by rewrite unitmx_tr unitmxE (det_lower HL); apply/prod_unit.
    by move/eqP: X; apply; rewrite -(mulKmx I x) Z mulmx0.
  apply/UU; rewrite unitmxE unitfE; apply/det0P => -[v V Z].
  have := N v^T; rewrite quad_mul trmxK Z mul0mx mxE ltxx => H0; suff : false by [].
  by apply: H0; apply: contra V => /eqP E0; rewrite -[v]trmxK E0 trmx0.
Qed.
Lemma chol_same_pf n llt llt' (A : 'M[F]_n) L L' : llt_ok llt -> llt_ok llt' -> symmetric A ->
  GetCholeskyDecomposition llt A = Ok L -> GetCholeskyDecomposition llt' A = Ok L' ->
  (forall i, 0 < L i i) -> (forall i, 0 < L' i i) -> L = L'.
Proof.
move=> H H' SA E E' P P'; have [_ /(_ L E) [HL /(_ SA) LL _]] := cholesky_all A H.
have [_ /(_ L' E') [HL' /(_ SA) LL' _]] := cholesky_all A H'.
by apply: cholesky_unique => //; rewrite LL LL'.
Qed.
Lemma chol_psd_pf n llt (A : 'M[F]_n) L re eps : llt_ok llt -> symmetric A -> GetCholeskyDecomposition llt A = Ok L ->
  eigen_symmetric A re -> 0 < eps -> IsPositiveSemiDefinite A re eps = true.
Proof.
move=> H SA E R e0; apply/(psd_lemma eps R) => x X; have [Q _ _ _] := chol_pf H SA E.
apply: lt_le_trans (Q x); rewrite mulNr oppr_lt0 mulr_gt0 // lt_neqAle sqnorm_ge0 andbT eq_sym.
by apply/negP => /eqP /sqnorm_eq0 Z; case/eqP: X.
Qed.
End Proofs.

(** ** Examples *)
Lemma ex_lu_det : \det exA = - 2%:R.
Proof.
have [P [L [U [E' _]]]] := lu_lemma ex_lu; have [-> _] := lu_det_pf ex_lu E'.
move: E'; rewrite /GetLUDecomposition => -[_ _ <-]; rewrite odd_tperm big_ord_recl big_ord1 !mxE.
by apply/eqP; vm_compute.
Qed.
Lemma ex_qr_opp : qr_of (rot *m exT) (- rot) (- exmqr).
Proof.
have T : (- rot)^T = - rot^T by apply/matrixP=> i j; rewrite !mxE.
split; first by rewrite /orthonormal_columns T mulNmx mulmxN opprK; exact: rot_orth.
exists (- exT); split; last by rewrite mulNmx mulmxN opprK.
  by apply: ord2; apply: ord2 => //= _; rewrite !mxE ?oppr0.
by apply: ord2; apply: ord2 => //= _; rewrite !mxE.
Qed.
Lemma ex_qr_free : forall w : 'cV[rat]_2, rot *m exT *m w = 0 -> w = 0.
Proof.
have I : rot *m exT \in unitmx.
  rewrite unitmx_mul; apply/andP; split; first by case: (mulmx1_unit rot_orth).
  rewrite unitmxE det_upper => [|]; last by apply: ord2; apply: ord2 => //= _; rewrite !mxE.
  by rewrite big_ord_recl big_ord1 !mxE; vm_compute.
by move=> w Z; rewrite -(mulKmx I w) Z mulmx0.
Qed.
Lemma nsL_pos : forall i, 0 < nsL i i.
Proof. by apply: ord2; rewrite mxE. Qed.
Definition llt_four (A : 'M[rat]_1) : option 'M[rat]_1 := if A 0 0 == 4%:R then Some (2%:R)%:M else None.
Lemma llt_four_ok : llt_ok llt_four.
Proof.
split=> [A B H|A L]; first by rewrite /llt_four (H 0 0).
rewrite /llt_four; case: eqP => // E [<-]; split=> [i j|B _ H]; first by rewrite !ord1.
apply/matrixP=> i j; rewrite !ord1 -(H 0 0) // E tr_scalar_mx -scalar_mxM mxE.
by apply/eqP; vm_compute.
Qed.
Lemma ex_four : llt_ok llt_four /\ symmetric ((4%:R)%:M : 'M[rat]_1) /\
  GetCholeskyDecomposition llt_four ((4%:R)%:M : 'M[rat]_1) = Ok (2%:R)%:M /\ eigen_symmetric ((4%:R)%:M : 'M[rat]_1) [:: 4%:R].
Proof.
split; first exact: llt_four_ok; split; first exact: tr_scalar_mx; split; first by rewrite cholesky_square /llt_four mxE.
exists 1%:M, (const_mx 4%:R); split; first by rewrite /orthonormal_columns trmx1 mulmx1.
  by rewrite trmx1 mulmx1 mul1mx; apply/matrixP=> i j; rewrite !ord1 !mxE.
by rewrite enum_ordS enum_ord0 /= mxE.
Qed.
