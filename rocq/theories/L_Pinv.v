(** Solving with the pseudo-inverse. *)
From mathcomp Require Import all_ssreflect all_fingroup all_algebra.
From Verif Require Import Outcome M_Matrix S_Matrix L_Matrix L_MatrixEx.
Set Implicit Arguments.
Unset Strict Implicit.
Unset Printing Implicit Defensive.
Import Order.Theory GRing.Theory Num.Theory.
Local Open Scope ring_scope.

Section Proofs.
Variable F : realFieldType.

Lemma mp_normal m n (A : 'M[F]_(m, n)) P (b : 'cV[F]_m) : moore_penrose A P -> A^T *m (A *m (P *m b) - b) = 0.
Proof.
move=> [A1 A2 A3 A4]; rewrite mulmxBr !mulmxA -[A^T *m A *m P]mulmxA.
by rewrite -A3 -trmx_mul A1 subrr.
Qed.
Lemma split_at m n (A : 'M[F]_(m, n)) (b : 'cV[F]_m) (x z : 'cV[F]_n) : A *m z - b = (A *m x - b) + A *m (z - x).
Proof. by rewrite mulmxBr [RHS]addrC addrA subrK. Qed.
Lemma mp_gap m n (A : 'M[F]_(m, n)) P (b : 'cV[F]_m) z : moore_penrose A P ->
  sqnorm (A *m z - b) = sqnorm (A *m (P *m b) - b) + sqnorm (A *m (z - P *m b)).
Proof.
move=> H; rewrite (split_at A b (P *m b) z) sqnormD.
have -> : (A *m (P *m b) - b)^T *m (A *m (z - P *m b)) = 0.
  by rewrite mulmxA -[(_ - _)^T *m A]trmxK trmx_mul trmxK (mp_normal b H) trmx0 mul0mx.
by rewrite mxE mulr0 addr0.
Qed.
Lemma mp_orth m n (A : 'M[F]_(m, n)) P (b : 'cV[F]_m) (w : 'cV[F]_n) : moore_penrose A P -> A *m w = 0 -> (P *m b)^T *m w = 0.
Proof.
move=> [A1 A2 A3 A4] Hw; have -> : P *m b = A^T *m (P^T *m (P *m b)).
  by rewrite mulmxA -trmx_mul A4 !mulmxA A2.
by rewrite trmx_mul trmxK -mulmxA Hw mulmx0.
Qed.
Lemma mp_least m n (A : 'M[F]_(m, n)) P (b : 'cV[F]_m) : moore_penrose A P ->
  (forall z, sqnorm (A *m (P *m b) - b) <= sqnorm (A *m z - b)) /\
  (forall z, sqnorm (A *m z - b) <= sqnorm (A *m (P *m b) - b) ->
     sqnorm (P *m b) <= sqnorm z /\ (sqnorm z <= sqnorm (P *m b) -> z = P *m b)).
Proof.
move=> H; split=> z; first by rewrite (mp_gap b z H) ler_addl sqnorm_ge0.
rewrite (mp_gap b z H) ger_addl => L.
have Z : A *m (z - P *m b) = 0 by apply: sqnorm_eq0; apply/eqP; rewrite eq_le L sqnorm_ge0.
have E : sqnorm z = sqnorm (P *m b) + sqnorm (z - P *m b).
  by rewrite -{1}(subrK (P *m b) z) addrC sqnormD (mp_orth b H Z) mxE mulr0 addr0.
rewrite E; split; first by rewrite ler_addl sqnorm_ge0.
rewrite ger_addl => L'; apply/eqP; rewrite -subr_eq0; apply/eqP.
by apply: sqnorm_eq0; apply/eqP; rewrite eq_le L' sqnorm_ge0.
Qed.

Definition kept k (S : 'cV[F]_k) tol := forall i, S i 0 = 0 \/ tol < S i 0.

Section Svd.
Variables (m n k : nat) (A : 'M[F]_(m, n)) (U : 'M[F]_(m, k)) (S : 'cV[F]_k) (V : 'M[F]_(n, k)) (tol : F).
Hypothesis SVD : svd_of A U S V.
Let P := GetPseudoInverse U S V tol.

Lemma least_pf (b : 'cV[F]_m) : 0 <= tol -> kept S tol ->
  (forall z, sqnorm (A *m (P *m b) - b) <= sqnorm (A *m z - b)) /\
  (forall z, sqnorm (A *m z - b) <= sqnorm (A *m (P *m b) - b) ->
     sqnorm (P *m b) <= sqnorm z /\ (sqnorm z <= sqnorm (P *m b) -> z = P *m b)).
Proof. by move=> T0 K; apply: mp_least; apply/(pinv_iff SVD T0). Qed.
Lemma solves_pf (b : 'cV[F]_m) : 0 <= tol -> kept S tol -> (exists y, A *m y = b) -> A *m (P *m b) = b.
Proof.
move=> T0 K [y <-]; have [A1 _ _ _] : moore_penrose A P := (pinv_iff SVD T0).2 K.
by rewrite (mulmxA P A y) (mulmxA A _ y) (mulmxA A P A) A1.
Qed.
Lemma left_pf : 0 <= tol -> kept S tol -> (forall w : 'cV[F]_n, A *m w = 0 -> w = 0) -> P *m A = 1%:M.
Proof.
move=> T0 K I; have [A1 _ _ _] : moore_penrose A P := (pinv_iff SVD T0).2 K.
apply/eqP; rewrite -subr_eq0; apply/eqP; apply/matrixP => i j.
have := I (col j (P *m A - 1%:M)); rewrite {1}colE (mulmxA A _ (delta_mx _ _)) mulmxBr mulmx1 (mulmxA A P A) A1 subrr mul0mx => /(_ erefl) /colP /(_ i).
by rewrite mxE => ->; rewrite !mxE.
Qed.
Lemma right_pf : 0 <= tol -> kept S tol -> (forall b : 'cV[F]_m, exists y, A *m y = b) -> A *m P = 1%:M.
Proof.
move=> T0 K I; apply/matrixP => i j; have := solves_pf T0 K (I (col j 1%:M)).
by rewrite (mulmxA A P) {1}colE mul1mx -colE => /colP /(_ i); rewrite mxE => ->; rewrite mxE.
Qed.
End Svd.

Lemma inverse_pf n k (A : 'M[F]_n) (U : 'M[F]_(n, k)) S (V : 'M[F]_(n, k)) tol : svd_of A U S V -> 0 <= tol -> kept S tol ->
  A \in unitmx -> GetPseudoInverse U S V tol = invmx A.
Proof.
move=> SVD T0 K I; have L := left_pf SVD T0 K _; rewrite -[LHS](mulmxK I) L ?mul1mx // => w Hw.
by rewrite -(mulKmx I w) Hw mulmx0.
Qed.
Lemma involution_pf m n k l (A : 'M[F]_(m, n)) (U : 'M[F]_(m, k)) S (V : 'M[F]_(n, k)) tol
    (U' : 'M[F]_(n, l)) S' (V' : 'M[F]_(m, l)) tol' :
  svd_of A U S V -> 0 <= tol -> kept S tol ->
  svd_of (GetPseudoInverse U S V tol) U' S' V' -> 0 <= tol' -> kept S' tol' ->
  GetPseudoInverse U' S' V' tol' = A.
Proof.
move=> SVD T0 K SVD' T0' K'; have [A1 A2 A3 A4] := (pinv_iff SVD T0).2 K.
by apply: mp_unique ((pinv_iff SVD' T0').2 K') _; split.
Qed.

(** ** Any tolerance *)
Lemma sqnorm_iso m n (Q : 'M[F]_(m, n)) x : orthonormal_columns Q -> sqnorm (Q *m x) = sqnorm x.
Proof. by move=> H; rewrite !sqnorm_mul trmx_mul mulmxA -(mulmxA _ Q^T) H mulmx1. Qed.
Lemma bessel m n (Q : 'M[F]_(m, n)) (b : 'cV[F]_m) : orthonormal_columns Q -> sqnorm (Q^T *m b) <= sqnorm b.
Proof.
move=> H; rewrite -(sqnorm_iso (Q^T *m b) H) -{2}(subrK (Q *m (Q^T *m b)) b) sqnormD.
have -> : (b - Q *m (Q^T *m b))^T *m (Q *m (Q^T *m b)) = 0.
  by rewrite linearB /= mulmxBl !trmx_mul trmxK !mulmxA -(mulmxA _ Q^T Q) H mulmx1 subrr.
by rewrite mxE mulr0 addr0 ler_addr sqnorm_ge0.
Qed.
Lemma sqnorm_diag k (d : 'rV[F]_k) (y : 'cV[F]_k) c : (forall i, d 0 i ^+ 2 <= c) -> sqnorm (diag_mx d *m y) <= c * sqnorm y.
Proof.
move=> H; rewrite /sqnorm mulr_sumr; apply: ler_sum => i _.
by rewrite mul_diag_mx mxE exprMn; apply: ler_wpmul2r; rewrite ?sqr_ge0.
Qed.
Lemma sqnorm_udv m n k (U : 'M[F]_(m, k)) (d : 'rV[F]_k) (V : 'M[F]_(n, k)) (y : 'cV[F]_n) c :
  orthonormal_columns U -> orthonormal_columns V -> 0 <= c -> (forall i, d 0 i ^+ 2 <= c) ->
  sqnorm (U *m diag_mx d *m V^T *m y) <= c * sqnorm y.
Proof.
move=> HU HV C0 H; rewrite -!mulmxA sqnorm_iso //; apply: le_trans (sqnorm_diag _ H) _.
by apply: ler_wpmul2l => //; apply: bessel.
Qed.

Section Trunc.
Variables (m n k : nat) (A : 'M[F]_(m, n)) (U : 'M[F]_(m, k)) (S : 'cV[F]_k) (V : 'M[F]_(n, k)) (tol : F).
Hypothesis SVD : svd_of A U S V.
Let P := GetPseudoInverse U S V tol.
Let d1 : 'rV[F]_k := \row_i (if tol < S i 0 then S i 0 else 0).
Let d2 : 'rV[F]_k := \row_i (if tol < S i 0 then 0 else S i 0).

Lemma bounded_pf (b : 'cV[F]_m) : 0 < tol -> sqnorm (P *m b) <= sqnorm b / tol ^+ 2.
Proof.
move=> T0; have [HU HV _ _] := SVD; rewrite mulrC /P /GetPseudoInverse; apply: sqnorm_udv => //.
  by rewrite invr_ge0 sqr_ge0.
move=> i; rewrite !mxE; case: ifP => H; last by rewrite expr0n /= invr_ge0 sqr_ge0.
have S0 := lt_trans T0 H.
by rewrite div1r exprVn lef_pinv ?posrE ?exprn_gt0 // ler_expn2r ?nnegrE // ltW.
Qed.
Lemma A_split : A = U *m diag_mx d1 *m V^T + U *m diag_mx d2 *m V^T.
Proof.
have [_ _ -> _] := SVD; rewrite -mulmxDl -mulmxDr -linearD /=; congr (_ *m diag_mx _ *m _).
by apply/rowP=> i; rewrite !mxE; case: ifP; rewrite ?addr0 ?add0r.
Qed.
Lemma small2 (y : 'cV[F]_n) : 0 <= tol -> sqnorm (U *m diag_mx d2 *m V^T *m y) <= tol ^+ 2 * sqnorm y.
Proof.
move=> T0; have [HU HV _ S0] := SVD; apply: sqnorm_udv => //; first by rewrite sqr_ge0.
move=> i; rewrite mxE; case: ifP => H; first by rewrite expr0n /= sqr_ge0.
by rewrite ler_expn2r ?nnegrE // leNgt H.
Qed.
Lemma A_kept (b : 'cV[F]_m) : 0 <= tol -> A *m (P *m b) = U *m diag_mx d1 *m V^T *m (P *m b).
Proof.
move=> T0; have [HU HV E S0] := SVD; rewrite (mulmxA A P b) (mulmxA _ P b); congr (_ *m _).
rewrite E /P /GetPseudoInverse !(udv_mul _ _ _ _ V) //; congr (_ *m diag_mx _ *m _).
by apply/rowP=> i; rewrite !mxE; case: ifP => // _; rewrite !mulr0.
Qed.
Lemma consistent_pf (y : 'cV[F]_n) : 0 <= tol -> sqnorm (A *m (P *m (A *m y)) - A *m y) <= tol ^+ 2 * sqnorm y.
Proof.
move=> T0; have [A1 A2 A3 A4] := pinv_truncated SVD T0.
have -> : A *m (P *m (A *m y)) - A *m y = - (U *m diag_mx d2 *m V^T *m y).
  have [HU HV E S0] := SVD; have -> : A *m (P *m (A *m y)) = U *m diag_mx d1 *m V^T *m y.
    rewrite (mulmxA P A y) (mulmxA A _ y) (mulmxA A P A) (APA_eq tol SVD); congr (_ *m diag_mx _ *m _ *m _); apply/rowP=> i; rewrite !mxE.
    case: ifP => H; last by rewrite mulr0 mul0r.
    have N : S i 0 != 0 by rewrite gt_eqF // (le_lt_trans T0 H).
    by rewrite div1r mulfV // mul1r.
  by rewrite A_split mulmxDl opprD addrA subrr sub0r.
apply: le_trans (small2 y T0); rewrite /sqnorm; apply: ler_sum => i _.
by rewrite [X in X ^+ 2 <= _]mxE sqrrN.
Qed.
Lemma young p (u v : 'cV[F]_p) t : 0 < t -> sqnorm (u - v) <= (1 + t) * sqnorm u + (1 + t^-1) * sqnorm v.
Proof.
move=> T0; rewrite /sqnorm !mulr_sumr -big_split /=; apply: ler_sum => i _; rewrite !mxE.
set a := u i 0; set b := v i 0.
have N : t != 0 by rewrite gt_eqF.
have K : t^-1 * (t * a + b) ^+ 2 = t * a ^+ 2 + (a * b) *+ 2 + t^-1 * b ^+ 2.
  by rewrite sqrrD mulrDr mulrDr mulrnAr -(mulrA t a b) (mulrA t^-1 t) mulVf // mul1r exprMn mulrA (expr2 t) (mulrA t^-1) mulVf // mul1r.
have Z (x y q w r : F) : x + q + (y + r) = x - w + y + (q + w + r).
  by rewrite [x - w + y]addrAC [q + w]addrC !addrA subrK -!addrA; congr (x + _); rewrite addrCA.
have -> : (1 + t) * a ^+ 2 + (1 + t^-1) * b ^+ 2 = (a - b) ^+ 2 + t^-1 * (t * a + b) ^+ 2.
  by rewrite K sqrrB !mulrDl !mul1r; apply: Z.
by rewrite ler_addl mulr_ge0 ?invr_ge0 ?sqr_ge0 // ltW.
Qed.
Lemma residual_pf (b : 'cV[F]_m) z t : 0 <= tol -> 0 < t ->
  sqnorm (A *m (P *m b) - b) <= (1 + t) * sqnorm (A *m z - b) + (1 + t^-1) * (tol ^+ 2 * sqnorm z).
Proof.
move=> T0 t0; have [L _] := mp_least b (pinv_truncated SVD T0).
rewrite (A_kept b T0); apply: le_trans (L z) _.
have -> : U *m diag_mx d1 *m V^T *m z - b = (A *m z - b) - U *m diag_mx d2 *m V^T *m z.
  by rewrite A_split mulmxDl [RHS]addrAC addrK.
apply: le_trans (young _ _ t0) _; rewrite ler_add2l; apply: ler_wpmul2l; last exact: small2.
by apply: addr_ge0; [exact: ler01|rewrite invr_ge0 ltW].
Qed.
End Trunc.

(** ** The decomposition does not matter *)
Section Same.
Variables (m n : nat) (A : 'M[F]_(m, n)) (tol : F).
Hypothesis T0 : 0 <= tol.
Definition cut k (S : 'cV[F]_k) p : 'rV[F]_k := \row_i (if tol < S i 0 then S i 0 ^- p else 0).

Lemma trA k U (S : 'cV[F]_k) V : svd_of A U S V -> A^T = V *m diag_mx S^T *m U^T.
Proof. by move=> [_ _ -> _]; rewrite !trmx_mul trmxK tr_diag_mx mulmxA. Qed.
Lemma VVA k U (S : 'cV[F]_k) V : svd_of A U S V -> V *m V^T *m A^T = A^T.
Proof.
move=> H; have [_ HV _ _] := H; rewrite (trA H) !mulmxA -(mulmxA V V^T V) HV mulmx1 //.
Qed.
Lemma P_cut k U (S : 'cV[F]_k) V : svd_of A U S V -> GetPseudoInverse U S V tol = V *m diag_mx (cut S 2) *m V^T *m A^T.
Proof.
move=> H; have [_ HV _ _] := H; rewrite (trA H) (udv_mul _ _ _ _ V) // /GetPseudoInverse.
congr (_ *m diag_mx _ *m _); apply/rowP=> i; rewrite !mxE; case: ifP => L; last by rewrite mul0r.
have N : S i 0 != 0 by rewrite gt_eqF // (le_lt_trans T0 L).
by rewrite div1r expr2 invfM -mulrA mulVf // mulr1.
Qed.
Lemma V_cut k U (S : 'cV[F]_k) V : svd_of A U S V -> V *m diag_mx (cut S 2) = A^T *m (U *m diag_mx (cut S 3)).
Proof.
move=> H; have [HU _ _ _] := H; rewrite (trA H) mulmxA -(mulmxA _ U^T U) HU mulmx1 -mulmxA mulmx_diag.
congr (_ *m diag_mx _); apply/rowP=> i; rewrite !mxE; case: ifP => L; last by rewrite mulr0.
have N : S i 0 != 0 by rewrite gt_eqF // (le_lt_trans T0 L).
by rewrite (exprS _ 2) [(S i 0 * _)^-1]invfM mulrA mulfV // mul1r.
Qed.
Lemma gram k U (S : 'cV[F]_k) V : svd_of A U S V -> A^T *m A = V *m diag_mx (\row_i (S i 0 ^+ 2)) *m V^T.
Proof.
move=> H; have [HU _ E _] := H; rewrite (trA H) {1}E (udv_mul _ _ _ _ V) //.
by congr (_ *m diag_mx _ *m _); apply/rowP=> i; rewrite !mxE expr2.
Qed.
Lemma commutes k l U (S : 'cV[F]_k) V U' (S' : 'cV[F]_l) V' p : svd_of A U S V -> svd_of A U' S' V' ->
  diag_mx (cut S' p) *m (V'^T *m V) = V'^T *m V *m diag_mx (cut S p).
Proof.
move=> H H'; have [_ HV _ S0] := H; have [_ HV' _ S0'] := H'.
have E : diag_mx (\row_i (S' i 0 ^+ 2)) *m (V'^T *m V) = V'^T *m V *m diag_mx (\row_i (S i 0 ^+ 2)).
  have : V'^T *m (A^T *m A) *m V = V'^T *m (A^T *m A) *m V by [].
  by rewrite {1}(gram H') (gram H) !mulmxA HV' mul1mx -!(mulmxA _ V^T V) HV mulmx1 => ->.
apply/matrixP=> i j; move/matrixP/(_ i j): E; rewrite !mul_diag_mx !mul_mx_diag !mxE.
set w := \sum_ _ _ => E; have : w * (S' i 0 ^+ 2 - S j 0 ^+ 2) = 0 by rewrite mulrBr -E mulrC subrr.
move/eqP; rewrite mulf_eq0 subr_eq0 => /orP[/eqP ->|]; first by rewrite mulr0 mul0r.
by rewrite eqr_expn2 // => /eqP ->; rewrite mulrC.
Qed.
Lemma same_pf k l U (S : 'cV[F]_k) V U' (S' : 'cV[F]_l) V' : svd_of A U S V -> svd_of A U' S' V' ->
  GetPseudoInverse U S V tol = GetPseudoInverse U' S' V' tol.
Proof.
move=> H H'; rewrite (P_cut H) (P_cut H').
have -> : V' *m diag_mx (cut S' 2) *m V'^T *m A^T = V' *m (diag_mx (cut S' 2) *m (V'^T *m V)) *m V^T *m A^T.
  by rewrite -{1}(VVA H) !mulmxA.
rewrite (commutes _ H H'); congr (_ *m _).
have -> : V' *m (V'^T *m V *m diag_mx (cut S 2)) *m V^T = V' *m V'^T *m (V *m diag_mx (cut S 2)) *m V^T by rewrite !mulmxA.
by rewrite (V_cut H) (mulmxA (V' *m V'^T)) (VVA H').
Qed.
End Same.
End Proofs.

(** ** Examples *)
Lemma ex_value : GetPseudoInverse rot (col2 3%:R 0) rot (1%:R / 10%:R) *m col2 25%:R 0 = col2 3%:R 4%:R.
Proof. by apply/colP; apply: ord2; rewrite !mxE !sum2 !mxE !sum2 !mxE !sum2 !mxE; apply/eqP; vm_compute. Qed.
Lemma ps_svd : svd_of psA rot (col2 1 2%:R) rot.
Proof. by split=> //; [exact: rot_orth|exact: rot_orth|apply: ord2; rewrite mxE]. Qed.
Lemma ps_kept : forall i, (col2 1 2%:R) i 0 = 0 \/ 1%:R / 10%:R < (col2 1 2%:R) i 0.
Proof. by apply: ord2; rewrite mxE; right. Qed.
Lemma rot_unit : rot \in unitmx.
Proof. by have := mulmx1_unit rot_orth; case. Qed.
Lemma ps_unit : psA \in unitmx.
Proof.
rewrite !unitmx_mul unitmx_tr rot_unit /= andbT unitmxE det_diag unitfE.
by rewrite big_ord_recl big_ord1 !mxE; vm_compute.
Qed.
Lemma sv_image : exists y, svA *m y = col2 3%:R 4%:R.
Proof.
exists (col2 1 (4%:R / 3%:R)); apply/colP; apply: ord2; rewrite !mxE !sum2 !mxE !sum2 !mxE !sum2 !mxE; by apply/eqP; vm_compute.
Qed.
Lemma ex_two : svd_of (1%:M : 'M[rat]_2) 1%:M (col2 1 1) 1%:M /\ svd_of (1%:M : 'M[rat]_2) rot (col2 1 1) rot /\ rot <> 1%:M.
Proof.
have D : diag_mx (col2 1 1)^T = 1%:M by apply: mx2_eq; rewrite !mxE.
split; [|split].
- by split; rewrite /orthonormal_columns ?D ?trmx1 ?mulmx1 //; apply: ord2; rewrite mxE.
- split; rewrite ?D ?mulmx1; [exact: rot_orth|exact: rot_orth| |by apply: ord2; rewrite mxE].
  by rewrite (mulmx1C rot_orth).
- by move/matrixP/(_ 0 0); rewrite !mxE => /eqP; vm_compute.
Qed.
