(** Rank one updates of a Cholesky factor. *)
From mathcomp Require Import all_ssreflect all_fingroup all_algebra.
From Verif Require Import Outcome M_Matrix S_Matrix L_Matrix.
Set Implicit Arguments.
Unset Strict Implicit.
Unset Printing Implicit Defensive.
Import Order.Theory GRing.Theory Num.Theory.
Local Open Scope ring_scope.

Section Update.
Variable F : realFieldType.

Lemma update_lemma n (llt : 'M[F]_n -> bool * 'M[F]_n) upd A v sigma : chol_ok llt -> update_ok upd ->
  (llt A).1 -> (upd (llt A).2 v sigma).1 ->
  let L := GetCholeskyUpdate llt upd A v sigma in
  [/\ InPlaceCholeskyUpdate llt upd A v sigma = L, lower_triangular L,
      symmetric A -> L *m L^T = A + sigma *: (v *m v^T) &
      L *m L^T = MakeSymmetricFromLower A + sigma *: (v *m v^T)].
Proof.
move=> [_ C] U H1 H2 L; have [T E] := C A H1; have [T' E'] := U _ v sigma T H2.
have Lo : L *m L^T = MakeSymmetricFromLower A + sigma *: (v *m v^T).
  have [S G] := from_lower_lemma A.
  by rewrite /L /GetCholeskyUpdate E' (E (MakeSymmetricFromLower A)) // => i j H; rewrite G.
by split=> // S; rewrite Lo (symmetric_fixed S).2.
Qed.

(** No failure is reported. *)
Lemma update_silent n (llt : 'M[F]_n.+1 -> bool * 'M[F]_n.+1) upd v : exists A : 'M[F]_n.+1, symmetric A /\
  forall sigma, sigma <= 0 -> GetCholeskyUpdate llt upd A v sigma *m (GetCholeskyUpdate llt upd A v sigma)^T <> A + sigma *: (v *m v^T).
Proof.
exists (- 1%:M); split; first by rewrite /symmetric linearN /= trmx1.
move=> sigma Hs E; set L := GetCholeskyUpdate _ _ _ _ _ in E.
have : (L *m L^T) 0 0 = (- 1%:M + sigma *: (v *m v^T)) 0 0 by rewrite E.
rewrite !mxE big_ord1 !mxE /= => H.
have P : 0 <= \sum_j L 0 j * L^T j 0 by apply: sumr_ge0 => j _; rewrite mxE -expr2 sqr_ge0.
have N : - 1 + sigma * (v 0 0 * v 0 0) < 0.
  rewrite -[X in _ < X](addNr 1) ltr_add2l (le_lt_trans _ ltr01) //.
  by rewrite mulr_le0_ge0 // -expr2 sqr_ge0.
by move: P; rewrite H leNgt N.
Qed.

(** The object then holds the factor, so a second update is not an update of
    the sum. *)
Lemma in_place_twice (llt : 'M[F]_1 -> bool * 'M[F]_1) upd : chol_ok llt -> update_ok upd ->
  forall A : 'M[F]_1, 1 < A 0 0 -> (llt A).1 ->
  let A1 := InPlaceCholeskyUpdate llt upd A 0 0 in
  let A2 := InPlaceCholeskyUpdate llt upd A1 0 0 in
  (upd (llt A).2 0 0).1 -> (llt A1).1 -> (upd (llt A1).2 0 0).1 ->
  A1 *m A1^T = A /\ A2 *m A2^T = A1 /\ A2 *m A2^T <> A.
Proof.
move=> C U A HA H1 A1 A2 H2 H3 H4.
have sym (B : 'M[F]_1) : symmetric B by apply/matrixP=> i j; rewrite mxE !ord1.
have [_ _ E1 _] := update_lemma C U H1 H2; have [_ _ E2 _] := update_lemma C U H3 H4.
have {}E1 : A1 *m A1^T = A by rewrite -[RHS](addr0) -[X in _ = _ + X](scale0r ((0 : 'cV[F]_1) *m (0 : 'cV[F]_1)^T)); apply: E1.
have {}E2 : A2 *m A2^T = A1 by rewrite -[RHS](addr0) -[X in _ = _ + X](scale0r ((0 : 'cV[F]_1) *m (0 : 'cV[F]_1)^T)); apply: E2.
split=> //; split=> // E3; have E : A1 = A by rewrite -E2.
have : (A1 *m A1^T) 0 0 = A 0 0 by rewrite E1.
rewrite !mxE big_ord1 !mxE E => Q.
have : A 0 0 * A 0 0 = 1 * A 0 0 by rewrite mul1r.
move/mulIf => /(_ (lt0r_neq0 (lt_trans ltr01 HA))) X.
by move: HA; rewrite X ltxx.
Qed.

Lemma inverse_lemma n (inv : 'M[F]_n -> 'M[F]_n) A : (forall B, B \in unitmx -> inv B *m B = 1%:M) -> A \in unitmx ->
  [/\ GetInverse inv A = Inverse inv A, GetInverse inv A *m A = 1%:M & A *m GetInverse inv A = 1%:M].
Proof.
move=> H U; split=> //; first exact: H. by apply: mulmx1C; apply: H.
Qed.
End Update.

(** A factorisation that succeeds on 1 x 1 squares. *)
Definition llt1 (A : 'M[rat]_1) : bool * 'M[rat]_1 :=
  if A 0 0 == 16%:R then (true, (4%:R)%:M) else if A 0 0 == 4%:R then (true, (2%:R)%:M) else (false, 0).
Definition upd1 (L : 'M[rat]_1) (v : 'cV[rat]_1) (sigma : rat) : bool * 'M[rat]_1 :=
  if (v == 0) || (sigma == 0) then (true, L) else (false, 0).
Lemma llt1_ok : chol_ok llt1.
Proof.
have low (B : 'M[rat]_1) : lower_triangular B by move=> i j; rewrite !ord1.
split=> [A B H|A].
  have -> // : A = B by apply/matrixP=> i j; rewrite !ord1; apply: H.
rewrite /llt1; case: eqP => [E|_].
  move=> _; split=> // B _ H; apply/matrixP=> i j; rewrite !ord1 -H // E !mxE big_ord1 !mxE /=. by apply/eqP; vm_compute.
case: eqP => [E|_] // _; split=> // B _ H; apply/matrixP=> i j; rewrite !ord1 -H // E !mxE big_ord1 !mxE /=. by apply/eqP; vm_compute.
Qed.
Lemma upd1_ok : update_ok upd1.
Proof.
move=> L v s Lo; rewrite /upd1; case: eqP => [->|_] /=.
  by move=> _; split=> //; rewrite mul0mx scaler0 addr0.
by case: eqP => [->|_] //= _; split=> //; rewrite scale0r addr0.
Qed.
Definition m16 : 'M[rat]_1 := (16%:R)%:M.
Lemma m16_ok : let A1 := InPlaceCholeskyUpdate llt1 upd1 m16 0 0 in
  [/\ 1 < m16 0 0, (llt1 m16).1, (upd1 (llt1 m16).2 0 0).1, (llt1 A1).1 & (upd1 (llt1 A1).2 0 0).1].
Proof.
have E : llt1 m16 = (true, (4%:R)%:M) by rewrite /llt1 /m16 mxE.
have E1 : llt1 (4%:R)%:M = (true, (2%:R)%:M) by rewrite /llt1 mxE.
rewrite /InPlaceCholeskyUpdate /upd1 eqxx E /= E1 /=; split=> //; by rewrite /m16 mxE; vm_compute.
Qed.
Lemma in_place_twice_witness : exists (llt : 'M[rat]_1 -> bool * 'M[rat]_1) upd A v w s t,
  [/\ chol_ok llt, update_ok upd, symmetric A &
      let A1 := InPlaceCholeskyUpdate llt upd A v s in
      let A2 := InPlaceCholeskyUpdate llt upd A1 w t in
      [/\ (llt A).1, (upd (llt A).2 v s).1, (llt A1).1 & (upd (llt A1).2 w t).1] /\
      A2 *m A2^T <> A + s *: (v *m v^T) + t *: (w *m w^T)].
Proof.
exists llt1, upd1, m16, 0, 0, 0, 0; have [H1 H2 H3 H4 H5] := m16_ok.
split; [exact: llt1_ok|exact: upd1_ok|by rewrite /symmetric /m16 tr_scalar_mx|split=> //].
rewrite !scale0r !addr0. by have [_ [_ H]] := in_place_twice llt1_ok upd1_ok H1 H2 H3 H4 H5.
Qed.
