(** Coefficients of Chebyshev series of two and three variables in binary64. *)
From Coq Require Import List Arith ZArith Reals Bool Lia Lra Psatz.
From Flocq Require Import Core.Core IEEE754.BinarySingleNaN.
From Verif Require Import Outcome Num NumFun F64 L_F64 L_Linspace64 L_F64Err M_Series S_Series L_Series S_Angles S_Double S_Rot64 L_Series64
  L_Interp64 L_Special64 L_Apx M_Cheb S_Cheb L_Cheb L_Cheb2 L_Cheb3 S_Ser64 L_Ser64 L_E1d S_Der64 L_Der64 S_DCheb64 L_DCheb64 S_CCoef64 L_CCoef64.
Import ListNotations.
Local Open Scope R_scope.

Definition pairs (m n : nat) : list (nat * nat) := flat_map (fun i => map (fun j => (i, j)) (seq 0 (n + 1))) (seq 0 (m + 1)).
Lemma pairs_in m n i j : In (i, j) (pairs m n) -> (i <= m)%nat /\ (j <= n)%nat.
Proof.
  unfold pairs. intros H. apply in_flat_map in H as (i' & Hi & H). apply in_map_iff in H as (j' & E & Hj). apply in_seq in Hi, Hj. injection E as -> ->. lia.
Qed.
Lemma pairs_ls m n (f : nat -> nat -> R) : ls (fun q => f (fst q) (snd q)) (pairs m n) = bsum (m + 1) (fun i => bsum (n + 1) (fun j => f i j)).
Proof. unfold pairs. rewrite ls_flat, ls_seq. apply bsum_ext. intros i _. rewrite ls_map, ls_seq. reflexivity. Qed.
Lemma pairs_length m n : length (pairs m n) = ((m + 1) * (n + 1))%nat.
Proof. unfold pairs. rewrite (flat_length _ _ (n + 1)), seq_length; [reflexivity|]. intros i. rewrite map_length, seq_length. reflexivity. Qed.
Lemma pairs_fold m n (g : nat -> nat -> f64) acc : fold_left (fun acc r => acc_loop n acc (fun s => g r s)) (seq 0 (m + 1)) acc = fold_left (fun acc q => acc +! g (fst q) (snd q)) (pairs m n) acc.
Proof. unfold pairs. rewrite fold_flat. apply fold_ext. intros acc' i. rewrite fold_map. reflexivity. Qed.

(** Products of polynomials, one factor at a time. *)
Lemma step_near kappa (TT : NumTr f64) (p : f64) P M ep n r i : libm_near kappa TT -> 0 <= kappa <= 1000 -> coef_err kappa n <= / 10 -> (r <= n)%nat -> (i <= n)%nat -> tiny <= M <= bpow radix2 600 ->
  is_finite p = true -> Rabs P <= M -> Rabs (val p - P) <= ep * M -> 0 <= ep <= / 4 ->
  let e := rerr i (kappa + 16) in let q := p *! chebyshev_t i (cheb_node (T := f64) n r) in
  is_finite q = true /\ Rabs (P * cheb i (node n r)) <= M /\ Rabs (val q - P * cheb i (node n r)) <= (11 / 10 * ep + e + 2 * u53) * M.
Proof.
  intros HL HK HE Hr Hi HM Fp HP HEp Hep e q. assert (U := u_tiny). assert (TP := proj1 tiny_big600).
  destruct (t_node kappa TT n r i HL HK HE Hr Hi) as (FT & ET & BT & Be). fold e in ET, Be.
  destruct (prod_near p _ P _ M 1 ep e Fp FT HP BT HEp ET) as (F & B & E); try lra.
  - assert (bpow radix2 600 <= big) by (unfold big; apply bpow_le; lia). lra.
  - split; [exact F|]. split; [lra|]. apply Rle_trans with (1 := E). rewrite Rmult_1_r. apply Rmult_le_compat_r; [lra|].
    assert (ep * e <= ep * / 10) by (apply Rmult_le_compat_l; lra). lra.
Qed.
Lemma prod_le a b : a * b <= / 2 * (a * a + b * b).
Proof. assert (0 <= (a - b) * (a - b)) by (change (0 <= Rsqr (a - b)); apply Rle_0_sqr). lra. Qed.
Lemma weight_1 n i : INR n + 1 <> 0 -> weight n i = (if (i =? 0)%nat then / 2 else 1) * (2 / (INR n + 1)).
Proof. intros H. destruct i; cbn [weight Nat.eqb]; field; exact H. Qed.

Lemma coef2_near kappa (TT : NumTr f64) (f : f64 -> f64 -> f64) (ax ay : axis f64) m n M : libm_near kappa TT -> 0 <= kappa <= 1000 -> axis_usable ax -> axis_usable ay ->
  sampled2 kappa f ax ay m n M -> tiny <= M <= bpow radix2 600 -> coef_err2 kappa m n <= / 10 -> forall i j, (i <= m)%nat -> (j <= n)%nat ->
  within (4 * coef_err2 kappa m n * M) (c2_a (cs2_compute_aij (cs2_new f ax ay m n)) i j)
    (weight m i * weight n j * bsum (m + 1) (fun r => bsum (n + 1) (fun s => dvalue (f (xs ax m r) (xs ay n s)) * cheb i (node m r) * cheb j (node n s)))).
Proof.
  intros HL HK HA HA' HS HM HE2 i j Hi Hj. assert (U := u_tiny). assert (TP := proj1 tiny_big600). unfold coef_err2 in *.
  assert (C1 := coef_err_nonneg kappa m (proj1 HK)). assert (C2 := coef_err_nonneg kappa n (proj1 HK)).
  assert (HE : coef_err kappa m <= / 10) by lra. assert (HE' : coef_err kappa n <= / 10) by lra.
  assert (N26 := order_small kappa m (proj1 HK) HE). assert (N1 := one_np m). assert (N26' := order_small kappa n (proj1 HK) HE'). assert (N1' := one_np n).
  destruct (scale2 m n N26 N26') as (D0 & Fd & Ed). set (D := 4 / (INR (m + 1) * INR (n + 1))) in *.
  set (e := rerr i (kappa + 16)). assert (RE := rerr_coef kappa m i (proj1 HK) Hi). fold e in RE. assert (SP := coef_split kappa m). destruct (coef_rest kappa m (proj1 HK)) as (CR & CU).
  set (e' := rerr j (kappa + 16)). assert (RE' := rerr_coef kappa n j (proj1 HK) Hj). fold e' in RE'. assert (SP' := coef_split kappa n). destruct (coef_rest kappa n (proj1 HK)) as (CR' & CU').
  assert (L : INR (length (pairs m n)) = INR (m + 1) * INR (n + 1)) by (rewrite pairs_length, mult_INR; reflexivity).
  assert (PL := prod_le (INR (m + 1)) (INR (n + 1))). set (N := INR (m + 1) * INR (n + 1)) in *.
  assert (N0 : 0 < N) by (apply Rmult_lt_0_compat; lra).
  assert (PU : N * u53 <= / 2 * (INR (m + 1) * INR (m + 1) * u53 + INR (n + 1) * INR (n + 1) * u53)).
  { replace (/ 2 * (INR (m + 1) * INR (m + 1) * u53 + INR (n + 1) * INR (n + 1) * u53)) with (/ 2 * (INR (m + 1) * INR (m + 1) + INR (n + 1) * INR (n + 1)) * u53) by ring. apply Rmult_le_compat_r; lra. }
  assert (NU : 0 <= N * u53) by (apply Rmult_le_pos; lra).
  assert (TE : 0 <= INR (m + 1) * INR (m + 1) * (3 * kappa + 60) * u53 <= 3 / 4 * coef_err kappa m).
  { split; [lra|]. unfold coef_err. rewrite uround_u53. replace (3 / 4 * (INR (m + 1) * INR (m + 1) * (4 * kappa + 100) * u53)) with (INR (m + 1) * INR (m + 1) * (3 * kappa + 75) * u53) by field.
    apply Rmult_le_compat_r; [lra|]. apply Rmult_le_compat_l; [assert (X := sq_le m); lra|lra]. }
  assert (KE : 11 / 10 * (INR (m + 1) * INR (m + 1) * (3 * kappa + 60) * u53) <= INR (m + 1) * INR (m + 1) * (3 * kappa + 60) * u53 + 1 / 2 * (INR (m + 1) * INR (m + 1) * (kappa + 40) * u53)).
  { assert (/ 10 * (3 * kappa + 60) <= 1 / 2 * (kappa + 40)) by lra.
    assert (INR (m + 1) * INR (m + 1) * u53 * (/ 10 * (3 * kappa + 60)) <= INR (m + 1) * INR (m + 1) * u53 * (1 / 2 * (kappa + 40))) by (apply Rmult_le_compat_l; [assert (X := sq_le m); apply Rmult_le_pos; lra|lra]). lra. }
  set (g := fun r s => f (xs ax m r) (xs ay n s) *! chebyshev_t i (cheb_node (T := f64) m r) *! chebyshev_t j (cheb_node (T := f64) n s)).
  set (G := fun r s => val (f (xs ax m r) (xs ay n s)) * cheb i (node m r) * cheb j (node n s)).
  assert (T : forall q, In q (pairs m n) -> is_finite (g (fst q) (snd q)) = true /\ Rabs (G (fst q) (snd q)) <= M /\ Rabs (val (g (fst q) (snd q)) - G (fst q) (snd q)) <= (11 / 10 * e + e' + 5 * u53) * M).
  { intros [r s] Hq. apply pairs_in in Hq as (Hr & Hs). cbn [fst snd].
    destruct (HS r (xs ax m r) Hr (seg_near kappa TT ax m r HL HK HE HA Hr) s (xs ay n s) Hs (seg_near kappa TT ay n s HL HK HE' HA' Hs)) as (FF & BF). unfold dvalue in BF.
    destruct (step_near kappa TT _ (val (f (xs ax m r) (xs ay n s))) M 0 m r i HL HK HE Hr Hi HM FF BF) as (F1 & B1 & E1); [rewrite Rminus_diag_eq, Rabs_R0 by reflexivity; lra|lra|]. fold e in E1.
    destruct (step_near kappa TT _ _ M (e + 2 * u53) n s j HL HK HE' Hs Hj HM F1 B1) as (F2 & B2 & E2); [apply Rle_trans with (1 := E1); apply Rmult_le_compat_r; lra|lra|]. fold e' in E2.
    split; [exact F2|]. split; [exact B2|]. apply Rle_trans with (1 := E2). apply Rmult_le_compat_r; lra. }
  assert (ND : N * D = 4) by (unfold D, N; field; lra).
  destruct (coef_gen (pairs m n) (fun q => g (fst q) (snd q)) (fun q => G (fst q) (snd q)) (11 / 10 * e + e' + 5 * u53) M _ D 4 T ltac:(lra) ltac:(rewrite L; lra) ltac:(rewrite L; lra) HM ltac:(lra) ltac:(rewrite L; exact ND) D0 Fd Ed) as (FV & BV & EV).
  rewrite L in EV. rewrite pairs_ls in BV, EV. set (S := bsum (m + 1) (fun r => bsum (n + 1) (fun s => G r s))) in *.
  change (bsum (m + 1) (fun r => bsum (n + 1) (fun s => dvalue (f (xs ax m r) (xs ay n s)) * cheb i (node m r) * cheb j (node n s)))) with S.
  rewrite <- (pairs_fold m n g) in FV, EV. set (v := fold_left _ (seq 0 (m + 1)) (nofZ 0) *! _) in *.
  set (E := 11 / 10 * e + e' + 5 * u53 + 3 / 2 * N * u53 + 15 * u53) in *.
  assert (FIN : (E + 3 * u53) * (M * 4) <= 4 * (coef_err kappa m + coef_err kappa n) * M).
  { replace (4 * (coef_err kappa m + coef_err kappa n) * M) with ((coef_err kappa m + coef_err kappa n) * (M * 4)) by ring. apply Rmult_le_compat_r; [lra|]. unfold E. lra. }
  assert (U0 : 0 <= 3 * u53 * (M * 4)) by (apply Rmult_le_pos; lra).
  assert (BB : M * 4 <= bpow radix2 700) by (assert (bpow radix2 600 * 4 <= bpow radix2 700) by (change 4 with (bpow radix2 2); rewrite <- bpow_plus; apply bpow_le; lia); lra).
  assert (EE : 0 <= E <= 1) by (unfold E; lra).
  destruct (ofZ_ok 2 ltac:(lia)) as (F2 & V2). destruct (ofZ_ok 4 ltac:(lia)) as (F4 & V4).
  destruct (quot_near v (nofZ 2) (S * D) (M * 4) E 2 FV BV EV EE ltac:(lra) F2 V2 ltac:(lra)) as (FQ2 & EQ2).
  destruct (quot_near v (nofZ 4) (S * D) (M * 4) E 4 FV BV EV EE ltac:(lra) F4 V4 ltac:(lra)) as (FQ4 & EQ4).
  change (c2_a (cs2_compute_aij (cs2_new f ax ay m n)) i j) with (if ((i =? 0) && (j =? 0))%nat then v /! nofZ 4 else if ((i =? 0) && negb (j =? 0) || negb (i =? 0) && (j =? 0))%nat then v /! nofZ 2 else v).
  rewrite plus_INR in N1, N1'. change (INR 1) with 1 in N1, N1'. rewrite !weight_1 by lra. unfold within, dvalue.
  assert (ED : D = 2 / (INR m + 1) * (2 / (INR n + 1))) by (unfold D, N; rewrite !plus_INR; change (INR 1) with 1; field; lra).
  replace ((if (i =? 0)%nat then / 2 else 1) * (2 / (INR m + 1)) * ((if (j =? 0)%nat then / 2 else 1) * (2 / (INR n + 1))) * S) with ((if (i =? 0)%nat then / 2 else 1) * (if (j =? 0)%nat then / 2 else 1) * (S * D)) by (rewrite ED; ring).
  clear - FV EV FQ2 EQ2 FQ4 EQ4 FIN U0. destruct (i =? 0)%nat, (j =? 0)%nat; cbn [andb orb negb].
  - split; [exact FQ4|]. replace (/ 2 * / 2 * (S * D)) with (S * D / 4) by field. lra.
  - split; [exact FQ2|]. replace (/ 2 * 1 * (S * D)) with (S * D / 2) by field. lra.
  - split; [exact FQ2|]. replace (1 * / 2 * (S * D)) with (S * D / 2) by field. lra.
  - split; [exact FV|]. replace (1 * 1 * (S * D)) with (S * D) by ring. lra.
Qed.

(** ** Three variables *)
Lemma triples_fold_acc m n p (g : nat -> nat -> nat -> f64) acc :
  fold_left (fun acc r => fold_left (fun acc s => acc_loop p acc (fun t => g r s t)) (seq 0 (n + 1)) acc) (seq 0 (m + 1)) acc = fold_left (fun acc q => acc +! g (fst (fst q)) (snd (fst q)) (snd q)) (triples m n p) acc.
Proof.
  unfold triples. rewrite fold_flat. apply fold_ext. intros acc1 i. rewrite fold_flat. apply fold_ext. intros acc2 j. rewrite fold_map. reflexivity.
Qed.
Lemma axis_part kappa n i : 0 <= kappa -> (i <= n)%nat -> 0 <= rerr i (kappa + 16) /\ 121 / 100 * rerr i (kappa + 16) + 12 * u53 <= coef_err kappa n.
Proof.
  intros HK Hi. assert (R := rerr_coef kappa n i HK Hi). assert (S := sq_le n). assert (U := u_tiny). split; [lra|].
  assert (Q : 1 * u53 <= INR (n + 1) * INR (n + 1) * u53) by (apply Rmult_le_compat_r; lra). set (w := INR (n + 1) * INR (n + 1) * u53) in *.
  assert (E1 : INR (n + 1) * INR (n + 1) * (3 * kappa + 60) * u53 = w * (3 * kappa + 60)) by (unfold w; ring).
  assert (E2 : coef_err kappa n = w * (4 * kappa + 100)) by (unfold coef_err; rewrite uround_u53; unfold w; ring).
  assert (0 <= w * kappa) by (apply Rmult_le_pos; lra). lra.
Qed.
Lemma coef3_near kappa (TT : NumTr f64) (f : f64 -> f64 -> f64 -> f64) (ax ay az : axis f64) m n p M : libm_near kappa TT -> 0 <= kappa <= 1000 -> axis_usable ax -> axis_usable ay -> axis_usable az ->
  sampled3 kappa f ax ay az m n p M -> tiny <= M <= bpow radix2 600 -> coef_err3 kappa m n p <= / 10 -> forall k i j, (k <= p)%nat -> (i <= m)%nat -> (j <= n)%nat ->
  within (8 * coef_err3 kappa m n p * M) (c3_a (cs3_compute_aijk (cs3_new f ax ay az m n p)) k i j)
    (weight m i * weight n j * weight p k * bsum (m + 1) (fun r => bsum (n + 1) (fun s => bsum (p + 1) (fun t =>
       dvalue (f (xs ax m r) (xs ay n s) (xs az p t)) * cheb i (node m r) * cheb j (node n s) * cheb k (node p t))))).
Proof.
  intros HL HK HA HA' HA'' HS HM HE3 k i j Hk Hi Hj. assert (U := u_tiny). assert (TP := proj1 tiny_big600). unfold coef_err3 in *. rewrite uround_u53 in *.
  assert (C1 := coef_err_nonneg kappa m (proj1 HK)). assert (C2 := coef_err_nonneg kappa n (proj1 HK)). assert (C3 := coef_err_nonneg kappa p (proj1 HK)).
  set (Nn := ((m + 1) * (n + 1) * (p + 1))%nat) in *. assert (NU : 0 <= INR Nn * u53) by (apply Rmult_le_pos; [apply pos_INR|lra]).
  assert (HE : coef_err kappa m <= / 10) by lra. assert (HE' : coef_err kappa n <= / 10) by lra. assert (HE'' : coef_err kappa p <= / 10) by lra.
  assert (N26 := order_small kappa m (proj1 HK) HE). assert (N1 := one_np m). assert (N26' := order_small kappa n (proj1 HK) HE'). assert (N1' := one_np n).
  assert (N26'' := order_small kappa p (proj1 HK) HE''). assert (N1'' := one_np p).
  destruct (scale3 m n p N26 N26' N26'') as (D0 & Fd & Ed). set (D := 8 / (INR (m + 1) * INR (n + 1) * INR (p + 1))) in *.
  assert (L : length (triples m n p) = Nn) by apply triples_length. assert (NE : INR Nn = INR (m + 1) * INR (n + 1) * INR (p + 1)) by (unfold Nn; rewrite !mult_INR; reflexivity).
  destruct (axis_part kappa m i (proj1 HK) Hi) as (P1 & Q1). destruct (axis_part kappa n j (proj1 HK) Hj) as (P2 & Q2). destruct (axis_part kappa p k (proj1 HK) Hk) as (P3 & Q3).
  set (e := rerr i (kappa + 16)) in *. set (e' := rerr j (kappa + 16)) in *. set (e'' := rerr k (kappa + 16)) in *.
  set (g := fun r s t => f (xs ax m r) (xs ay n s) (xs az p t) *! chebyshev_t i (cheb_node (T := f64) m r) *! chebyshev_t j (cheb_node (T := f64) n s) *! chebyshev_t k (cheb_node (T := f64) p t)).
  set (G := fun r s t => val (f (xs ax m r) (xs ay n s) (xs az p t)) * cheb i (node m r) * cheb j (node n s) * cheb k (node p t)).
  set (E1 := 121 / 100 * e + 11 / 10 * e' + e'' + 8 * u53).
  assert (T : forall q, In q (triples m n p) -> is_finite (g (fst (fst q)) (snd (fst q)) (snd q)) = true /\ Rabs (G (fst (fst q)) (snd (fst q)) (snd q)) <= M /\ Rabs (val (g (fst (fst q)) (snd (fst q)) (snd q)) - G (fst (fst q)) (snd (fst q)) (snd q)) <= E1 * M).
  { intros [[r s] t] Hq. apply triples_in in Hq as (Hr & Hs & Ht). cbn [fst snd].
    destruct (HS r (xs ax m r) Hr (seg_near kappa TT ax m r HL HK HE HA Hr) s (xs ay n s) Hs (seg_near kappa TT ay n s HL HK HE' HA' Hs) t (xs az p t) Ht (seg_near kappa TT az p t HL HK HE'' HA'' Ht)) as (FF & BF). unfold dvalue in BF.
    destruct (step_near kappa TT _ (val (f (xs ax m r) (xs ay n s) (xs az p t))) M 0 m r i HL HK HE Hr Hi HM FF BF) as (F1 & B1 & X1); [rewrite Rminus_diag_eq, Rabs_R0 by reflexivity; lra|lra|]. fold e in X1.
    destruct (step_near kappa TT _ _ M (e + 2 * u53) n s j HL HK HE' Hs Hj HM F1 B1) as (F2 & B2 & X2); [apply Rle_trans with (1 := X1); apply Rmult_le_compat_r; lra|lra|]. fold e' in X2.
    destruct (step_near kappa TT _ _ M (11 / 10 * (e + 2 * u53) + e' + 2 * u53) p t k HL HK HE'' Ht Hk HM F2 B2 X2) as (F3 & B3 & X3); [lra|]. fold e'' in X3.
    split; [exact F3|]. split; [exact B3|]. apply Rle_trans with (1 := X3). unfold E1. apply Rmult_le_compat_r; lra. }
  assert (ND : INR Nn * D = 8) by (rewrite NE; unfold D; field; lra).
  assert (E10 : 0 <= E1) by (unfold E1; lra). assert (E1S : E1 + 3 / 2 * INR Nn * u53 <= / 5) by (unfold E1; lra).
  destruct (coef_gen (triples m n p) (fun q => g (fst (fst q)) (snd (fst q)) (snd q)) (fun q => G (fst (fst q)) (snd (fst q)) (snd q)) E1 M _ D 8 T E10 ltac:(rewrite L; exact E1S) ltac:(rewrite L; lra) HM ltac:(lra) ltac:(rewrite L; exact ND) D0 Fd Ed) as (FV & BV & EV).
  rewrite L in EV. rewrite triples_ls in BV, EV. set (S := bsum (m + 1) (fun r => bsum (n + 1) (fun s => bsum (p + 1) (fun t => G r s t)))) in *.
  change (bsum (m + 1) (fun r => bsum (n + 1) (fun s => bsum (p + 1) (fun t => dvalue (f (xs ax m r) (xs ay n s) (xs az p t)) * cheb i (node m r) * cheb j (node n s) * cheb k (node p t))))) with S.
  rewrite <- (triples_fold_acc m n p g) in FV, EV. set (v := fold_left _ (seq 0 (m + 1)) (nofZ 0) *! _) in *.
  set (E := E1 + 3 / 2 * INR Nn * u53 + 15 * u53) in *.
  set (C := coef_err kappa m + coef_err kappa n + coef_err kappa p + 2 * INR Nn * u53) in *.
  assert (FIN : (E + 3 * u53) * (M * 8) <= 8 * C * M).
  { replace (8 * C * M) with (C * (M * 8)) by ring. apply Rmult_le_compat_r; [lra|]. unfold E, E1, C. lra. }
  assert (U0 : 0 <= 3 * u53 * (M * 8)) by (apply Rmult_le_pos; lra).
  assert (BB : M * 8 <= bpow radix2 700) by (assert (bpow radix2 600 * 8 <= bpow radix2 700) by (change 8 with (bpow radix2 3); rewrite <- bpow_plus; apply bpow_le; lia); lra).
  assert (EE : 0 <= E <= 1) by (unfold E; lra).
  destruct (ofZ_ok 2 ltac:(lia)) as (F2 & V2). destruct (ofZ_ok 4 ltac:(lia)) as (F4 & V4). destruct (ofZ_ok 8 ltac:(lia)) as (F8 & V8).
  destruct (quot_near v (nofZ 2) (S * D) (M * 8) E 2 FV BV EV EE ltac:(lra) F2 V2 ltac:(lra)) as (FQ2 & EQ2).
  destruct (quot_near v (nofZ 4) (S * D) (M * 8) E 4 FV BV EV EE ltac:(lra) F4 V4 ltac:(lra)) as (FQ4 & EQ4).
  destruct (quot_near v (nofZ 8) (S * D) (M * 8) E 8 FV BV EV EE ltac:(lra) F8 V8 ltac:(lra)) as (FQ8 & EQ8).
  change (c3_a (cs3_compute_aijk (cs3_new f ax ay az m n p)) k i j) with (if ((i =? 0) && (j =? 0) && (k =? 0))%nat then v /! nofZ 8
       else if (((i =? 0) && negb (j =? 0) && (k =? 0)) || (negb (i =? 0) && (j =? 0) && (k =? 0)) || ((i =? 0) && (j =? 0) && negb (k =? 0)))%nat then v /! nofZ 4
       else if (((i =? 0) && negb (j =? 0) && negb (k =? 0)) || (negb (i =? 0) && (j =? 0) && negb (k =? 0)) || (negb (i =? 0) && negb (j =? 0) && (k =? 0)))%nat then v /! nofZ 2
       else v).
  rewrite plus_INR in N1, N1', N1''. change (INR 1) with 1 in N1, N1', N1''. rewrite !weight_1 by lra. unfold within, dvalue.
  assert (ED : D = 2 / (INR m + 1) * (2 / (INR n + 1)) * (2 / (INR p + 1))) by (unfold D; rewrite !plus_INR; change (INR 1) with 1; field; lra).
  set (wi := if (i =? 0)%nat then / 2 else 1). set (wj := if (j =? 0)%nat then / 2 else 1). set (wk := if (k =? 0)%nat then / 2 else 1).
  replace (wi * (2 / (INR m + 1)) * (wj * (2 / (INR n + 1))) * (wk * (2 / (INR p + 1))) * S) with (wi * wj * wk * (S * D)) by (rewrite ED; ring).
  clear - FV EV FQ2 EQ2 FQ4 EQ4 FQ8 EQ8 FIN U0. subst wi wj wk. destruct (i =? 0)%nat, (j =? 0)%nat, (k =? 0)%nat; cbn [andb orb negb].
  - split; [exact FQ8|]. replace (/ 2 * / 2 * / 2 * (S * D)) with (S * D / 8) by field. lra.
  - split; [exact FQ4|]. replace (/ 2 * / 2 * 1 * (S * D)) with (S * D / 4) by field. lra.
  - split; [exact FQ4|]. replace (/ 2 * 1 * / 2 * (S * D)) with (S * D / 4) by field. lra.
  - split; [exact FQ2|]. replace (/ 2 * 1 * 1 * (S * D)) with (S * D / 2) by field. lra.
  - split; [exact FQ4|]. replace (1 * / 2 * / 2 * (S * D)) with (S * D / 4) by field. lra.
  - split; [exact FQ2|]. replace (1 * / 2 * 1 * (S * D)) with (S * D / 2) by field. lra.
  - split; [exact FQ2|]. replace (1 * 1 * / 2 * (S * D)) with (S * D / 2) by field. lra.
  - split; [exact FV|]. replace (1 * 1 * 1 * (S * D)) with (S * D) by ring. lra.
Qed.
