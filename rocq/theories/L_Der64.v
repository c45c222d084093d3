(** Derivatives of power series in binary64. *)
From Coq Require Import List Arith ZArith Reals Bool Lia Lra Psatz.
From Flocq Require Import Core.Core IEEE754.BinarySingleNaN.
From Verif Require Import Outcome Num NumFun F64 L_F64 L_Linspace64 L_F64Err M_Series S_Series L_Series S_Angles S_Double L_Series64
  L_Interp64 L_Special64 L_Apx M_Cheb S_Cheb L_Cheb S_Ser64 L_Ser64 L_E1d S_Der64.
Import ListNotations.
Local Open Scope R_scope.

(** ** Horner_derivative is Horner on the coefficients i c_i *)
Definition dl {T} {NT : Num T} (d : T) (c : list T) : list T := map (fun i => (nofZ (Z.of_nat (S i)) * nth (S i) c d)%num) (seq 0 (length c - 1)).
Lemma dl_length {T} {NT : Num T} (d : T) c : length (dl d c) = (length c - 1)%nat.
Proof. unfold dl. rewrite map_length, seq_length. reflexivity. Qed.
Lemma dl_nth {T} {NT : Num T} (d d' : T) c i : (i < length c - 1)%nat -> nth i (dl d c) d' = (nofZ (Z.of_nat (S i)) * nth (S i) c d)%num.
Proof. intros H. unfold dl. apply (nth_seq_map (fun i => (nofZ (Z.of_nat (S i)) * nth (S i) c d)%num)), H. Qed.
Lemma deriv_is_horner {T} {NT : Num T} (d : T) (c : list T) x : (2 <= length c)%nat -> horner_derivative c x = horner (dl d c) x.
Proof.
  intros H. unfold horner_derivative, horner. rewrite dl_length. rewrite (vat_lt c (length c - 1) d) by lia. rewrite (vat_lt (dl d c) (length c - 1 - 1) d) by (rewrite dl_length; lia).
  cbn [bind]. rewrite dl_nth by lia. replace (length c - 2)%nat with (length c - 1 - 1)%nat by lia. replace (S (length c - 1 - 1)) with (length c - 1)%nat by lia.
  assert (G : forall k r, (k < length c - 1)%nat -> horner_deriv_loop c x k r = horner_loop (dl d c) x k r); [|apply G; lia].
  induction k as [|k IH]; intros r Hk; [reflexivity|]. cbn [horner_deriv_loop horner_loop]. rewrite (vat_lt c (S k) d) by lia. rewrite (vat_lt (dl d c) k d) by (rewrite dl_length; lia).
  cbn [bind]. rewrite dl_nth by lia. apply IH. lia.
Qed.

(** ** One stage: Horner or Horner_derivative *)
Definition hgen (w : bool) : list f64 -> f64 -> outcome f64 := if w then horner_derivative else horner.
Definition wgt (w : bool) (i : nat) : R := if w then INR i else 1.
Definition trm (w : bool) (i : nat) (t : R) : R := if w then INR i * t ^ Nat.pred i else t ^ i.
Lemma wgt_nonneg w i : 0 <= wgt w i.
Proof. destruct w; [apply pos_INR|cbn; lra]. Qed.
Lemma trm_abs w i t : Rabs t <= 1 -> Rabs (trm w i t) <= wgt w i.
Proof.
  intros H. destruct w; cbn [trm wgt]; [|apply pow_abs_1, H]. rewrite Rabs_mult, (Rabs_pos_eq (INR i)) by apply pos_INR.
  rewrite <- (Rmult_1_r (INR i)) at 2. apply Rmult_le_compat_l; [apply pos_INR|apply pow_abs_1, H].
Qed.
Lemma bsum_shift n f : bsum (S n) f = f 0%nat + bsum n (fun i => f (S i)).
Proof. induction n as [|n IH]; [cbn; lra|]. cbn [bsum] in *. lra. Qed.
Lemma nat_double i : INR i < bpow radix2 53 -> is_finite (nofZ (Z.of_nat i) : f64) = true /\ val (nofZ (Z.of_nat i) : f64) = INR i.
Proof.
  intros H. assert (Hz : (Z.abs (Z.of_nat i) < 2 ^ 53)%Z).
  { apply lt_IZR. rewrite Z.abs_eq by lia. rewrite <- INR_IZR_INZ. apply Rlt_le_trans with (1 := H). rewrite <- IZR_Zpower by discriminate. apply Rle_refl. }
  rewrite INR_IZR_INZ. exact (ofZ_ok _ Hz).
Qed.

Lemma gen_floor w (c : list f64) x t cr e kap F :
  c <> [] -> is_finite x = true -> Rabs t <= 1 -> Rabs (val x - t) <= kap * u53 -> 0 <= kap -> power_err (length c) kap <= / 2 ->
  (forall i, (i < length c)%nat -> is_finite (nth i c (f64_ofZ 0)) = true /\ Rabs (val (nth i c (f64_ofZ 0)) - cr i) <= e i) ->
  mod9 F -> bsum (length c) (fun i => wgt w i * Rabs (cr i)) <= F -> power_err (length c) kap * F + (1 + u53) * bsum (length c) (fun i => wgt w i * e i) <= F ->
  exists v, hgen w c x = Ok v /\ is_finite v = true /\
    Rabs (val v - bsum (length c) (fun i => cr i * trm w i t)) <= power_err (length c) kap * F + (1 + u53) * bsum (length c) (fun i => wgt w i * e i).
Proof.
  intros Hc Fx Ht Hx Hk HP HC HF HA HE. assert (U := u_tiny). destruct (moderate_big F HF) as (F0 & FB). assert (ES := moderate_eta F HF). assert (PE := eta64_pos).
  assert (E0 : forall i, (i < length c)%nat -> 0 <= e i) by (intros i Hi; apply Rle_trans with (1 := Rabs_pos _) (2 := proj2 (HC i Hi))).
  destruct w; cbn [hgen wgt trm] in *.
  - destruct (le_lt_dec 2 (length c)) as [L2|L1].
    + rewrite (deriv_is_horner (f64_ofZ 0)) by exact L2. assert (N := power_terms (length c) kap Hk ltac:(lia) HP).
      set (n := length c) in *. assert (EN : n = S (n - 1)) by lia. rewrite EN in HA, HE |- *. rewrite bsum_shift in HA, HE |- *. rewrite (bsum_shift (n - 1) (fun i => INR i * e i)). change (INR 0) with 0 in *.
      set (m := (n - 1)%nat) in *. cbn [Nat.pred] in *. rewrite <- EN in *.
      set (e' := fun i => (1 + u53) * (INR (S i) * e (S i)) + (u53 * (INR (S i) * Rabs (cr (S i))) + / 1000 * u53 * F)).
      assert (SW : forall (g : nat -> R), (forall i, (i < n)%nat -> 0 <= g i) -> forall i, (i < m)%nat -> INR (S i) * g (S i) <= bsum m (fun i => INR (S i) * g (S i))).
      { intros g Hg i Hi. clear - Hg Hi EN. assert (G : forall k, (k <= m)%nat -> 0 <= bsum k (fun i => INR (S i) * g (S i))) by (intros k Hk; apply bsum_nonneg; intros j Hj; apply Rmult_le_pos; [apply pos_INR|apply Hg; lia]).
        revert Hi. generalize (le_n m). generalize m at 1 3 4. intros k. induction k as [|k IH]; intros Lk Hi; [lia|]. cbn [bsum]. assert (0 <= INR (S k) * g (S k)) by (apply Rmult_le_pos; [apply pos_INR|apply Hg; lia]).
        destruct (Nat.eq_dec i k) as [->|Ne]; [specialize (G k ltac:(lia)); lra|specialize (IH ltac:(lia) ltac:(lia)); lra]. }
      assert (BE0 : 0 <= bsum m (fun i => INR (S i) * e (S i))) by (apply bsum_nonneg; intros j Hj; apply Rmult_le_pos; [apply pos_INR|apply E0; lia]).
      assert (BC0 : 0 <= bsum m (fun i => INR (S i) * Rabs (cr (S i)))) by (apply bsum_nonneg; intros j Hj; apply Rmult_le_pos; [apply pos_INR|apply Rabs_pos]).
      assert (PP := power_err_nonneg n kap Hk). assert (PF : 0 <= power_err n kap * F) by (apply Rmult_le_pos; lra).
      assert (UB1 : 0 <= u53 * bsum m (fun i => INR (S i) * e (S i))) by (apply Rmult_le_pos; lra).
      assert (BEF : bsum m (fun i => INR (S i) * e (S i)) <= F) by lra. assert (BCF : bsum m (fun i => INR (S i) * Rabs (cr (S i))) <= F) by lra.
      assert (ND : forall i, (i < m)%nat -> is_finite (nth i (dl (f64_ofZ 0) c) (f64_ofZ 0)) = true /\ Rabs (val (nth i (dl (f64_ofZ 0) c) (f64_ofZ 0)) - INR (S i) * cr (S i)) <= e' i).
      { intros i Hi. rewrite dl_nth by (fold n; lia). destruct (HC (S i) ltac:(lia)) as (Fi & Ei). set (ci := nth (S i) c (f64_ofZ 0)) in *.
        destruct (nat_double (S i)) as (Fz & Vz); [apply Rlt_le_trans with (2 := proj2 N); apply lt_INR; lia|]. set (z := (nofZ (Z.of_nat (S i)) : f64)) in *.
        assert (I0 := pos_INR (S i)). assert (W1 := SW e E0 i Hi). assert (W2 := SW (fun i => Rabs (cr i)) (fun i _ => Rabs_pos _) i Hi). cbv beta in W2.
        assert (PD : Rabs (val z * val ci - INR (S i) * cr (S i)) <= INR (S i) * e (S i)).
        { rewrite Vz. replace (INR (S i) * val ci - INR (S i) * cr (S i)) with (INR (S i) * (val ci - cr (S i))) by ring. rewrite Rabs_mult, (Rabs_pos_eq (INR (S i))) by exact I0. apply Rmult_le_compat_l; assumption. }
        assert (PA : Rabs (val z * val ci) <= INR (S i) * e (S i) + INR (S i) * Rabs (cr (S i))).
        { replace (val z * val ci) with ((val z * val ci - INR (S i) * cr (S i)) + INR (S i) * cr (S i)) by ring. apply Rle_trans with (1 := Rabs_triang _ _). rewrite (Rabs_mult (INR (S i)) (cr (S i))), (Rabs_pos_eq (INR (S i))) by exact I0. lra. }
        destruct (mult_ok z ci Fz Fi) as (Fp & _); [apply big_over; lra|]. assert (Ep := mult_err z ci Fp). change (z * ci)%num with (z *! ci). split; [exact Fp|].
        replace (val (z *! ci) - INR (S i) * cr (S i)) with ((val (z *! ci) - val z * val ci) + (val z * val ci - INR (S i) * cr (S i))) by ring. apply Rle_trans with (1 := Rabs_triang _ _).
        assert (u53 * Rabs (val z * val ci) <= u53 * (INR (S i) * e (S i) + INR (S i) * Rabs (cr (S i)))) by (apply Rmult_le_compat_l; lra). unfold e'. lra. }
      assert (EB : bsum m e' = (1 + u53) * bsum m (fun i => INR (S i) * e (S i)) + (u53 * bsum m (fun i => INR (S i) * Rabs (cr (S i))) + INR m * (/ 1000 * u53 * F))).
      { unfold e'. rewrite bsum_plus, bsum_scal, bsum_plus, bsum_scal, bsum_const. reflexivity. }
      assert (LD := dl_length (f64_ofZ 0) c). fold n in LD. fold m in LD.
      assert (M1 : 1 <= INR m) by (change 1 with (INR 1); apply le_INR; lia).
      assert (UF : 0 <= u53 * F) by (apply Rmult_le_pos; lra).
      assert (KUF : 0 <= kap * (u53 * F)) by (apply Rmult_le_pos; lra).
      assert (TOT : INR (m - 1) * ((2 * kap + 9) * u53 * F) + bsum m e' <= power_err n kap * F + (1 + u53) * (0 * e 0%nat + bsum m (fun i => INR (S i) * e (S i)))).
      { rewrite EB. unfold power_err. fold m. change uround with u53. rewrite minus_INR by lia. change (INR 1) with 1.
        assert (u53 * bsum m (fun i => INR (S i) * Rabs (cr (S i))) <= u53 * F) by (apply Rmult_le_compat_l; lra).
        assert (X1 : 0 <= INR m * (u53 * F)) by (apply Rmult_le_pos; lra).
        assert (X2 : 1 * (u53 * F) <= INR m * (u53 * F)) by (apply Rmult_le_compat_r; lra).
        replace ((INR m - 1) * ((2 * kap + 9) * u53 * F)) with (INR m * (2 * kap + 9) * u53 * F - 2 * (kap * (u53 * F)) - 9 * (u53 * F)) by ring.
        replace (INR m * (2 * kap + 10) * u53 * F) with (INR m * (2 * kap + 9) * u53 * F + INR m * (u53 * F)) by ring. lra. }
      destruct (horner_near (dl (f64_ofZ 0) c) x t (fun i => INR (S i) * cr (S i)) e' kap F) as (v & Ev & Fv & Bv); auto.
      * intros E. rewrite E in LD. simpl in LD. lia.
      * rewrite LD. exact ND.
      * rewrite LD. rewrite (bsum_ext m _ (fun i => INR (S i) * Rabs (cr (S i)))); [exact BCF|]. intros i _. rewrite Rabs_mult, (Rabs_pos_eq (INR (S i))) by apply pos_INR. reflexivity.
      * rewrite LD. lra.
      * rewrite LD in Bv. exists v. split; [exact Ev|]. split; [exact Fv|].
        replace (cr 0%nat * (0 * t ^ 0) + bsum m (fun i => cr (S i) * (INR (S i) * t ^ i))) with (bsum m (fun i => INR (S i) * cr (S i) * t ^ i)); [lra|].
        rewrite (bsum_ext m (fun i => cr (S i) * (INR (S i) * t ^ i)) (fun i => INR (S i) * cr (S i) * t ^ i)) by (intros; ring). ring.
    + assert (LC : length c = 1%nat) by (clear - Hc L1; destruct c; [congruence|cbn [length] in *; lia]). unfold horner_derivative. rewrite LC. cbn [Nat.sub]. rewrite (vat_lt c 0 (f64_ofZ 0)) by lia. cbn [bind horner_deriv_loop].
      eexists. split; [reflexivity|]. destruct (HC 0%nat ltac:(lia)) as (Fi & Ei). set (ci := nth 0 c (f64_ofZ 0)) in *. destruct (nat_double 0) as (Fz & Vz); [apply bpow_gt_0|]. change (INR 0) with 0 in Vz.
      change (Z.of_nat 0) with 0%Z in *. set (z := (nofZ 0 : f64)) in *.
      destruct (mult_ok z ci Fz Fi) as (Fp & Vp); [rewrite Vz, Rmult_0_l, Rabs_R0; apply Rle_trans with (Rabs 0); [rewrite Rabs_R0; lra|]; apply big_over; rewrite Rabs_R0; assert (P := big_pos); lra|].
      change (z * ci)%num with (z *! ci). split; [exact Fp|]. rewrite Vp, Vz, Rmult_0_l. rewrite LC in *. cbn [bsum INR Nat.pred] in *. rewrite rnd64_0 || (replace (rnd64 0) with 0 by (symmetry; apply round_0; typeclasses eauto)).
      replace (0 - (0 + cr 0%nat * (0 * t ^ 0))) with 0 by ring. rewrite Rabs_R0. unfold power_err. cbn [Nat.sub INR]. lra.
  - destruct (horner_floor c x t cr e kap F) as (v & Ev & Fv & Bv); auto.
    + rewrite (bsum_ext _ _ (fun i => 1 * Rabs (cr i))) by (intros; ring). exact HA.
    + assert (B0 : 0 <= bsum (length c) e) by (apply bsum_nonneg, E0). rewrite (bsum_ext _ (fun i => 1 * e i) e) in HE by (intros; ring). assert (0 <= u53 * bsum (length c) e) by (apply Rmult_le_pos; lra). lra.
    + exists v. split; [exact Ev|]. split; [exact Fv|]. rewrite (bsum_ext _ (fun i => 1 * e i) e) by (intros; ring).
      assert (B0 : 0 <= bsum (length c) e) by (apply bsum_nonneg, E0). assert (0 <= u53 * bsum (length c) e) by (apply Rmult_le_pos; lra). lra.
Qed.

(** ** Rows, matrices, lists of matrices *)
Definition row_sum w (A : mat f64) (i : nat) : R := bsum (m_cols A) (fun j => wgt w j * Rabs (val (m_at A i j))).
Definition row_val w (A : mat f64) (i : nat) (t : R) : R := bsum (m_cols A) (fun j => val (m_at A i j) * trm w j t).
Lemma row_sum_nonneg w A i : 0 <= row_sum w A i.
Proof. apply bsum_nonneg. intros. apply Rmult_le_pos; [apply wgt_nonneg|apply Rabs_pos]. Qed.
Lemma gval_abs w n c t : Rabs t <= 1 -> Rabs (bsum n (fun i => c i * trm w i t)) <= bsum n (fun i => wgt w i * Rabs (c i)).
Proof.
  intros H. apply Rle_trans with (1 := bsum_abs n _). apply bsum_le. intros i _. rewrite Rabs_mult, Rmult_comm. apply Rmult_le_compat_r; [apply Rabs_pos|apply trm_abs, H].
Qed.
Lemma tiny_pos : 0 < tiny. Proof. apply bpow_gt_0. Qed.
Lemma floor_1 S : 0 <= S <= huge -> mod9 (S + tiny).
Proof. intros H. assert (X := mod9_floor S 1 H ltac:(split; [lra|change 1 with (bpow radix2 0); apply bpow_le; discriminate])). rewrite Rmult_1_l in X. exact X. Qed.

Lemma vec_gen w (c : list f64) x t k : c <> [] -> all_finite c -> is_finite x = true -> Rabs t <= 1 -> Rabs (val x - t) <= k * u53 -> 0 <= k ->
  bsum (length c) (fun i => wgt w i * Rabs (nth i (dvalues c) 0)) <= huge -> power_err (length c) k <= / 2 ->
  exists v, hgen w c x = Ok v /\ is_finite v = true /\
    Rabs (val v - bsum (length c) (fun i => nth i (dvalues c) 0 * trm w i t)) <= power_err (length c) k * (bsum (length c) (fun i => wgt w i * Rabs (nth i (dvalues c) 0)) + tiny).
Proof.
  intros Hc Fc Fx Ht Hx Hk HB HP. set (S := bsum (length c) (fun i => wgt w i * Rabs (nth i (dvalues c) 0))) in *. assert (TP := tiny_pos).
  assert (S0 : 0 <= S) by (apply bsum_nonneg; intros; apply Rmult_le_pos; [apply wgt_nonneg|apply Rabs_pos]).
  assert (Z : bsum (length c) (fun i => wgt w i * 0) = 0) by (rewrite (bsum_ext _ _ (fun _ => 0)) by (intros; ring); rewrite bsum_const; ring).
  assert (H2 : power_err (length c) k * (S + tiny) <= / 2 * (S + tiny)) by (apply Rmult_le_compat_r; lra).
  destruct (gen_floor w c x t (fun i => nth i (dvalues c) 0) (fun _ => 0) k (S + tiny)) as (v & E & Fv & Ev); auto.
  - intros i Hi. split; [unfold all_finite in Fc; rewrite Forall_forall in Fc; apply Fc, nth_In, Hi|]. rewrite nth_map_val, Rminus_diag_eq, Rabs_R0 by reflexivity. lra.
  - apply floor_1. lra.
  - unfold S in *. lra.
  - rewrite Z. lra.
  - exists v. split; [exact E|]. split; [exact Fv|]. rewrite Z in Ev. lra.
Qed.
Lemma row_gen w bm (A : mat f64) i y t k : (i < m_rows A)%nat -> (0 < m_cols A)%nat -> mat_finite A -> is_finite y = true -> Rabs t <= 1 ->
  Rabs (val y - t) <= k * u53 -> 0 <= k -> row_sum w A i <= huge -> power_err (m_cols A) k <= / 2 ->
  exists v, (let* pj := mrow bm A i in hgen w pj y) = Ok v /\ is_finite v = true /\ Rabs (val v - row_val w A i t) <= power_err (m_cols A) k * (row_sum w A i + tiny).
Proof.
  intros Hi Hn FA Fy Ht Hy Hk HB HE. unfold mrow, eigen_check. replace (i <? m_rows A)%nat with true by (symmetry; apply Nat.ltb_lt, Hi). cbn [bind].
  set (row := map (m_at A i) (seq 0 (m_cols A))). assert (LR : length row = m_cols A) by (unfold row; rewrite map_length, seq_length; reflexivity).
  assert (NR : forall j, (j < m_cols A)%nat -> nth j (dvalues row) 0 = val (m_at A i j)) by (intros j Hj; rewrite nth_map_val; unfold row; rewrite nth_seq_map by exact Hj; reflexivity).
  assert (SR : bsum (length row) (fun j => wgt w j * Rabs (nth j (dvalues row) 0)) = row_sum w A i) by (rewrite LR; apply bsum_ext; intros j Hj; rewrite NR by exact Hj; reflexivity).
  assert (VR : bsum (length row) (fun j => nth j (dvalues row) 0 * trm w j t) = row_val w A i t) by (rewrite LR; apply bsum_ext; intros j Hj; rewrite NR by exact Hj; reflexivity).
  destruct (vec_gen w row y t k) as (v & E & Fv & Ev); auto.
  - intros E. rewrite E in LR. simpl in LR. lia.
  - unfold all_finite. apply Forall_forall. intros z Hz. unfold row in Hz. apply in_map_iff in Hz. destruct Hz as (j & <- & Hj). apply in_seq in Hj. apply FA; lia.
  - rewrite SR. exact HB.
  - rewrite LR. exact HE.
  - exists v. split; [exact E|]. split; [exact Fv|]. rewrite SR, VR, LR in Ev. exact Ev.
Qed.

(** [N] many floors. *)
Lemma wgt_total w n : 0 <= bsum n (wgt w) <= INR n * INR n.
Proof.
  split; [apply bsum_nonneg; intros; apply wgt_nonneg|]. rewrite <- (bsum_const (INR n) n). apply bsum_le. intros i Hi. destruct w; cbn [wgt]; [apply le_INR; lia|].
  change 1 with (INR 1). apply le_INR. lia.
Qed.
Definition mat_gsum wx wy (A : mat f64) : R := bsum (m_rows A) (fun i => wgt wx i * row_sum wy A i).
Definition mat_gval wx wy (A : mat f64) (tx ty : R) : R := bsum (m_rows A) (fun i => row_val wy A i ty * trm wx i tx).
Definition flo (m : nat) : R := INR m * INR m + 1.
Lemma mat_gsum_nonneg wx wy A : 0 <= mat_gsum wx wy A.
Proof. apply bsum_nonneg. intros. apply Rmult_le_pos; [apply wgt_nonneg|apply row_sum_nonneg]. Qed.
Lemma mat_gval_abs wx wy A tx ty : Rabs tx <= 1 -> Rabs ty <= 1 -> Rabs (mat_gval wx wy A tx ty) <= mat_gsum wx wy A.
Proof.
  intros Hx Hy. apply Rle_trans with (1 := gval_abs wx (m_rows A) (fun i => row_val wy A i ty) tx Hx). apply bsum_le. intros i _. apply Rmult_le_compat_l; [apply wgt_nonneg|]. apply gval_abs, Hy.
Qed.
Lemma flo_bound m : 1 <= INR m <= bpow radix2 53 -> 1 <= flo m <= bpow radix2 107.
Proof.
  intros H. unfold flo. assert (0 <= INR m * INR m) by (apply Rmult_le_pos; lra). split; [lra|]. assert (X : INR m * INR m <= bpow radix2 53 * bpow radix2 53) by (apply Rmult_le_compat; lra).
  rewrite <- bpow_plus in X. change 107%Z with (1 + (53 + 53))%Z. rewrite (bpow_plus _ 1). change (bpow radix2 1) with 2. assert (1 <= bpow radix2 (53 + 53)) by (change 1 with (bpow radix2 0); apply bpow_le; discriminate). lra.
Qed.

Lemma mat_gen wx wy bm (A : mat f64) x y tx ty kx ky : (0 < m_rows A)%nat -> (0 < m_cols A)%nat -> mat_finite A ->
  is_finite x = true -> Rabs tx <= 1 -> Rabs (val x - tx) <= kx * u53 -> 0 <= kx ->
  is_finite y = true -> Rabs ty <= 1 -> Rabs (val y - ty) <= ky * u53 -> 0 <= ky ->
  (forall i, (i < m_rows A)%nat -> row_sum wy A i <= huge) -> mat_gsum wx wy A <= huge -> power_err (m_rows A) kx + power_err (m_cols A) ky <= / 2 ->
  exists v, (let* q := partial_sums bm (hgen wy) A (m_rows A) y in hgen wx q x) = Ok v /\ is_finite v = true /\
    Rabs (val v - mat_gval wx wy A tx ty) <= (power_err (m_rows A) kx + (1 + u53) * power_err (m_cols A) ky) * (mat_gsum wx wy A + flo (m_rows A) * tiny).
Proof.
  intros Hm Hn FA Fx Htx Hx Hkx Fy Hty Hy Hky HR HB HE.
  assert (PX := power_err_nonneg (m_rows A) kx Hkx). assert (PY := power_err_nonneg (m_cols A) ky Hky). assert (TP := tiny_pos). assert (U := u_tiny).
  destruct (mapM_near (fun i => let* pj := mrow bm A i in hgen wy pj y) (seq 0 (m_rows A)) 0%nat (fun i => row_val wy A i ty) (fun i => power_err (m_cols A) ky * (row_sum wy A i + tiny))) as (q & Eq & Lq & Nq).
  { intros i Hi. rewrite seq_length in Hi. rewrite seq_nth by exact Hi. apply row_gen; auto. lra. }
  rewrite seq_length in Lq. unfold partial_sums. rewrite Eq. cbn [bind].
  set (S := mat_gsum wx wy A + flo (m_rows A) * tiny). assert (MS0 := mat_gsum_nonneg wx wy A).
  assert (RB := power_terms (m_rows A) kx Hkx Hm ltac:(lra)). assert (FLB := flo_bound _ RB). assert (W := wgt_total wx (m_rows A)).
  assert (HS : mod9 S). { apply mod9_floor; [lra|]. split; [lra|]. apply Rle_trans with (1 := proj2 FLB). apply bpow_le. discriminate. }
  destruct (moderate_big S HS) as (SP & _).
  assert (SF : bsum (m_rows A) (fun i => wgt wx i * (power_err (m_cols A) ky * (row_sum wy A i + tiny))) <= power_err (m_cols A) ky * S).
  { rewrite (bsum_ext _ _ (fun i => power_err (m_cols A) ky * (wgt wx i * row_sum wy A i + tiny * wgt wx i))) by (intros; ring). rewrite bsum_scal. apply Rmult_le_compat_l; [lra|].
    rewrite bsum_plus, bsum_scal. unfold S. fold (mat_gsum wx wy A). rewrite (Rmult_comm (flo _)). assert (tiny * bsum (m_rows A) (wgt wx) <= tiny * flo (m_rows A)) by (apply Rmult_le_compat_l; unfold flo; lra). unfold mat_gsum. lra. }
  set (Ex := power_err (m_rows A) kx) in *. set (Ey := power_err (m_cols A) ky) in *.
  assert (EyS : 0 <= Ey * S) by (apply Rmult_le_pos; lra). assert (E2 : (Ex + Ey) * S <= / 2 * S) by (apply Rmult_le_compat_r; lra).
  assert (UE : u53 * (Ey * S) <= / 4 * S) by (apply Rle_trans with (/ 2 * (Ey * S)); [apply Rmult_le_compat_r; lra|assert (0 <= Ex * S) by (apply Rmult_le_pos; lra); lra]).
  set (B := bsum (m_rows A) (fun i => wgt wx i * (Ey * (row_sum wy A i + tiny)))) in *.
  assert (UB : (1 + u53) * B <= (1 + u53) * (Ey * S)) by (apply Rmult_le_compat_l; lra).
  destruct (gen_floor wx q x tx (fun i => row_val wy A i ty) (fun i => Ey * (row_sum wy A i + tiny)) kx S) as (v & E & Fv & Ev); auto.
  - intros E. rewrite E in Lq. simpl in Lq. lia.
  - rewrite Lq. fold Ex. lra.
  - rewrite Lq. apply Rle_trans with (mat_gsum wx wy A).
    + apply bsum_le. intros i _. apply Rmult_le_compat_l; [apply wgt_nonneg|]. apply gval_abs, Hty.
    + unfold S. assert (0 <= flo (m_rows A) * tiny) by (apply Rmult_le_pos; lra). lra.
  - rewrite Lq. fold Ex B. lra.
  - rewrite Lq in Ev. fold Ex B in Ev. exists v. split; [exact E|]. split; [exact Fv|]. unfold mat_gval. apply Rle_trans with (1 := Ev). fold S. lra.
Qed.

Lemma mod9_floor' S r : 0 <= S <= huge -> 1 <= r <= bpow radix2 400 -> mod9 (S + r * tiny).
Proof.
  intros HS Hr. assert (P := tiny_pos). unfold mod9. fold tiny. split.
  - assert (1 * tiny <= r * tiny) by (apply Rmult_le_compat_r; lra). lra.
  - assert (T : r * tiny <= bpow radix2 400 * tiny) by (apply Rmult_le_compat_r; lra). unfold tiny in T at 2. rewrite <- bpow_plus in T.
    assert (bpow radix2 (400 + -900) <= huge) by (apply bpow_le; discriminate).
    apply Rle_trans with (2 * huge); [lra|]. change 900%Z with (100 + 800)%Z. rewrite bpow_plus. apply Rmult_le_compat_r; [apply bpow_ge_0|]. change 2 with (bpow radix2 1). apply bpow_le. discriminate.
Qed.
Definition box_gsum wx wy wz (B : list (mat f64)) : R := bsum (length B) (fun k => wgt wz k * mat_gsum wx wy (nth k B no_mat)).
Definition box_gval wx wy wz (B : list (mat f64)) (tx ty tz : R) : R := bsum (length B) (fun k => mat_gval wx wy (nth k B no_mat) tx ty * trm wz k tz).
Definition flo3 (p m : nat) : R := INR p * INR p * flo m + 1.
Lemma box_gen wx wy wz bm (B : list (mat f64)) nx ny x y z tx ty tz kx ky kz s : B <> [] -> (0 < nx)%nat -> (0 < ny)%nat -> box_ok nx ny B ->
  is_finite x = true -> Rabs tx <= 1 -> Rabs (val x - tx) <= kx * u53 -> 0 <= kx ->
  is_finite y = true -> Rabs ty <= 1 -> Rabs (val y - ty) <= ky * u53 -> 0 <= ky ->
  is_finite z = true -> Rabs tz <= 1 -> Rabs (val z - tz) <= kz * u53 -> 0 <= kz ->
  (forall k i, (k < length B)%nat -> (i < nx)%nat -> row_sum wy (nth k B no_mat) i <= huge) -> (forall k, (k < length B)%nat -> mat_gsum wx wy (nth k B no_mat) <= huge) ->
  box_gsum wx wy wz B <= huge -> let err := power_err nx kx + power_err ny ky + power_err (length B) kz in err <= / 2 -> p3_b s = B -> p3_nx s = nx ->
  exists v, (let* q := partial_sums3 bm (hgen wx) (hgen wy) s x y in hgen wz q z) = Ok v /\ is_finite v = true /\
    Rabs (val v - box_gval wx wy wz B tx ty tz) <= (err + 2 * u53) * (box_gsum wx wy wz B + flo3 (length B) nx * tiny).
Proof.
  intros HB Hm Hn FB Fx Htx Hx Hkx Fy Hty Hy Hky Fz Htz Hz Hkz HR HMS HS err HE EB EN.
  assert (LB : (0 < length B)%nat) by (destruct B; [congruence|simpl; lia]).
  assert (PX := power_err_nonneg nx kx Hkx). assert (PY := power_err_nonneg ny ky Hky). assert (PZ := power_err_nonneg (length B) kz Hkz). assert (TP := tiny_pos). assert (U := u_tiny).
  unfold err in *. clear err. set (Ex := power_err nx kx) in *. set (Ey := power_err ny ky) in *. set (Ez := power_err (length B) kz) in *. set (exy := Ex + (1 + u53) * Ey).
  assert (UEy : u53 * Ey <= / 2 * u53) by (rewrite (Rmult_comm (/ 2)); apply Rmult_le_compat_l; lra). assert (UEy0 : 0 <= u53 * Ey) by (apply Rmult_le_pos; lra).
  unfold partial_sums3. rewrite EB, EN.
  destruct (mapM_near (fun k => let* A := vat B k in let* qi := partial_sums bm (hgen wy) A nx y in hgen wx qi x) (seq 0 (length B)) 0%nat
     (fun k => mat_gval wx wy (nth k B no_mat) tx ty) (fun k => exy * (mat_gsum wx wy (nth k B no_mat) + flo nx * tiny))) as (q & Eq & Lq & Nq).
  { intros k Hk. rewrite seq_length in Hk. rewrite seq_nth by exact Hk. cbn [Nat.add].
    assert (EV : vat B k = Ok (nth k B no_mat)) by (unfold vat; rewrite (nth_error_nth' _ no_mat Hk); reflexivity).
    rewrite EV. cbn [bind]. destruct (FB k Hk) as (R1 & R2 & FA).
    destruct (mat_gen wx wy bm (nth k B no_mat) x y tx ty kx ky) as (v & E & Fv & Ev); auto; try lia.
    - intros i Hi. apply HR; [exact Hk|lia].
    - rewrite R1, R2. fold Ex Ey. lra.
    - rewrite R1, R2 in *. exists v. split; [exact E|]. split; [exact Fv|exact Ev]. }
  rewrite seq_length in Lq. rewrite Eq. cbn [bind].
  assert (BS0 : 0 <= box_gsum wx wy wz B) by (apply bsum_nonneg; intros; apply Rmult_le_pos; [apply wgt_nonneg|apply mat_gsum_nonneg]).
  set (S := box_gsum wx wy wz B + flo3 (length B) nx * tiny).
  assert (RB := power_terms nx kx Hkx Hm ltac:(fold Ex; lra)). assert (RZ := power_terms (length B) kz Hkz LB ltac:(fold Ez; lra)). assert (FLB := flo_bound _ RB). assert (FLZ := flo_bound _ RZ). assert (W := wgt_total wz (length B)).
  assert (N3 : 1 <= flo3 (length B) nx <= bpow radix2 400).
  { unfold flo3. set (p := INR (length B)) in *. assert (Q1 : 0 <= p * p) by (apply Rmult_le_pos; lra). assert (Q2 : p * p <= bpow radix2 53 * bpow radix2 53) by (apply Rmult_le_compat; lra). rewrite <- bpow_plus in Q2.
    assert (Q3 : p * p * flo nx <= bpow radix2 (53 + 53) * bpow radix2 107) by (apply Rmult_le_compat; lra). rewrite <- bpow_plus in Q3.
    assert (Q0 : 0 <= p * p * flo nx) by (apply Rmult_le_pos; lra). split; [lra|].
    assert (Q4 : 2 * bpow radix2 (53 + 53 + 107) <= bpow radix2 400) by (change 2 with (bpow radix2 1); rewrite <- bpow_plus; apply bpow_le; discriminate).
    assert (1 <= bpow radix2 (53 + 53 + 107)) by (change 1 with (bpow radix2 0); apply bpow_le; discriminate). lra. }
  assert (HS9 : mod9 S) by (apply mod9_floor'; [lra|exact N3]). destruct (moderate_big S HS9) as (SP & _).
  assert (SF : bsum (length B) (fun k => wgt wz k * (exy * (mat_gsum wx wy (nth k B no_mat) + flo nx * tiny))) <= exy * S).
  { rewrite (bsum_ext _ _ (fun k => exy * (wgt wz k * mat_gsum wx wy (nth k B no_mat) + flo nx * tiny * wgt wz k))) by (intros; ring). rewrite bsum_scal. apply Rmult_le_compat_l; [unfold exy; lra|].
    rewrite bsum_plus, bsum_scal. fold (box_gsum wx wy wz B). unfold S, flo3. assert (X : flo nx * tiny * bsum (length B) (wgt wz) <= flo nx * tiny * (INR (length B) * INR (length B))) by (apply Rmult_le_compat_l; [apply Rmult_le_pos; lra|lra]). lra. }
  set (bs := bsum (length B) (fun k => wgt wz k * (exy * (mat_gsum wx wy (nth k B no_mat) + flo nx * tiny)))) in *.
  assert (XX : Ez + (1 + u53) * exy <= Ex + Ey + Ez + 2 * u53).
  { unfold exy. assert (u53 * Ex <= u53 * / 2) by (apply Rmult_le_compat_l; lra). assert (u53 * (u53 * Ey) <= u53 * u53) by (apply Rmult_le_compat_l; lra). assert (u53 * u53 <= u53 * / 1000) by (apply Rmult_le_compat_l; lra). lra. }
  assert (XS : (Ez + (1 + u53) * exy) * S <= (Ex + Ey + Ez + 2 * u53) * S) by (apply Rmult_le_compat_r; lra).
  assert (X1 : (Ex + Ey + Ez + 2 * u53) * S <= 1 * S) by (apply Rmult_le_compat_r; lra).
  assert (UB : (1 + u53) * bs <= (1 + u53) * (exy * S)) by (apply Rmult_le_compat_l; lra).
  destruct (gen_floor wz q z tz (fun k => mat_gval wx wy (nth k B no_mat) tx ty) (fun k => exy * (mat_gsum wx wy (nth k B no_mat) + flo nx * tiny)) kz S) as (v & E & Fv & Ev); auto.
  - intros E. rewrite E in Lq. simpl in Lq. lia.
  - rewrite Lq. fold Ez. lra.
  - rewrite Lq. apply Rle_trans with (box_gsum wx wy wz B).
    + apply bsum_le. intros k _. apply Rmult_le_compat_l; [apply wgt_nonneg|]. apply mat_gval_abs; assumption.
    + unfold S. assert (0 <= flo3 (length B) nx * tiny) by (apply Rmult_le_pos; lra). lra.
  - rewrite Lq. fold Ez bs. lra.
  - rewrite Lq in Ev. fold Ez bs in Ev. exists v. split; [exact E|]. split; [exact Fv|]. unfold box_gval. apply Rle_trans with (1 := Ev). fold S. lra.
Qed.

(** ** The rate *)
Lemma rate_f (a : axis f64) (x : f64) : usable a x -> rate_moderate (axis_values a) (val x) -> let c := unit_rate (axis_values a) (val x) in
  is_finite (coef_deriv a x) = true /\ 0 < c <= bpow radix2 901 /\ Rabs (val (coef_deriv a x) - c) <= 4 * u53 * c.
Proof.
  intros (Fa & Fx & Hx & HM) HR c. assert (U := u_tiny). assert (P901 : 2 * bpow radix2 900 = bpow radix2 901) by (change 2 with (bpow radix2 1) at 1; rewrite <- bpow_plus; reflexivity).
  assert (T9 : tau <= bpow radix2 (-900)) by (apply bpow_le; discriminate). assert (P9 := bpow_gt_0 radix2 (-900)).
  assert (B9 : bpow radix2 901 <= big) by (apply bpow_le; discriminate). assert (R9 : bpow radix2 (-900) * bpow radix2 900 = 1) by (rewrite <- bpow_plus; reflexivity). assert (P0 := bpow_gt_0 radix2 900).
  destruct two_ok as (F2 & V2). assert (R2 := rel_fin _ F2). rewrite V2 in R2.
  destruct a as [lo hi|lo]; cbn [axis_values axis_finite on_axis axis_moderate rate_moderate unit_rate coef_deriv] in *; unfold dvalue in *.
  - destruct Fa as (Fl & Fh). destruct Hx as (Hlt & Hx). destruct HM as (HM & HD).
    assert (M1 := Rle_trans _ _ _ (Rmax_l (Rabs (val lo)) (Rabs (val hi))) HM). assert (M2 := Rle_trans _ _ _ (Rmax_r (Rabs (val lo)) (Rabs (val hi))) HM).
    assert (DB : 0 < val hi - val lo <= 2 * bpow radix2 900) by (apply Rabs_le_inv in M1; apply Rabs_le_inv in M2; lra).
    destruct (minus_ok hi lo Fh Fl) as (Fd & _); [apply big_over; rewrite Rabs_pos_eq by lra; lra|]. assert (Ed := minus_err hi lo Fd).
    assert (RD : rel (hi -! lo) (val hi - val lo) 1) by (split; [exact Fd|]; split; [lra|]; lra).
    assert (CB : bpow radix2 (-900) <= c <= bpow radix2 901).
    { unfold c. split.
      - apply Rmult_le_reg_r with (val hi - val lo); [lra|]. unfold Rdiv. rewrite Rmult_assoc, Rinv_l, Rmult_1_r by lra. apply Rle_trans with (bpow radix2 (-900) * (2 * bpow radix2 900)); [apply Rmult_le_compat_l; lra|lra].
      - apply Rmult_le_reg_r with (val hi - val lo); [lra|]. unfold Rdiv. rewrite Rmult_assoc, Rinv_l, Rmult_1_r by lra. apply Rle_trans with (bpow radix2 901 * bpow radix2 (-900)); [rewrite <- bpow_plus; apply Rle_refl|apply Rmult_le_compat_l; [apply bpow_ge_0|lra]]. }
    assert (RC := rel_div (nofZ 2) (hi -! lo) 2 (val hi - val lo) 0 1 R2 RD ltac:(lra) ltac:(lra) ltac:(lra)). rewrite (Rabs_pos_eq 2), (Rabs_pos_eq (val hi - val lo)) in RC by lra. fold c in RC. destruct (RC ltac:(lra)) as (F & _ & E).
    split; [exact F|]. split; [lra|]. rewrite (Rabs_pos_eq c) in E by lra. apply Rle_trans with (1 := E). rewrite !Rmult_assoc. apply Rmult_le_compat_r; [apply Rmult_le_pos; lra|lra].
  - destruct HR as (H3 & X3). assert (P3 := bpow_gt_0 radix2 (-300)). assert (R3 : bpow radix2 (-300) * bpow radix2 300 = 1) by (rewrite <- bpow_plus; reflexivity).
    assert (XX : bpow radix2 (-600) <= val x * val x <= bpow radix2 600).
    { split; [change (-600)%Z with (-300 + -300)%Z|change 600%Z with (300 + 300)%Z]; rewrite bpow_plus; apply Rmult_le_compat; lra. }
    assert (P6 := bpow_gt_0 radix2 (-600)).
    assert (RX := rel_mult x x (val x) (val x) 0 0 (rel_fin x Fx) (rel_fin x Fx) ltac:(lra) ltac:(lra)). rewrite (Rabs_pos_eq (val x)) in RX by lra.
    assert (T6 : tau <= bpow radix2 (-600)) by (apply bpow_le; discriminate). assert (B6 : bpow radix2 600 <= big) by (apply bpow_le; discriminate). specialize (RX ltac:(lra)).
    assert (LB : val lo <= bpow radix2 300) by lra. assert (B3 : 2 * bpow radix2 300 <= big) by (apply Rle_trans with (bpow radix2 301); [change 2 with (bpow radix2 1); rewrite <- bpow_plus; apply Rle_refl|apply bpow_le; discriminate]).
    assert (T3 : tau <= bpow radix2 (-300)) by (apply bpow_le; discriminate).
    assert (RL := rel_mult (nofZ 2) lo 2 (val lo) 0 0 R2 (rel_fin lo Fa) ltac:(lra) ltac:(lra)). rewrite (Rabs_pos_eq 2), (Rabs_pos_eq (val lo)) in RL by lra. specialize (RL ltac:(lra)).
    assert (CB : bpow radix2 (-900) <= c <= bpow radix2 901).
    { unfold c. split.
      - apply Rmult_le_reg_r with (val x * val x); [lra|]. unfold Rdiv. rewrite Rmult_assoc, Rinv_l, Rmult_1_r by lra. apply Rle_trans with (bpow radix2 (-900) * bpow radix2 600); [apply Rmult_le_compat_l; lra|]. rewrite <- bpow_plus. change (-900 + 600)%Z with (-300)%Z. lra.
      - apply Rmult_le_reg_r with (val x * val x); [lra|]. unfold Rdiv. rewrite Rmult_assoc, Rinv_l, Rmult_1_r by lra. apply Rle_trans with (bpow radix2 901 * bpow radix2 (-600)); [|apply Rmult_le_compat_l; [apply bpow_ge_0|lra]]. rewrite <- bpow_plus. change (901 + -600)%Z with (1 + 300)%Z. rewrite bpow_plus. change (bpow radix2 1) with 2. lra. }
    assert (L2 : 0 < 2 * val lo) by lra.
    assert (RC := rel_div _ _ _ _ _ _ RL RX ltac:(lra) ltac:(lra) ltac:(lra)). rewrite (Rabs_pos_eq (2 * val lo)), (Rabs_pos_eq (val x * val x)) in RC by lra. fold c in RC. destruct (RC ltac:(lra)) as (F & _ & E).
    split; [exact F|]. split; [lra|]. rewrite (Rabs_pos_eq c) in E by lra. apply Rle_trans with (1 := E). rewrite !Rmult_assoc. apply Rmult_le_compat_r; [apply Rmult_le_pos; lra|lra].
Qed.

Lemma final_f (cd h : f64) c H er F : is_finite cd = true -> 0 < c -> Rabs (val cd - c) <= 4 * u53 * c -> is_finite h = true -> 0 <= F -> Rabs H <= F -> 0 <= er <= 6 / 10 -> Rabs (val h - H) <= er * F ->
  c * F <= big -> is_finite (cd *! h) = true /\ Rabs (val (cd *! h) - c * H) <= (er + 9 * u53) * (c * F) + tiny.
Proof.
  intros Fc C0 Ec Fh F0 HF Her Eh HB. assert (U := u_tiny). assert (PE := eta64_pos). assert (CF : 0 <= c * F) by (apply Rmult_le_pos; lra).
  assert (HB1 : Rabs (val h) <= 16 / 10 * F). { replace (val h) with ((val h - H) + H) by ring. apply Rle_trans with (1 := Rabs_triang _ _). assert (er * F <= 6 / 10 * F) by (apply Rmult_le_compat_r; lra). lra. }
  assert (CB1 : Rabs (val cd) <= 101 / 100 * c). { replace (val cd) with ((val cd - c) + c) by ring. apply Rle_trans with (1 := Rabs_triang _ _). rewrite (Rabs_pos_eq c) by lra. assert (u53 * c <= / 1000 * c) by (apply Rmult_le_compat_r; lra). lra. }
  assert (PB : Rabs (val cd * val h) <= 17 / 10 * (c * F)). { rewrite Rabs_mult. apply Rle_trans with (101 / 100 * c * (16 / 10 * F)); [apply Rmult_le_compat; try apply Rabs_pos; lra|lra]. }
  destruct (mult_ok cd h Fc Fh) as (Fp & _); [apply big_over; lra|]. assert (Ep := mult_err cd h Fp). split; [exact Fp|].
  assert (TE : eta64 <= tiny). { assert (X := eta_900). fold tiny in X. assert (Y := tiny_pos). assert (/ 1000 * u53 * tiny <= 1 * tiny) by (apply Rmult_le_compat_r; lra). lra. }
  assert (UP : u53 * Rabs (val cd * val h) <= u53 * (17 / 10 * (c * F))) by (apply Rmult_le_compat_l; lra).
  assert (X1 : Rabs (val cd * (val h - H)) <= c * (1 + 4 * u53) * (er * F)).
  { rewrite Rabs_mult. apply Rmult_le_compat; try apply Rabs_pos; [|exact Eh]. replace (val cd) with ((val cd - c) + c) by ring. apply Rle_trans with (1 := Rabs_triang _ _). rewrite (Rabs_pos_eq c) by lra. lra. }
  assert (X2 : Rabs ((val cd - c) * H) <= 4 * u53 * c * F) by (rewrite Rabs_mult; apply Rmult_le_compat; try apply Rabs_pos; assumption).
  assert (X3 : u53 * (er * (c * F)) <= u53 * (6 / 10 * (c * F))) by (apply Rmult_le_compat_l; [lra|apply Rmult_le_compat_r; lra]).
  replace (val (cd *! h) - c * H) with ((val (cd *! h) - val cd * val h) + (val cd * (val h - H) + (val cd - c) * H)) by ring.
  apply Rle_trans with (1 := Rabs_triang _ _). assert (T2 := Rabs_triang (val cd * (val h - H)) ((val cd - c) * H)). assert (UCF : 0 <= u53 * (c * F)) by (apply Rmult_le_pos; lra). lra.
Qed.

(** ** Exact derivatives *)
Lemma unit_deriv a x : regular a x -> derivable_pt_lim (unit_of a) x (unit_rate a x).
Proof.
  intros H. assert (E : coef_deriv a x = unit_rate a x) by (destruct a; unfold coef_deriv, unit_rate; cbv [nadd nsub nmul ndiv nofZ RNum RNum_at]; reflexivity). rewrite <- E.
  assert (D := axis_deriv a x H). intros eps He. destruct (D eps He) as (d & Hd). exists d. intros h H0 Hh. specialize (Hd h H0 Hh).
  destruct a as [lo hi|lo]; cbn [unit_of regular] in *; [rewrite <- !to_unit_closed by exact H|rewrite <- !to_unit_opened]; exact Hd.
Qed.

Lemma usable_regular a x : usable a x -> regular (axis_values a) (val x).
Proof. intros (_ & _ & H & _). destruct a; cbn [axis_values on_axis regular] in *; unfold dvalue in *; lra. Qed.
Lemma rate_room c S r : 0 < c <= bpow radix2 901 -> 0 <= S -> c * S <= huge -> 0 <= r <= bpow radix2 400 -> c * (S + r * tiny) <= big.
Proof.
  intros Hc HS H Hr. assert (P := tiny_pos). assert (T : r * tiny <= bpow radix2 400 * tiny) by (apply Rmult_le_compat_r; lra). unfold tiny in T at 2. rewrite <- bpow_plus in T.
  assert (T0 : 0 <= r * tiny) by (apply Rmult_le_pos; lra).
  assert (X : c * (r * tiny) <= bpow radix2 901 * bpow radix2 (400 + -900)) by (apply Rmult_le_compat; lra). rewrite <- bpow_plus in X.
  assert (Y : bpow radix2 (901 + (400 + -900)) <= huge) by (apply bpow_le; discriminate). assert (Z : 2 * huge <= big) by (unfold huge, big; change 2 with (bpow radix2 1); rewrite <- bpow_plus; apply bpow_le; discriminate). lra.
Qed.

(** The last step of every derivative. *)
Lemma finish (a : axis f64) (x h : f64) H er err S r D : usable a x -> rate_moderate (axis_values a) (val x) -> let c := unit_rate (axis_values a) (val x) in
  is_finite h = true -> 0 <= S -> c * S <= huge -> 0 <= r <= bpow radix2 400 -> Rabs H <= S + r * tiny -> 0 <= er <= 6 / 10 -> er <= err + 3 * u53 -> Rabs (val h - H) <= er * (S + r * tiny) -> D = c * H ->
  close_to_rate (coef_deriv a x * h)%num D err c (S + r * tiny).
Proof.
  intros Hu Hm c Fh S0 HS Hr HH Her Hee Eh ->. destruct (rate_f a x Hu Hm) as (Fc & Bc & Ec). fold c in Bc, Ec. assert (P := tiny_pos). assert (R0 : 0 <= r * tiny) by (apply Rmult_le_pos; lra).
  destruct (final_f (coef_deriv a x) h c H er (S + r * tiny) Fc (proj1 Bc) Ec Fh ltac:(lra) HH Her Eh (rate_room c S r Bc S0 HS Hr)) as (F & E).
  split; [exact F|]. change (dvalue (coef_deriv a x * h)%num) with (val (coef_deriv a x *! h)). change uround with u53. apply Rle_trans with (1 := E). apply Rplus_le_compat_r. apply Rmult_le_compat_r; [|lra].
  apply Rmult_le_pos; lra.
Qed.

Lemma ps1_deriv_lemma : forall (a : axis f64) (b : list f64) (x : f64) D, usable a x -> rate_moderate (axis_values a) (dvalue x) -> b <> [] -> all_finite b ->
  let c := unit_rate (axis_values a) (dvalue x) in vec_dsum b <= huge -> c * vec_dsum b <= huge ->
  let k := axis_cond (axis_values a) in k * uround <= / 2 -> power_err (length b) k <= / 2 ->
  derivable_pt_lim (fun t => poly (dvalues b) (unit_of (axis_values a) t)) (dvalue x) D ->
  exists v, ps1_derivative_x (mkPS1 b a) x = Ok v /\ close_to_rate v D (power_err (length b) k) c (vec_dsum b + tiny).
Proof.
  intros a b x D Hu Hm Hb Fb c HS HcS k Hk HE HD. change uround with u53 in *. assert (U := u_tiny). assert (TP := tiny_pos).
  destruct (unit_f a x Hu ltac:(fold k; lra)) as (Ft & Et & Ht & K0). fold k in Et, K0.
  destruct (vec_gen true b (to_unit a x) (unit_of (axis_values a) (val x)) k Hb Fb Ft Ht Et K0 HS HE) as (h & Eh & Fh & Bh).
  unfold ps1_derivative_x. cbn [p1_b p1_x]. cbn [hgen] in Eh. rewrite Eh. cbn [bind]. eexists. split; [reflexivity|].
  assert (S0 : 0 <= vec_dsum b) by (apply bsum_nonneg; intros; apply Rmult_le_pos; [apply pos_INR|apply Rabs_pos]).
  replace (vec_dsum b + tiny) with (vec_dsum b + 1 * tiny) by ring.
  assert (PN := power_err_nonneg (length b) k K0).
  apply finish with (H := bsum (length b) (fun i => nth i (dvalues b) 0 * trm true i (unit_of (axis_values a) (val x)))) (er := power_err (length b) k); auto; try lra.
  - split; [lra|]. change 1 with (bpow radix2 0). apply bpow_le. discriminate.
  - apply Rle_trans with (1 := gval_abs true _ _ _ Ht). cbn [wgt]. unfold vec_dsum. lra.
  - replace (vec_dsum b + 1 * tiny) with (vec_dsum b + tiny) by ring. exact Bh.
  - assert (D2 := pvf_deriv_comp (length b) (fun i => nth i (dvalues b) 0) (unit_of (axis_values a)) (val x) c (unit_deriv _ _ (usable_regular a x Hu))).
    assert (EP : forall t, poly (dvalues b) t = pvf (length b) (fun i => nth i (dvalues b) 0) t) by (intros t; unfold poly, dvalues at 1; rewrite map_length; reflexivity).
    apply (uniqueness_limite (fun t => poly (dvalues b) (unit_of (axis_values a) t)) (val x)); [exact HD|]. intros eps He. destruct (D2 eps He) as (d & Hd). exists d. intros h' H0 Hh. rewrite !EP. exact (Hd h' H0 Hh).
Qed.

Lemma gsum_x A : mat_gsum true false A = mat_dsum_x A.
Proof. apply bsum_ext. intros i _. cbn [wgt]. f_equal. apply bsum_ext. intros j _. cbn [wgt]. rewrite Rmult_1_l. reflexivity. Qed.
Lemma gsum_y A : mat_gsum false true A = mat_dsum_y A.
Proof. apply bsum_ext. intros i _. cbn [wgt]. rewrite Rmult_1_l. reflexivity. Qed.
Lemma row_sum_f A i : row_sum false A i = bsum (m_cols A) (fun j => Rabs (val (m_at A i j))).
Proof. apply bsum_ext. intros j _. cbn [wgt]. rewrite Rmult_1_l. reflexivity. Qed.
Lemma gsum_f A : mat_gsum false false A = mat_sum A.
Proof. apply bsum_ext. intros i _. cbn [wgt]. rewrite Rmult_1_l. apply row_sum_f. Qed.
Lemma rows_f A : mat_sum A <= huge -> forall i, (i < m_rows A)%nat -> row_sum false A i <= huge.
Proof. intros H i Hi. rewrite row_sum_f. apply Rle_trans with (2 := H). apply (bsum_single (m_rows A) (fun i => bsum (m_cols A) (fun j => Rabs (dvalue (m_at A i j)))) i Hi). intros. apply bsum_nonneg. intros. apply Rabs_pos. Qed.
Lemma rows_t A : mat_dsum_y A <= huge -> forall i, (i < m_rows A)%nat -> row_sum true A i <= huge.
Proof. intros H i Hi. apply Rle_trans with (2 := H). apply (bsum_single (m_rows A) (fun i => row_sum true A i) i Hi). intros. apply row_sum_nonneg. Qed.

Lemma dx_exact A a x v : regular a x -> derivable_pt_lim (fun t => mat_poly A (unit_of a t) v) x (unit_rate a x * mat_gval true false A (unit_of a x) v).
Proof. intros H. exact (pvf_deriv_comp (m_rows A) (fun i => row_val false A i v) (unit_of a) x _ (unit_deriv a x H)). Qed.
Lemma dy_exact A a y u : regular a y -> derivable_pt_lim (fun t => mat_poly A u (unit_of a t)) y (unit_rate a y * mat_gval false true A u (unit_of a y)).
Proof.
  intros H. unfold mat_gval. rewrite <- bsum_scal. assert (D := pvf_deriv_coef (m_rows A) (fun i t => row_val false A i (unit_of a t)) (fun i => unit_rate a y * row_val true A i (unit_of a y)) u y).
  assert (E : bsum (m_rows A) (fun i => unit_rate a y * (row_val true A i (unit_of a y) * trm false i u)) = pvf (m_rows A) (fun i => unit_rate a y * row_val true A i (unit_of a y)) u) by (apply bsum_ext; intros; cbn [trm]; ring).
  rewrite E. apply D. intros i _. exact (pvf_deriv_comp (m_cols A) (fun j => val (m_at A i j)) (unit_of a) y _ (unit_deriv a y H)).
Qed.

Lemma flo_400 m : 1 <= INR m <= bpow radix2 53 -> 0 <= flo m <= bpow radix2 400.
Proof. intros H. assert (X := flo_bound m H). split; [lra|]. apply Rle_trans with (1 := proj2 X). apply bpow_le. discriminate. Qed.

Lemma ps2_deriv_gen wx wy bm (ax ay a : axis f64) (A : mat f64) (x y w : f64) D : usable ax x -> usable ay y -> usable a w -> rate_moderate (axis_values a) (val w) -> (0 < m_rows A)%nat -> (0 < m_cols A)%nat -> mat_finite A ->
  let c := unit_rate (axis_values a) (val w) in (forall i, (i < m_rows A)%nat -> row_sum wy A i <= huge) -> mat_gsum wx wy A <= huge -> c * mat_gsum wx wy A <= huge ->
  let kx := axis_cond (axis_values ax) in let ky := axis_cond (axis_values ay) in kx * u53 <= / 2 -> ky * u53 <= / 2 ->
  let err := power_err (m_rows A) kx + power_err (m_cols A) ky in err <= / 2 ->
  D = c * mat_gval wx wy A (unit_of (axis_values ax) (val x)) (unit_of (axis_values ay) (val y)) ->
  exists v, (let* q := partial_sums bm (hgen wy) A (m_rows A) (to_unit ay y) in let* h := hgen wx q (to_unit ax x) in Ok (coef_deriv a w * h)%num) = Ok v /\
    close_to_rate v D err c (mat_gsum wx wy A + flo (m_rows A) * tiny).
Proof.
  intros Hx Hy Hw Hm Hr Hn FA c HR HS HcS kx ky Hkx Hky err HE ED. assert (U := u_tiny). assert (TP := tiny_pos).
  destruct (unit_f ax x Hx ltac:(fold kx; lra)) as (Fx & Ex & Tx & K0). destruct (unit_f ay y Hy ltac:(fold ky; lra)) as (Fy & Ey & Ty & K1). fold kx in Ex, K0. fold ky in Ey, K1.
  destruct (mat_gen wx wy bm A (to_unit ax x) (to_unit ay y) _ _ kx ky Hr Hn FA Fx Tx Ex K0 Fy Ty Ey K1 HR HS HE) as (h & Eh & Fh & Bh).
  destruct (partial_sums bm (hgen wy) A (m_rows A) (to_unit ay y)) as [q| | | |]; try discriminate Eh. cbn [bind] in Eh |- *. rewrite Eh. cbn [bind]. eexists. split; [reflexivity|].
  assert (PX := power_err_nonneg (m_rows A) kx K0). assert (PY := power_err_nonneg (m_cols A) ky K1).
  assert (FL := flo_400 _ (power_terms (m_rows A) kx K0 Hr ltac:(unfold err in HE; lra))). assert (G0 := mat_gsum_nonneg wx wy A). assert (F0 : 0 <= flo (m_rows A) * tiny) by (apply Rmult_le_pos; lra).
  unfold err in *. set (Px := power_err (m_rows A) kx) in *. set (Py := power_err (m_cols A) ky) in *.
  assert (u53 * Py <= u53 * 1) by (apply Rmult_le_compat_l; lra). assert (0 <= u53 * Py) by (apply Rmult_le_pos; lra).
  apply finish with (H := mat_gval wx wy A (unit_of (axis_values ax) (val x)) (unit_of (axis_values ay) (val y))) (er := Px + (1 + u53) * Py); auto; try lra.
  apply Rle_trans with (1 := mat_gval_abs wx wy A _ _ Tx Ty). lra.
Qed.

Lemma ps2_dx_lemma : forall bm (ax ay : axis f64) (A : mat f64) (x y : f64) D, usable ax x -> usable ay y -> rate_moderate (axis_values ax) (dvalue x) -> (0 < m_rows A)%nat -> (0 < m_cols A)%nat -> mat_finite A ->
  let c := unit_rate (axis_values ax) (dvalue x) in mat_sum A <= huge -> mat_dsum_x A <= huge -> c * mat_dsum_x A <= huge ->
  let kx := axis_cond (axis_values ax) in let ky := axis_cond (axis_values ay) in kx * uround <= / 2 -> ky * uround <= / 2 ->
  let err := power_err (m_rows A) kx + power_err (m_cols A) ky in err <= / 2 ->
  derivable_pt_lim (fun t => mat_poly A (unit_of (axis_values ax) t) (unit_of (axis_values ay) (dvalue y))) (dvalue x) D ->
  exists v, ps2_derivative_x bm (mkPS2 A ax ay) x y = Ok v /\ close_to_rate v D err c (mat_dsum_x A + (INR (m_rows A) * INR (m_rows A) + 1) * tiny).
Proof.
  intros bm ax ay A x y D Hx Hy Hm Hr Hn FA c HS HD HcD kx ky Hkx Hky err HE HDD. change uround with u53 in *.
  destruct (ps2_deriv_gen true false bm ax ay ax A x y x D Hx Hy Hx Hm Hr Hn FA (rows_f A HS)) as (v & E & C); auto; [rewrite gsum_x; exact HD|rewrite gsum_x; exact HcD| |exists v; split; [exact E|rewrite gsum_x in C; exact C]].
  exact (uniqueness_limite _ _ _ _ HDD (dx_exact A (axis_values ax) (val x) (unit_of (axis_values ay) (val y)) (usable_regular ax x Hx))).
Qed.
Lemma ps2_dy_lemma : forall bm (ax ay : axis f64) (A : mat f64) (x y : f64) D, usable ax x -> usable ay y -> rate_moderate (axis_values ay) (dvalue y) -> (0 < m_rows A)%nat -> (0 < m_cols A)%nat -> mat_finite A ->
  let c := unit_rate (axis_values ay) (dvalue y) in mat_dsum_y A <= huge -> c * mat_dsum_y A <= huge ->
  let kx := axis_cond (axis_values ax) in let ky := axis_cond (axis_values ay) in kx * uround <= / 2 -> ky * uround <= / 2 ->
  let err := power_err (m_rows A) kx + power_err (m_cols A) ky in err <= / 2 ->
  derivable_pt_lim (fun t => mat_poly A (unit_of (axis_values ax) (dvalue x)) (unit_of (axis_values ay) t)) (dvalue y) D ->
  exists v, ps2_derivative_y bm (mkPS2 A ax ay) x y = Ok v /\ close_to_rate v D err c (mat_dsum_y A + (INR (m_rows A) * INR (m_rows A) + 1) * tiny).
Proof.
  intros bm ax ay A x y D Hx Hy Hm Hr Hn FA c HD HcD kx ky Hkx Hky err HE HDD. change uround with u53 in *.
  destruct (ps2_deriv_gen false true bm ax ay ay A x y y D Hx Hy Hy Hm Hr Hn FA (rows_t A HD)) as (v & E & C); auto; [rewrite gsum_y; exact HD|rewrite gsum_y; exact HcD| |exists v; split; [exact E|rewrite gsum_y in C; exact C]].
  exact (uniqueness_limite _ _ _ _ HDD (dy_exact A (axis_values ay) (val y) (unit_of (axis_values ax) (val x)) (usable_regular ay y Hy))).
Qed.

(** ** Three variables *)
Lemma box_gval_abs wx wy wz B tx ty tz : Rabs tx <= 1 -> Rabs ty <= 1 -> Rabs tz <= 1 -> Rabs (box_gval wx wy wz B tx ty tz) <= box_gsum wx wy wz B.
Proof.
  intros Hx Hy Hz. apply Rle_trans with (1 := gval_abs wz (length B) (fun k => mat_gval wx wy (nth k B no_mat) tx ty) tz Hz). apply bsum_le. intros k _. apply Rmult_le_compat_l; [apply wgt_nonneg|]. apply mat_gval_abs; assumption.
Qed.
Lemma flo3_400 p m : 1 <= INR p <= bpow radix2 53 -> 1 <= INR m <= bpow radix2 53 -> 0 <= flo3 p m <= bpow radix2 400.
Proof.
  intros Hp Hm. assert (X := flo_bound m Hm). unfold flo3. set (q := INR p) in *. assert (Q1 : 0 <= q * q) by (apply Rmult_le_pos; lra). assert (Q2 : q * q <= bpow radix2 53 * bpow radix2 53) by (apply Rmult_le_compat; lra). rewrite <- bpow_plus in Q2.
  assert (Q3 : q * q * flo m <= bpow radix2 (53 + 53) * bpow radix2 107) by (apply Rmult_le_compat; lra). rewrite <- bpow_plus in Q3.
  assert (Q0 : 0 <= q * q * flo m) by (apply Rmult_le_pos; lra). split; [lra|].
  assert (Q4 : 2 * bpow radix2 (53 + 53 + 107) <= bpow radix2 400) by (change 2 with (bpow radix2 1); rewrite <- bpow_plus; apply bpow_le; discriminate).
  assert (1 <= bpow radix2 (53 + 53 + 107)) by (change 1 with (bpow radix2 0); apply bpow_le; discriminate). lra.
Qed.
Lemma ps3_deriv_gen wx wy wz bm (ax ay az a : axis f64) (B : list (mat f64)) nx ny (s : ps3 f64) (x y z w : f64) D : usable ax x -> usable ay y -> usable az z -> usable a w -> rate_moderate (axis_values a) (val w) ->
  (0 < nx)%nat -> (0 < ny)%nat -> B <> [] -> box_ok nx ny B -> s = mkPS3 B nx ny ax ay az ->
  let c := unit_rate (axis_values a) (val w) in
  (forall k i, (k < length B)%nat -> (i < nx)%nat -> row_sum wy (nth k B no_mat) i <= huge) -> (forall k, (k < length B)%nat -> mat_gsum wx wy (nth k B no_mat) <= huge) ->
  box_gsum wx wy wz B <= huge -> c * box_gsum wx wy wz B <= huge ->
  let kx := axis_cond (axis_values ax) in let ky := axis_cond (axis_values ay) in let kz := axis_cond (axis_values az) in kx * u53 <= / 2 -> ky * u53 <= / 2 -> kz * u53 <= / 2 ->
  let err := power_err nx kx + power_err ny ky + power_err (length B) kz in err <= / 2 ->
  D = c * box_gval wx wy wz B (unit_of (axis_values ax) (val x)) (unit_of (axis_values ay) (val y)) (unit_of (axis_values az) (val z)) ->
  exists v, (let* q := partial_sums3 bm (hgen wx) (hgen wy) s (to_unit ax x) (to_unit ay y) in let* h := hgen wz q (to_unit az z) in Ok (coef_deriv a w * h)%num) = Ok v /\
    close_to_rate v D err c (box_gsum wx wy wz B + flo3 (length B) nx * tiny).
Proof.
  intros Hx Hy Hz Hw Hm Hr Hn HB FB ES c HR HMS HS HcS kx ky kz Hkx Hky Hkz err HE ED. assert (U := u_tiny). assert (TP := tiny_pos). assert (LB : (0 < length B)%nat) by (clear - HB; destruct B; [congruence|cbn [length]; lia]).
  destruct (unit_f ax x Hx ltac:(fold kx; lra)) as (Fx & Ex & Tx & K0). destruct (unit_f ay y Hy ltac:(fold ky; lra)) as (Fy & Ey & Ty & K1). destruct (unit_f az z Hz ltac:(fold kz; lra)) as (Fz & Ez & Tz & K2).
  fold kx in Ex, K0. fold ky in Ey, K1. fold kz in Ez, K2.
  destruct (box_gen wx wy wz bm B nx ny (to_unit ax x) (to_unit ay y) (to_unit az z) _ _ _ kx ky kz s HB Hr Hn FB Fx Tx Ex K0 Fy Ty Ey K1 Fz Tz Ez K2 HR HMS HS HE ltac:(subst s; reflexivity) ltac:(subst s; reflexivity)) as (h & Eh & Fh & Bh).
  destruct (partial_sums3 bm (hgen wx) (hgen wy) s (to_unit ax x) (to_unit ay y)) as [q| | | |]; try discriminate Eh. cbn [bind] in Eh |- *. rewrite Eh. cbn [bind]. eexists. split; [reflexivity|].
  assert (PX := power_err_nonneg nx kx K0). assert (PY := power_err_nonneg ny ky K1). assert (PZ := power_err_nonneg (length B) kz K2). fold err in Bh.
  assert (E3 : power_err nx kx <= / 2 /\ power_err (length B) kz <= / 2 /\ 0 <= err) by (unfold err in *; lra).
  assert (FL := flo3_400 (length B) nx (power_terms (length B) kz K2 LB ltac:(lra)) (power_terms nx kx K0 Hr ltac:(lra))).
  assert (G0 : 0 <= box_gsum wx wy wz B) by (apply bsum_nonneg; intros; apply Rmult_le_pos; [apply wgt_nonneg|apply mat_gsum_nonneg]). assert (F0 : 0 <= flo3 (length B) nx * tiny) by (apply Rmult_le_pos; lra).
  apply finish with (H := box_gval wx wy wz B (unit_of (axis_values ax) (val x)) (unit_of (axis_values ay) (val y)) (unit_of (axis_values az) (val z))) (er := err + 2 * u53); auto; try lra.
  apply Rle_trans with (1 := box_gval_abs wx wy wz B _ _ _ Tx Ty Tz). lra.
Qed.

Lemma bx_exact B a x v w : regular a x -> derivable_pt_lim (fun t => box_poly B (unit_of a t) v w) x (unit_rate a x * box_gval true false false B (unit_of a x) v w).
Proof.
  intros H. unfold box_gval. rewrite <- bsum_scal. assert (D := pvf_deriv_coef (length B) (fun k t => mat_poly (nth k B no_mat) (unit_of a t) v) (fun k => unit_rate a x * mat_gval true false (nth k B no_mat) (unit_of a x) v) w x).
  replace (bsum (length B) _) with (pvf (length B) (fun k => unit_rate a x * mat_gval true false (nth k B no_mat) (unit_of a x) v) w) by (apply bsum_ext; intros; cbn [trm]; ring).
  apply D. intros k _. apply dx_exact, H.
Qed.
Lemma by_exact B a y u w : regular a y -> derivable_pt_lim (fun t => box_poly B u (unit_of a t) w) y (unit_rate a y * box_gval false true false B u (unit_of a y) w).
Proof.
  intros H. unfold box_gval. rewrite <- bsum_scal. assert (D := pvf_deriv_coef (length B) (fun k t => mat_poly (nth k B no_mat) u (unit_of a t)) (fun k => unit_rate a y * mat_gval false true (nth k B no_mat) u (unit_of a y)) w y).
  replace (bsum (length B) _) with (pvf (length B) (fun k => unit_rate a y * mat_gval false true (nth k B no_mat) u (unit_of a y)) w) by (apply bsum_ext; intros; cbn [trm]; ring).
  apply D. intros k _. apply dy_exact, H.
Qed.
Lemma bz_exact B a z u v : regular a z -> derivable_pt_lim (fun t => box_poly B u v (unit_of a t)) z (unit_rate a z * box_gval false false true B u v (unit_of a z)).
Proof. intros H. exact (pvf_deriv_comp (length B) (fun k => mat_poly (nth k B no_mat) u v) (unit_of a) z _ (unit_deriv a z H)). Qed.

Lemma bsx B : box_gsum true false false B = box_dsum_x B.
Proof. apply bsum_ext. intros k _. cbn [wgt]. rewrite Rmult_1_l. apply gsum_x. Qed.
Lemma bsy B : box_gsum false true false B = box_dsum_y B.
Proof. apply bsum_ext. intros k _. cbn [wgt]. rewrite Rmult_1_l. apply gsum_y. Qed.
Lemma bsz B : box_gsum false false true B = box_dsum_z B.
Proof. apply bsum_ext. intros k _. cbn [wgt]. rewrite gsum_f. reflexivity. Qed.
Lemma mats_of (f : mat f64 -> R) B : (forall A, 0 <= f A) -> bsum (length B) (fun k => f (nth k B no_mat)) <= huge -> forall k, (k < length B)%nat -> f (nth k B no_mat) <= huge.
Proof. intros H0 H k Hk. apply Rle_trans with (2 := H). apply (bsum_single (length B) (fun k => f (nth k B no_mat)) k Hk). intros. apply H0. Qed.
Lemma make_box (B : list (mat f64)) nx ny ax ay az s : B <> [] -> box_ok nx ny B -> ps3_make B ax ay az = Ok s -> s = mkPS3 B nx ny ax ay az.
Proof.
  intros HB FB HM. destruct B as [|b B]; [congruence|]. unfold ps3_make in HM. cbn in HM. destruct (FB 0%nat ltac:(cbn [length]; lia)) as (R1 & R2 & _). cbn [nth] in R1, R2. rewrite R1, R2 in HM. congruence.
Qed.
Lemma sums_nonneg A : 0 <= mat_sum A /\ 0 <= mat_dsum_x A /\ 0 <= mat_dsum_y A.
Proof. rewrite <- gsum_f, <- gsum_x, <- gsum_y. repeat split; apply mat_gsum_nonneg. Qed.

Lemma ps3_deriv_lemma : forall bm (ax ay az : axis f64) (B : list (mat f64)) nx ny (s : ps3 f64) (x y z : f64), usable ax x -> usable ay y -> usable az z ->
  (0 < nx)%nat -> (0 < ny)%nat -> B <> [] -> box_ok nx ny B -> ps3_make B ax ay az = Ok s -> box_sum B <= huge ->
  let kx := axis_cond (axis_values ax) in let ky := axis_cond (axis_values ay) in let kz := axis_cond (axis_values az) in
  kx * uround <= / 2 -> ky * uround <= / 2 -> kz * uround <= / 2 ->
  let err := power_err nx kx + power_err ny ky + power_err (length B) kz in err <= / 2 ->
  let u := unit_of (axis_values ax) (dvalue x) in let v := unit_of (axis_values ay) (dvalue y) in let w := unit_of (axis_values az) (dvalue z) in
  let floor := (INR (length B) * INR (length B) * (INR nx * INR nx + 1) + 1) * tiny in
  (forall D, let c := unit_rate (axis_values ax) (dvalue x) in rate_moderate (axis_values ax) (dvalue x) -> box_dsum_x B <= huge -> c * box_dsum_x B <= huge ->
     derivable_pt_lim (fun t => box_poly B (unit_of (axis_values ax) t) v w) (dvalue x) D ->
     exists r, ps3_derivative_x bm s x y z = Ok r /\ close_to_rate r D err c (box_dsum_x B + floor)) /\
  (forall D, let c := unit_rate (axis_values ay) (dvalue y) in rate_moderate (axis_values ay) (dvalue y) -> box_dsum_y B <= huge -> c * box_dsum_y B <= huge ->
     derivable_pt_lim (fun t => box_poly B u (unit_of (axis_values ay) t) w) (dvalue y) D ->
     exists r, ps3_derivative_y bm s x y z = Ok r /\ close_to_rate r D err c (box_dsum_y B + floor)) /\
  (forall D, let c := unit_rate (axis_values az) (dvalue z) in rate_moderate (axis_values az) (dvalue z) -> box_dsum_z B <= huge -> c * box_dsum_z B <= huge ->
     derivable_pt_lim (fun t => box_poly B u v (unit_of (axis_values az) t)) (dvalue z) D ->
     exists r, ps3_derivative_z bm s x y z = Ok r /\ close_to_rate r D err c (box_dsum_z B + floor)).
Proof.
  intros bm ax ay az B nx ny s x y z Hx Hy Hz Hr Hn HB FB HM HS kx ky kz Hkx Hky Hkz err HE u v w floor. change uround with u53 in *.
  assert (ES := make_box B nx ny ax ay az s HB FB HM).
  assert (NN := sums_nonneg).
  assert (MF : forall k, (k < length B)%nat -> mat_sum (nth k B no_mat) <= huge) by (apply mats_of; [intros A; apply NN|exact HS]).
  assert (RF : forall k i, (k < length B)%nat -> (i < nx)%nat -> row_sum false (nth k B no_mat) i <= huge) by (intros k i Hk Hi; apply rows_f; [apply MF, Hk|destruct (FB k Hk) as (-> & _); exact Hi]).
  split; [|split]; intros D c Hm HD HcD HDD.
  - destruct (ps3_deriv_gen true false false bm ax ay az ax B nx ny s x y z x D) as (r & E & C); auto.
    + intros k Hk. rewrite gsum_x. apply (mats_of mat_dsum_x); [intros A; apply NN|exact HD|exact Hk].
    + rewrite bsx. exact HD.
    + rewrite bsx. exact HcD.
    + exact (uniqueness_limite _ _ _ _ HDD (bx_exact B (axis_values ax) (val x) v w (usable_regular ax x Hx))).
    + exists r. subst s. split; [exact E|rewrite bsx in C; exact C].
  - destruct (ps3_deriv_gen false true false bm ax ay az ay B nx ny s x y z y D) as (r & E & C); auto.
    + intros k i Hk Hi. apply rows_t; [apply (mats_of mat_dsum_y); [intros A; apply NN|exact HD|exact Hk]|destruct (FB k Hk) as (-> & _); exact Hi].
    + intros k Hk. rewrite gsum_y. apply (mats_of mat_dsum_y); [intros A; apply NN|exact HD|exact Hk].
    + rewrite bsy. exact HD.
    + rewrite bsy. exact HcD.
    + exact (uniqueness_limite _ _ _ _ HDD (by_exact B (axis_values ay) (val y) u w (usable_regular ay y Hy))).
    + exists r. subst s. split; [exact E|rewrite bsy in C; exact C].
  - destruct (ps3_deriv_gen false false true bm ax ay az az B nx ny s x y z z D) as (r & E & C); auto.
    + intros k Hk. rewrite gsum_f. apply MF, Hk.
    + rewrite bsz. exact HD.
    + rewrite bsz. exact HcD.
    + exact (uniqueness_limite _ _ _ _ HDD (bz_exact B (axis_values az) (val z) u v (usable_regular az z Hz))).
    + exists r. subst s. split; [exact E|rewrite bsz in C; exact C].
Qed.

(** ** One call for three results, any arithmetic *)
Lemma mapM_pair {A B C} (F : A -> outcome (B * C)) f g l : (forall i u v, f i = Ok u -> g i = Ok v -> F i = Ok (u, v)) ->
  forall a b, mapM f l = Ok a -> mapM g l = Ok b -> exists r, mapM F l = Ok r /\ map fst r = a /\ map snd r = b.
Proof.
  intros H. induction l as [|i l IH]; intros a b Ea Eb; cbn [mapM] in *; [exists []; cbn [map]; repeat split; congruence|].
  destruct (f i) as [u| | | |] eqn:Fi; cbn [bind] in *; try discriminate. destruct (mapM f l) as [us| | | |]; cbn [bind] in *; try discriminate.
  destruct (g i) as [v| | | |] eqn:Gi; cbn [bind] in *; try discriminate. destruct (mapM g l) as [vs| | | |]; cbn [bind] in *; try discriminate.
  destruct (IH us vs eq_refl eq_refl) as (r & Er & E1 & E2). exists ((u, v) :: r). rewrite (H i u v Fi Gi). cbn [bind]. rewrite Er. cbn [bind map fst snd]. rewrite E1, E2. repeat split; congruence.
Qed.
Lemma mapM_triple {A B C D} (F : A -> outcome (B * C * D)) f g h l : (forall i u v w, f i = Ok u -> g i = Ok v -> h i = Ok w -> F i = Ok (u, v, w)) ->
  forall a b c, mapM f l = Ok a -> mapM g l = Ok b -> mapM h l = Ok c -> exists r, mapM F l = Ok r /\ map (fun t => fst (fst t)) r = a /\ map (fun t => snd (fst t)) r = b /\ map snd r = c.
Proof.
  intros H. induction l as [|i l IH]; intros a b c Ea Eb Ec; cbn [mapM] in *; [exists []; cbn [map]; repeat split; congruence|].
  destruct (f i) as [u| | | |] eqn:Fi; cbn [bind] in *; try discriminate. destruct (mapM f l) as [us| | | |]; cbn [bind] in *; try discriminate.
  destruct (g i) as [v| | | |] eqn:Gi; cbn [bind] in *; try discriminate. destruct (mapM g l) as [vs| | | |]; cbn [bind] in *; try discriminate.
  destruct (h i) as [w| | | |] eqn:Hi; cbn [bind] in *; try discriminate. destruct (mapM h l) as [ws| | | |]; cbn [bind] in *; try discriminate.
  destruct (IH us vs ws eq_refl eq_refl eq_refl) as (r & Er & E1 & E2 & E3). exists ((u, v, w) :: r). rewrite (H i u v w Fi Gi Hi). cbn [bind]. rewrite Er. cbn [bind map fst snd]. rewrite E1, E2, E3. repeat split; congruence.
Qed.
Section Any.
Context {T : Type} {NT : Num T}.
Lemma rows_pair bm (A : mat T) n yu a b : partial_sums bm horner A n yu = Ok a -> partial_sums bm horner_derivative A n yu = Ok b ->
  exists r, mapM (fun i => let* pj := mrow bm A i in let* a := horner pj yu in let* b := horner_derivative pj yu in Ok (a, b)) (seq 0 n) = Ok r /\ map fst r = a /\ map snd r = b.
Proof.
  apply mapM_pair. intros i u v. destruct (mrow bm A i); cbn [bind]; try discriminate. intros -> ->. reflexivity.
Qed.
Lemma combined_unit bm (s : ps3 T) x y xu yu zu f dx dy :
  ps3_evaluate_unit bm s xu yu zu = Ok f -> ps3_derivative_x_unit bm s x xu yu zu = Ok dx -> ps3_derivative_y_unit bm s y xu yu zu = Ok dy ->
  ps3_f_dfdx_dfdy_unit bm s x y xu yu zu = Ok (f, dx, dy).
Proof.
  unfold ps3_evaluate_unit, ps3_derivative_x_unit, ps3_derivative_y_unit, ps3_f_dfdx_dfdy_unit.
  destruct (partial_sums3 bm horner horner s xu yu) as [a| | | |] eqn:Ea; cbn [bind]; try discriminate. intros Ef.
  destruct (partial_sums3 bm horner_derivative horner s xu yu) as [b| | | |] eqn:Eb; cbn [bind]; try discriminate. intros Edx.
  destruct (partial_sums3 bm horner horner_derivative s xu yu) as [c| | | |] eqn:Ec; cbn [bind]; try discriminate. intros Edy.
  unfold partial_sums3 in Ea, Eb, Ec.
  match goal with |- bind (mapM ?F _) _ = _ => edestruct (mapM_triple F) with (2 := Ea) (3 := Eb) (4 := Ec) as (r & Er & E1 & E2 & E3) end.
  - intros k u v w. destruct (vat (p3_b s) k) as [A| | | |]; cbn [bind]; try discriminate.
    destruct (partial_sums bm horner A (p3_nx s) yu) as [q1| | | |] eqn:Q1; cbn [bind]; try discriminate. intros Hu Hv.
    destruct (partial_sums bm horner_derivative A (p3_nx s) yu) as [q2| | | |] eqn:Q2; cbn [bind]; try discriminate. intros Hw.
    destruct (rows_pair bm A _ yu q1 q2 Q1 Q2) as (q & -> & F1 & F2). cbn [bind]. cbv zeta. rewrite F1, F2, Hu, Hv, Hw. reflexivity.
  - rewrite Er. cbn [bind]. rewrite E1, E2, E3, Ef. cbn [bind].
    destruct (horner b zu) as [h1| | | |]; cbn [bind] in *; try discriminate. destruct (horner c zu) as [h2| | | |]; cbn [bind] in *; try discriminate. congruence.
Qed.
Lemma combined_lemma : forall bm (s : ps3 T) x y z f dx dy,
  ps3_evaluate bm s x y z = Ok f -> ps3_derivative_x bm s x y z = Ok dx -> ps3_derivative_y bm s x y z = Ok dy -> ps3_f_dfdx_dfdy bm s x y z = Ok (f, dx, dy).
Proof. intros. apply combined_unit; assumption. Qed.
Lemma combined_pre_lemma : forall bm (s : ps3 T) x y c f dx dy lo hi, p3_y s = Closed lo hi ->
  ps3_evaluate_z_predefined bm s x y c = Ok f -> ps3_derivative_x_z_predefined bm s x y c = Ok dx -> ps3_derivative_y_z_predefined bm s x y c = Ok dy ->
  ps3_f_dfdx_dfdy_z_predefined bm s x y c = Ok (f, dx, dy).
Proof.
  intros bm s x y c f dx dy lo hi EY. unfold ps3_evaluate_z_predefined, ps3_derivative_x_z_predefined, ps3_derivative_y_z_predefined, ps3_derivative_y_unit_zunit_predefined, ps3_f_dfdx_dfdy_z_predefined, unit2. rewrite EY.
  set (yu := to_unit _ y). set (xu := to_unit _ x).
  destruct (partial_sums bm horner c (p3_nx s) yu) as [q1| | | |] eqn:Q1; cbn [bind]; try discriminate. intros Hu Hv.
  destruct (partial_sums bm horner_derivative c (p3_nx s) yu) as [q2| | | |] eqn:Q2; cbn [bind]; try discriminate. intros Hw. cbv zeta.
  destruct (rows_pair bm c _ yu q1 q2 Q1 Q2) as (q & -> & F1 & F2). cbn [bind]. rewrite F1, F2, Hu. cbn [bind].
  destruct (horner_derivative q1 xu) as [h1| | | |]; cbn [bind] in *; try discriminate. destruct (horner q2 xu) as [h2| | | |]; cbn [bind] in *; try discriminate.
  unfold coef_deriv in *. congruence.
Qed.
End Any.

(** ** Examples *)
Lemma ex_rate_c : unit_rate (axis_values (Closed (f64_ofZ 1) (f64_ofZ 5))) (dvalue (f64_ofZ 4)) = / 2.
Proof. cbn [axis_values unit_rate]. vz. field. Qed.
Lemma ex_rate_o : unit_rate (axis_values (Opened (f64_ofZ 1))) (dvalue (f64_ofZ 4)) = / 8.
Proof. cbn [axis_values unit_rate]. vz. field. Qed.
Lemma ex_moderate_o : rate_moderate (axis_values (Opened (f64_ofZ 1))) (dvalue (f64_ofZ 4)).
Proof. cbn [axis_values rate_moderate]. vz. split; [change 1 with (bpow radix2 0)|change 4 with (bpow radix2 2)]; apply bpow_le; discriminate. Qed.
Lemma ex_unit_o : unit_of (axis_values (Opened (f64_ofZ 1))) (dvalue (f64_ofZ 4)) = / 2.
Proof. cbn [axis_values unit_of]. vz. unfold halfline_unit. field. Qed.

Lemma tiny_u : tiny <= u53.
Proof. replace u53 with (bpow radix2 (-53)) by (unfold u53; rewrite bpow_powerRZ; simpl; reflexivity). apply bpow_le. discriminate. Qed.
Lemma ex_der1 : exists v, ps1_derivative_x (mkPS1 (map f64_ofZ [1; 2; 3]%Z) (Closed (f64_ofZ 1) (f64_ofZ 5))) (f64_ofZ 4) = Ok v /\ Rabs (dvalue v - 5 / 2) <= / 1000000000000.
Proof.
  assert (U := u_tiny). assert (H := one_huge). assert (T := tiny_small). assert (TP : 0 < tiny) by apply bpow_gt_0. assert (TU := tiny_u).
  assert (VS : vec_dsum (map f64_ofZ [1; 2; 3]%Z) = 8).
  { unfold vec_dsum, dvalues. cbn [length map bsum nth]. vz. rewrite !Rabs_pos_eq by lra. simpl. ring. }
  assert (PE : power_err 3 (41 / 4) = 61 * u53) by (unfold power_err; change uround with u53; simpl; field).
  destruct (ps1_deriv_lemma (Closed (f64_ofZ 1) (f64_ofZ 5)) (map f64_ofZ [1; 2; 3]%Z) (f64_ofZ 4) (5 / 2) ex_usable I) as (v & E & _ & Ev).
  - discriminate.
  - unfold all_finite. cbn [map]. repeat constructor; apply fin_ofZ; reflexivity.
  - rewrite VS. lra.
  - rewrite VS, ex_rate_c. lra.
  - rewrite ex_axis_cond. change uround with u53. lra.
  - rewrite ex_axis_cond. cbn [map length]. rewrite PE. lra.
  - assert (X := pvf_deriv_comp 3 (fun i => nth i (dvalues (map f64_ofZ [1; 2; 3]%Z)) 0) (unit_of (axis_values (Closed (f64_ofZ 1) (f64_ofZ 5)))) (dvalue (f64_ofZ 4)) (unit_rate (axis_values (Closed (f64_ofZ 1) (f64_ofZ 5))) (dvalue (f64_ofZ 4))) (unit_deriv _ _ (usable_regular _ _ ex_usable))).
    match type of X with derivable_pt_lim _ _ ?d => replace d with (5 / 2) in X; [exact X|] end. rewrite ex_unit, ex_rate_c. unfold dvf, dvalues. cbn [map bsum nth]. vz. simpl. field.
  - exists v. split; [exact E|]. rewrite ex_axis_cond, VS, ex_rate_c in Ev. cbn [map length] in Ev. rewrite PE in Ev. change uround with u53 in Ev.
    apply Rle_trans with (1 := Ev). apply Rle_trans with (73 * u53 * 5 + u53); [|lra]. apply Rplus_le_compat; [apply Rmult_le_compat; lra|lra].
Qed.

Lemma ex_der2 : exists v,
  ps2_derivative_y Release (mkPS2 (mkMat 2 2 (fun i j => f64_ofZ (Z.of_nat (2 * i + j)))) (Closed (f64_ofZ 1) (f64_ofZ 5)) (Opened (f64_ofZ 1))) (f64_ofZ 4) (f64_ofZ 4) = Ok v /\
  Rabs (dvalue v - 5 / 16) <= / 1000000000000.
Proof.
  assert (U := u_tiny). assert (H := one_huge). assert (T := tiny_small). assert (TP : 0 < tiny) by apply bpow_gt_0. assert (TU := tiny_u). set (A := mkMat 2 2 (fun i j => f64_ofZ (Z.of_nat (2 * i + j)))).
  assert (VS : mat_dsum_y A = 4).
  { unfold mat_dsum_y, A. cbn [m_rows m_cols m_at bsum]. simpl Z.of_nat. vz. rewrite !Rabs_pos_eq by lra. simpl. ring. }
  assert (P1 : power_err 2 (41 / 4) = 61 / 2 * u53) by (unfold power_err; change uround with u53; simpl; field).
  assert (P2 : power_err 2 4 = 18 * u53) by (unfold power_err; change uround with u53; simpl; field).
  destruct (ps2_dy_lemma Release (Closed (f64_ofZ 1) (f64_ofZ 5)) (Opened (f64_ofZ 1)) A (f64_ofZ 4) (f64_ofZ 4) (5 / 16) ex_usable ex_usable_o ex_moderate_o) as (v & E & _ & Ev).
  - cbn. lia.
  - cbn. lia.
  - intros i j Hi Hj. cbn [A m_at m_rows m_cols] in *. apply fin_ofZ. lia.
  - rewrite VS. lra.
  - rewrite VS, ex_rate_o. lra.
  - rewrite ex_axis_cond. change uround with u53. lra.
  - cbn [axis_values axis_cond]. change uround with u53. lra.
  - rewrite ex_axis_cond. cbn [axis_values axis_cond m_rows m_cols A]. rewrite P1, P2. lra.
  - rewrite ex_unit. assert (X := dy_exact A (axis_values (Opened (f64_ofZ 1))) (dvalue (f64_ofZ 4)) (/ 2) (usable_regular _ _ ex_usable_o)).
    match type of X with derivable_pt_lim _ _ ?d => replace d with (5 / 16) in X; [exact X|] end. rewrite ex_unit_o, ex_rate_o. unfold mat_gval, row_val, A. cbn [m_rows m_cols m_at bsum trm]. simpl Z.of_nat. repeat match goal with |- context [val (f64_ofZ ?z)] => change (val (f64_ofZ z)) with (dvalue (f64_ofZ z)) end. vz. simpl. field.
  - exists v. split; [exact E|]. rewrite ex_axis_cond, VS, ex_rate_o in Ev. cbn [axis_values axis_cond] in Ev. change (m_rows A) with 2%nat in Ev. change (m_cols A) with 2%nat in Ev. rewrite P1, P2 in Ev. change uround with u53 in Ev. change (INR 2) with 2 in Ev.
    apply Rle_trans with (1 := Ev). apply Rle_trans with ((61 / 2 * u53 + 18 * u53 + 12 * u53) * 2 + u53); [|lra]. apply Rplus_le_compat; [apply Rmult_le_compat; lra|lra].
Qed.
Lemma ex_der3 : exists s v,
  ps3_make [mkMat 2 2 (fun i j => f64_ofZ (Z.of_nat (2 * i + j))); mkMat 2 2 (fun i j => f64_ofZ (Z.of_nat (i + j)))]
    (Closed (f64_ofZ 1) (f64_ofZ 5)) (Opened (f64_ofZ 1)) (Opened (f64_ofZ 1)) = Ok s /\
  ps3_derivative_z Release s (f64_ofZ 4) (f64_ofZ 4) (f64_ofZ 4) = Ok v /\
  Rabs (dvalue v - 3 / 16) <= / 1000000000000.
Proof.
  assert (U := u_tiny). assert (H := one_huge). assert (T := tiny_small). assert (TP : 0 < tiny) by apply bpow_gt_0. assert (TU := tiny_u).
  set (A1 := mkMat 2 2 (fun i j => f64_ofZ (Z.of_nat (2 * i + j)))). set (A2 := mkMat 2 2 (fun i j => f64_ofZ (Z.of_nat (i + j)))).
  set (s := mkPS3 [A1; A2] 2 2 (Closed (f64_ofZ 1) (f64_ofZ 5)) (Opened (f64_ofZ 1)) (Opened (f64_ofZ 1))). exists s.
  assert (VS : box_sum [A1; A2] = 10).
  { unfold box_sum, mat_sum, A1, A2. cbn [length nth m_rows m_cols m_at bsum]. simpl Z.of_nat. vz. rewrite !Rabs_pos_eq by lra. ring. }
  assert (VD : box_dsum_z [A1; A2] = 4).
  { unfold box_dsum_z, mat_sum, A1, A2. cbn [length nth m_rows m_cols m_at bsum]. simpl Z.of_nat. vz. rewrite !Rabs_pos_eq by lra. simpl. ring. }
  assert (P1 : power_err 2 (41 / 4) = 61 / 2 * u53) by (unfold power_err; change uround with u53; simpl; field).
  assert (P2 : power_err 2 4 = 18 * u53) by (unfold power_err; change uround with u53; simpl; field).
  destruct (ps3_deriv_lemma Release (Closed (f64_ofZ 1) (f64_ofZ 5)) (Opened (f64_ofZ 1)) (Opened (f64_ofZ 1)) [A1; A2] 2 2 s (f64_ofZ 4) (f64_ofZ 4) (f64_ofZ 4) ex_usable ex_usable_o ex_usable_o) as (_ & _ & DZ); try lia; auto.
  - discriminate.
  - intros k Hk. cbn [length] in Hk. destruct k as [|[|k]]; [..|lia]; cbn [nth]; (split; [reflexivity|split; [reflexivity|]]); intros i j Hi Hj; cbn [A1 A2 m_at m_rows m_cols] in *; apply fin_ofZ; lia.
  - rewrite VS. lra.
  - rewrite ex_axis_cond. change uround with u53. lra.
  - cbn [axis_values axis_cond]. change uround with u53. lra.
  - cbn [axis_values axis_cond]. change uround with u53. lra.
  - rewrite ex_axis_cond. cbn [axis_values axis_cond length]. rewrite P1, P2. lra.
  - destruct (DZ (3 / 16) ex_moderate_o) as (v & E & _ & Ev).
    + rewrite VD. lra.
    + rewrite VD, ex_rate_o. lra.
    + rewrite ex_unit, ex_unit_o. assert (X := bz_exact [A1; A2] (axis_values (Opened (f64_ofZ 1))) (dvalue (f64_ofZ 4)) (/ 2) (/ 2) (usable_regular _ _ ex_usable_o)).
      match type of X with derivable_pt_lim _ _ ?d => replace d with (3 / 16) in X; [exact X|] end. rewrite ex_unit_o, ex_rate_o. unfold box_gval, mat_gval, row_val, A1, A2. cbn [length nth m_rows m_cols m_at bsum trm]. simpl Z.of_nat. repeat match goal with |- context [val (f64_ofZ ?z)] => change (val (f64_ofZ z)) with (dvalue (f64_ofZ z)) end. vz. simpl. field.
    + exists v. split; [reflexivity|]. split; [exact E|]. rewrite ex_axis_cond, VD, ex_rate_o in Ev. cbn [axis_values axis_cond length] in Ev. rewrite P1, P2 in Ev. change uround with u53 in Ev. change (INR 2) with 2 in Ev.
      assert (TS : tiny <= / 32) by (change (/ 32) with (bpow radix2 (-5)); apply bpow_le; discriminate).
      apply Rle_trans with (1 := Ev). apply Rle_trans with ((61 / 2 * u53 + 18 * u53 + 18 * u53 + 12 * u53) * 2 + u53); [|lra]. apply Rplus_le_compat; [apply Rmult_le_compat; lra|lra].
Qed.

(** ** Far out on a half-line the square of the coordinate overflows *)
Lemma far_refuted_pf : exists (a : axis f64) (b : list f64) x v, usable a x /\ all_finite b /\ vec_dsum b = 1 /\
  ps1_derivative_x (mkPS1 b a) x = Ok v /\ dvalue v = 0 /\
  derivable_pt_lim (fun t => poly (dvalues b) (unit_of (axis_values a) t)) (dvalue x) (bpow radix2 (-599)).
Proof.
  set (X := binary_normalize 53 1024 eq_refl eq_refl mode_NE 1 600 false).
  assert (FX : is_finite X = true) by (vm_compute; reflexivity).
  assert (VX : dvalue X = bpow radix2 600).
  { assert (Z : B2SF X = SpecFloat.S754_finite false 4503599627370496 548) by (vm_compute; reflexivity). unfold dvalue. rewrite <- SF2R_B2SF, Z. unfold SF2R, F2R. cbn [cond_Zopp Fnum Fexp].
    change 4503599627370496%Z with (radix2 ^ 52)%Z. rewrite IZR_Zpower by discriminate. rewrite <- bpow_plus. reflexivity. }
  assert (P := bpow_gt_0 radix2 600). exists (Opened X), [f64_ofZ 0; f64_ofZ 1], X.
  assert (UX : usable (Opened X) X) by (unfold usable; cbn [axis_finite axis_values on_axis axis_moderate]; rewrite VX; repeat split; first [exact FX|exact P|lra]).
  destruct (ps1_derivative_x (mkPS1 [f64_ofZ 0; f64_ofZ 1] (Opened X)) X) as [v| | | |] eqn:E; try (vm_compute in E; discriminate).
  exists v. split; [exact UX|split; [|split; [|split; [reflexivity|split]]]].
  - unfold all_finite. repeat constructor; apply fin_ofZ; reflexivity.
  - unfold vec_dsum, dvalues. cbn [length map bsum nth]. vz. rewrite !Rabs_pos_eq by lra. simpl. ring.
  - assert (Z : match ps1_derivative_x (mkPS1 [f64_ofZ 0; f64_ofZ 1] (Opened X)) X with Ok w => B2SF w = SpecFloat.S754_zero false | _ => False end) by (vm_compute; reflexivity).
    rewrite E in Z. unfold dvalue. rewrite <- SF2R_B2SF, Z. reflexivity.
  - assert (D := pvf_deriv_comp 2 (fun i => nth i (dvalues [f64_ofZ 0; f64_ofZ 1]) 0) (unit_of (axis_values (Opened X))) (dvalue X) (unit_rate (axis_values (Opened X)) (dvalue X)) (unit_deriv _ _ (usable_regular _ _ UX))).
    match type of D with derivable_pt_lim _ _ ?d => replace d with (bpow radix2 (-599)) in D; [exact D|] end.
    assert (B : bpow radix2 (-599) = 2 * / bpow radix2 600) by (change (-599)%Z with (1 + - (600))%Z; rewrite bpow_plus, bpow_opp; reflexivity).
    cbn [axis_values unit_rate]. rewrite VX, B. unfold dvf, dvalues. cbn [map bsum nth]. vz. clear B. set (q := bpow radix2 600) in *. clearbody q. change (INR 0) with 0. change (INR 1) with 1. cbn [pow Nat.pred]. field. lra.
Qed.
