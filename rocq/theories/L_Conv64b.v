(** Conversion of Chebyshev series to power series in binary64: the three classes. *)
From Coq Require Import List Arith ZArith Reals Bool Lia Lra Psatz.
From Flocq Require Import Core.Core IEEE754.BinarySingleNaN.
From Verif Require Import Outcome Num NumFun F64 L_F64 L_Linspace64 L_F64Err M_Series S_Series L_Series S_Angles S_Double S_Rot64 L_Series64
  L_Interp64 L_Special64 L_Apx M_Cheb S_Cheb L_Cheb L_Cheb2 L_Cheb3 S_Ser64 L_Ser64 L_E1d S_Der64 L_Der64 S_DCheb64 L_DCheb64 S_Conv64 L_Conv64.
Import ListNotations.
Local Open Scope R_scope.

Lemma mag_tiny x : tiny <= mag x.
Proof. unfold mag. assert (A := Rabs_pos (dvalue x)). lra. Qed.
Lemma mag_abs x : Rabs (val x) <= mag x.
Proof. unfold mag. assert (P : 0 < tiny) by apply bpow_gt_0. change (dvalue x) with (val x). lra. Qed.
Lemma bsum_nonneg n f : (forall i, (i < n)%nat -> 0 <= f i) -> 0 <= bsum n f.
Proof. intros H. apply Rle_trans with (bsum n (fun _ => 0)); [rewrite L_Ser64.bsum_const; lra|now apply bsum_le]. Qed.
Lemma bsum_single' n f i : (i < n)%nat -> (forall j, (j < n)%nat -> 0 <= f j) -> f i <= bsum n f.
Proof.
  induction n as [|n IH]; intros Hi H; [lia|]. simpl. assert (B := bsum_nonneg n f (fun j Hj => H j (Nat.lt_lt_succ_r _ _ Hj))). assert (X := H n (Nat.lt_succ_diag_r n)).
  destruct (Nat.eq_dec i n) as [->|N]; [lra|]. assert (Y := IH ltac:(lia) (fun j Hj => H j (Nat.lt_lt_succ_r _ _ Hj))). lra.
Qed.
Lemma size_nonneg n c i : (forall r, (r <= n)%nat -> 0 <= c r) -> 0 <= power_size n c i.
Proof. intros H. apply bsum_nonneg. intros r Hr. apply Rmult_le_pos; [apply H; lia|apply Rabs_pos]. Qed.
Lemma half_huge_big : / 2 * huge <= / 2 * big.
Proof. apply Rmult_le_compat_l; [lra|]. apply bpow_le. lia. Qed.

(** Error of the value from the errors of the coefficients. *)
Lemma fin_bound v P Q pe e Sb T W : Rabs (v - P) <= pe * (Sb + T) -> Rabs (P - Q) <= e * W -> Sb <= W + e * W -> T <= W -> 0 <= e <= / 10 -> 0 <= pe -> 0 <= W ->
  Rabs (v - Q) <= (3 * pe + e) * W.
Proof.
  intros H1 H2 H3 H4 He Hp HW. replace (v - Q) with ((v - P) + (P - Q)) by ring. apply Rle_trans with (1 := Rabs_triang _ _).
  assert (e * W <= / 10 * W) by (apply Rmult_le_compat_r; lra). assert (pe * (Sb + T) <= pe * (3 * W)) by (apply Rmult_le_compat_l; lra). lra.
Qed.
Lemma poly_diff N (b c : nat -> R) (s : nat -> R) e t : Rabs t <= 1 -> (forall i, (i < N)%nat -> Rabs (b i - c i) <= e * s i) ->
  Rabs (bsum N (fun i => b i * t ^ i) - bsum N (fun i => c i * t ^ i)) <= e * bsum N s.
Proof.
  intros Ht H. replace (bsum N (fun i => b i * t ^ i) - bsum N (fun i => c i * t ^ i)) with (bsum N (fun i => (b i - c i) * t ^ i)).
  - rewrite <- L_Ser64.bsum_scal. apply Rle_trans with (1 := L_Ser64.bsum_abs _ _). apply bsum_le. intros i Hi. rewrite Rabs_mult. assert (P := pow_abs_1 t i Ht).
    apply Rle_trans with (Rabs (b i - c i) * 1); [apply Rmult_le_compat_l; [apply Rabs_pos|exact P]|]. rewrite Rmult_1_r. now apply H.
  - rewrite (bsum_ext N _ (fun i => b i * t ^ i + (-1) * (c i * t ^ i))) by (intros; ring). rewrite L_Ser64.bsum_plus, L_Ser64.bsum_scal. ring.
Qed.
Lemma abs_sum N (b c : nat -> R) (s : nat -> R) e : (forall i, (i < N)%nat -> Rabs (c i) <= s i /\ Rabs (b i - c i) <= e * s i) ->
  bsum N (fun i => Rabs (b i)) <= bsum N s + e * bsum N s.
Proof.
  intros H. rewrite <- L_Ser64.bsum_scal, <- L_Ser64.bsum_plus. apply bsum_le. intros i Hi. destruct (H i Hi) as (A & B).
  replace (b i) with ((b i - c i) + c i) by ring. apply Rle_trans with (1 := Rabs_triang _ _). lra.
Qed.

(** ** One variable *)
Lemma conv1_lemma : forall (TT : NumTr f64) f (ax : axis f64) n (a : nat -> f64), pow_exact TT -> (n <= 18)%nat -> (forall r, (r <= n)%nat -> is_finite (a r) = true) ->
  let sz := power_size n (fun r => mag (a r)) in let W := bsum (n + 1) sz in W <= / 2 * huge ->
  exists b, cs1_compute_bi (mkCS1 f ax n a) = Ok b /\ length b = (n + 1)%nat /\
    (forall i, (i <= n)%nat -> within (32 * uround * sz i) (nth i b (nofZ 0)) (power_coef n (fun r => dvalue (a r)) i)) /\
    (forall x, usable ax x -> let k := axis_cond (axis_values ax) in k * uround <= / 2 -> power_err (n + 1) k <= / 2 ->
     exists v, ps1_evaluate (mkPS1 b ax) x = Ok v /\
       within ((3 * power_err (n + 1) k + 32 * uround) * W) v (bsum (n + 1) (fun r => dvalue (a r) * cheb r (unit_of (axis_values ax) (dvalue x))))).
Proof.
  intros TT f ax n a HP Hn FA sz W HW. assert (U := u_tiny). assert (PT : 0 < tiny) by apply bpow_gt_0. assert (HB := half_huge_big). change uround with u53 in *.
  assert (S0 : forall i, (i < n + 1)%nat -> tiny <= sz i) by (intros i Hi; apply size_tiny; [lia|intros; apply mag_tiny]).
  assert (ST : forall i, (i < n + 1)%nat -> sz i <= W) by (intros i Hi; apply bsum_single'; [exact Hi|intros j Hj; specialize (S0 j Hj); lra]).
  assert (W0 := ST 0%nat ltac:(lia)). assert (W1 := S0 0%nat ltac:(lia)).
  set (bf := fun i => acc_loop_from i n (nofZ 0) (fun r => (a r * transformation_coefficient r i)%num)).
  assert (BF : forall i, (i < n + 1)%nat -> is_finite (bf i) = true /\ Rabs (power_coef n (fun r => dvalue (a r)) i) <= sz i /\ Rabs (val (bf i) - power_coef n (fun r => dvalue (a r)) i) <= 32 * u53 * sz i).
  { intros i Hi. destruct (axis_step TT i n a (fun r => dvalue (a r)) (fun r => mag (a r)) 0 HP ltac:(lia)) as (F & A & D).
    - intros r Hr. split; [now apply FA|]. split; [apply mag_abs|]. split; [rewrite Rminus_diag_eq, Rabs_R0 by reflexivity; lra|apply mag_tiny].
    - lra.
    - specialize (ST i Hi). fold sz. lra.
    - fold (bf i) in F, D. fold sz in A, D. rewrite Rplus_0_l in D. auto. }
  exists (map bf (seq 0 (n + 1))). split; [unfold cs1_compute_bi; cbn [c1_n c1_a]; rewrite (proj2 (Nat.ltb_ge 18 n)) by exact Hn; reflexivity|].
  assert (LB : length (map bf (seq 0 (n + 1))) = (n + 1)%nat) by now rewrite map_length, seq_length.
  assert (NB : forall i, (i < n + 1)%nat -> nth i (map bf (seq 0 (n + 1))) (nofZ 0) = bf i).
  { intros i Hi. rewrite (nth_indep (map bf (seq 0 (n + 1))) (nofZ 0) (bf 0%nat)) by (rewrite LB; exact Hi). rewrite map_nth, seq_nth by exact Hi. reflexivity. }
  split; [exact LB|]. split.
  - intros i Hi. rewrite NB by lia. destruct (BF i ltac:(lia)) as (F & _ & D). split; assumption.
  - intros x Hx k Hk HE. set (b := map bf (seq 0 (n + 1))) in *. destruct (unit_f ax x Hx ltac:(fold k; lra)) as (_ & _ & Tx & K0). fold k in K0.
    assert (VB : forall i, (i < n + 1)%nat -> nth i (dvalues b) 0 = val (bf i)).
    { intros i Hi. unfold dvalues. rewrite (nth_indep (map dvalue b) 0 (dvalue (nofZ 0))) by (rewrite map_length, LB; exact Hi). rewrite map_nth, NB by exact Hi. reflexivity. }
    assert (SB : vec_sum b <= W + 32 * u53 * W).
    { unfold vec_sum. rewrite LB. rewrite (bsum_ext (n + 1) _ (fun i => Rabs (val (bf i)))) by (intros i Hi; now rewrite VB).
      apply (abs_sum (n + 1) (fun i => val (bf i)) (power_coef n (fun r => dvalue (a r)))). intros i Hi. destruct (BF i Hi) as (_ & A & D). auto. }
    assert (UW : 32 * u53 * W <= 1 * W) by (apply Rmult_le_compat_r; lra).
    destruct (ps1_double_lemma ax b x Hx) as (v & EV & FV & D).
    + intros N. rewrite N in LB. cbn in LB. lia.
    + unfold all_finite. apply Forall_forall. intros y Hy. apply in_map_iff in Hy as (i & <- & Hi). apply in_seq in Hi. apply BF. lia.
    + lra.
    + exact Hk.
    + rewrite LB. exact HE.
    + exists v. split; [exact EV|]. split; [exact FV|]. rewrite LB in D. fold k in D.
      eapply fin_bound; [exact D| |exact SB|lra|lra|apply power_err_nonneg; exact K0|lra].
      rewrite <- (power_of n). unfold poly. rewrite <- (map_length dvalue b) in LB. fold (dvalues b) in LB. rewrite LB.
      apply (poly_diff (n + 1) (fun i => nth i (dvalues b) 0) (power_coef n (fun r => dvalue (a r))) sz (32 * u53)); [exact Tx|].
      intros i Hi. rewrite VB by exact Hi. apply BF. exact Hi.
Qed.

(** ** Two and three variables *)
Lemma size_dom n c r : (r <= n)%nat -> (forall s, (s <= n)%nat -> 0 <= c s) -> c r <= power_size n c r.
Proof.
  intros Hr Hc. unfold power_size. apply Rle_trans with (c r * Rabs (IZR (cheb_coef r r))).
  - assert (T := IZR_le _ _ (coef_top r)). rewrite Rabs_pos_eq by lra. specialize (Hc r Hr). apply Rle_trans with (c r * 1); [lra|]. apply Rmult_le_compat_l; lra.
  - apply (bsum_single' (n + 1) (fun r0 => c r0 * Rabs (IZR (cheb_coef r0 r))) r); [lia|]. intros j Hj. apply Rmult_le_pos; [apply Hc; lia|apply Rabs_pos].
Qed.
Lemma power_lin N m (g : nat -> nat -> R) (w : nat -> R) i :
  bsum N (fun j => power_coef m (fun r => g r j) i * w j) = power_coef m (fun r => bsum N (fun j => g r j * w j)) i.
Proof.
  unfold power_coef. rewrite (bsum_ext N (fun j => bsum (m + 1) (fun r => g r j * IZR (cheb_coef r i)) * w j) (fun j => bsum (m + 1) (fun r => g r j * IZR (cheb_coef r i) * w j))) by (intros; now rewrite bsum_scal_r).
  rewrite bsum_swap. apply bsum_ext. intros r _. rewrite <- bsum_scal_r. apply bsum_ext. intros; ring.
Qed.
Lemma power_coef_ext m f g i : (forall r, (r <= m)%nat -> f r = g r) -> power_coef m f i = power_coef m g i.
Proof. intros H. unfold power_coef. apply bsum_ext. intros r Hr. rewrite H by lia. reflexivity. Qed.

Definition b2 (TT : NumTr f64) m n (a : nat -> nat -> f64) i j : f64 :=
  acc_loop_from i m (nofZ 0) (fun r => (acc_loop_from j n (nofZ 0) (fun s => (a r s * transformation_coefficient s j)%num) * transformation_coefficient r i)%num).
Definition s2 m n (a : nat -> nat -> R) i j : R := power_size m (fun r => power_size n (fun s => a r s) j) i.

Lemma s2_tiny m n a i j : (i <= m)%nat -> (j <= n)%nat -> (forall r s, (r <= m)%nat -> (s <= n)%nat -> tiny <= a r s) -> tiny <= s2 m n a i j.
Proof. intros Hi Hj H. apply size_tiny; [exact Hi|]. intros r Hr. apply size_tiny; [exact Hj|]. intros s Hs. now apply H. Qed.

Lemma step2 (TT : NumTr f64) m n (a : nat -> nat -> f64) (C B : nat -> nat -> R) E i j : pow_exact TT -> (i <= m <= 18)%nat -> (j <= n <= 18)%nat ->
  (forall r s, (r <= m)%nat -> (s <= n)%nat -> is_finite (a r s) = true /\ Rabs (C r s) <= B r s /\ Rabs (val (a r s) - C r s) <= E * B r s /\ tiny <= B r s) ->
  0 <= E <= / 20 -> (forall r, (r <= m)%nat -> s2 m n B r j <= / 2 * big) ->
  is_finite (b2 TT m n a i j) = true /\ Rabs (power_coef m (fun r => power_coef n (fun s => C r s) j) i) <= s2 m n B i j /\
  Rabs (val (b2 TT m n a i j) - power_coef m (fun r => power_coef n (fun s => C r s) j) i) <= (E + 64 * u53) * s2 m n B i j.
Proof.
  intros HP Hi Hj H HE HB. assert (U := u_tiny). assert (PT : 0 < tiny) by apply bpow_gt_0.
  assert (T : forall r, (r <= m)%nat -> tiny <= power_size n (fun s => B r s) j) by (intros r Hr; apply size_tiny; [lia|intros s Hs; apply H; assumption]).
  destruct (axis_step TT i m (fun r => acc_loop_from j n (nofZ 0) (fun s => (a r s * transformation_coefficient s j)%num)) (fun r => power_coef n (fun s => C r s) j)
    (fun r => power_size n (fun s => B r s) j) (E + 32 * u53) HP Hi) as (F & A & D).
  - intros r Hr. destruct (axis_step TT j n (fun s => a r s) (fun s => C r s) (fun s => B r s) E HP Hj) as (F & A & D).
    + intros s Hs. now apply H.
    + lra.
    + apply Rle_trans with (s2 m n B r j); [|now apply HB]. unfold s2. apply (size_dom m (fun r => power_size n (fun s => B r s) j) r Hr). intros q Hq. specialize (T q Hq). lra.
    + split; [exact F|]. split; [exact A|]. split; [exact D|]. now apply T.
  - lra.
  - apply HB. lia.
  - split; [exact F|]. split; [exact A|]. replace (E + 64 * u53) with (E + 32 * u53 + 32 * u53) by ring. exact D.
Qed.

Lemma sum2_dom M N f i j : (i < M)%nat -> (j < N)%nat -> (forall i j, (i < M)%nat -> (j < N)%nat -> 0 <= f i j) -> f i j <= bsum M (fun i => bsum N (fun j => f i j)).
Proof.
  intros Hi Hj H. apply Rle_trans with (bsum N (fun j => f i j)).
  - apply (bsum_single' N (fun j => f i j)); [exact Hj|]. intros q Hq. now apply H.
  - apply (bsum_single' M (fun i => bsum N (fun j => f i j))); [exact Hi|]. intros p Hp. apply bsum_nonneg. intros q Hq. now apply H.
Qed.
Lemma sum2_tiny M N f : (0 < N)%nat -> (forall i j, (i < M)%nat -> (j < N)%nat -> tiny <= f i j) -> INR M * tiny <= bsum M (fun i => bsum N (fun j => f i j)).
Proof.
  intros HN H. assert (PT : 0 < tiny) by apply bpow_gt_0. rewrite <- (L_Ser64.bsum_const tiny M). apply bsum_le. intros i Hi.
  apply Rle_trans with (f i 0%nat); [now apply H|]. apply (bsum_single' N (fun j => f i j)); [exact HN|]. intros q Hq. specialize (H i q Hi Hq). lra.
Qed.

Lemma mat_diff M N (f : nat -> nat -> f64) (C : nat -> nat -> R) s e u v : Rabs u <= 1 -> Rabs v <= 1 ->
  (forall i j, (i < M)%nat -> (j < N)%nat -> Rabs (val (f i j) - C i j) <= e * s i j) ->
  Rabs (mat_poly (mkMat M N f) u v - bsum M (fun i => bsum N (fun j => C i j * v ^ j) * u ^ i)) <= e * bsum M (fun i => bsum N (fun j => s i j)).
Proof.
  intros Hu Hv H. unfold mat_poly. cbn [m_rows m_cols m_at].
  apply (poly_diff M (fun i => bsum N (fun j => dvalue (f i j) * v ^ j)) (fun i => bsum N (fun j => C i j * v ^ j)) (fun i => bsum N (fun j => s i j)) e u Hu).
  intros i Hi. apply (poly_diff N (fun j => dvalue (f i j)) (fun j => C i j) (fun j => s i j) e v Hv). intros j Hj. now apply H.
Qed.
Lemma mat_abs M N (f : nat -> nat -> f64) (C : nat -> nat -> R) s e :
  (forall i j, (i < M)%nat -> (j < N)%nat -> Rabs (C i j) <= s i j /\ Rabs (val (f i j) - C i j) <= e * s i j) ->
  mat_sum (mkMat M N f) <= bsum M (fun i => bsum N (fun j => s i j)) + e * bsum M (fun i => bsum N (fun j => s i j)).
Proof.
  intros H. unfold mat_sum. cbn [m_rows m_cols m_at]. rewrite <- L_Ser64.bsum_scal, <- L_Ser64.bsum_plus. apply bsum_le. intros i Hi.
  apply (abs_sum N (fun j => dvalue (f i j)) (fun j => C i j) (fun j => s i j) e). intros j Hj. now apply H.
Qed.
Lemma power2_of m n (c : nat -> nat -> R) u v :
  bsum (m + 1) (fun i => bsum (n + 1) (fun j => power_coef m (fun r => power_coef n (fun s => c r s) j) i * v ^ j) * u ^ i) =
  bsum (m + 1) (fun r => bsum (n + 1) (fun s => c r s * cheb s v) * cheb r u).
Proof.
  rewrite <- (power_of m (fun r => bsum (n + 1) (fun s => c r s * cheb s v)) u). apply bsum_ext. intros i _. f_equal.
  rewrite (power_lin (n + 1) m (fun r j => power_coef n (fun s => c r s) j) (fun j => v ^ j) i). apply power_coef_ext. intros r _. apply power_of.
Qed.

Lemma conv2_lemma : forall (TT : NumTr f64) bm f (ax ay : axis f64) m n (a : nat -> nat -> f64), pow_exact TT -> (m <= 18)%nat -> (n <= 18)%nat ->
  (forall r s, (r <= m)%nat -> (s <= n)%nat -> is_finite (a r s) = true) ->
  let sz := fun i j => power_size m (fun r => power_size n (fun s => mag (a r s)) j) i in
  let W := bsum (m + 1) (fun i => bsum (n + 1) (fun j => sz i j)) in W <= / 2 * huge ->
  exists A, cs2_compute_bij (mkCS2 f ax ay m n a) = Ok A /\ m_rows A = (m + 1)%nat /\ m_cols A = (n + 1)%nat /\
    (forall i j, (i <= m)%nat -> (j <= n)%nat -> within (64 * uround * sz i j) (m_at A i j) (power_coef m (fun r => power_coef n (fun s => dvalue (a r s)) j) i)) /\
    (forall x y, usable ax x -> usable ay y -> let kx := axis_cond (axis_values ax) in let ky := axis_cond (axis_values ay) in kx * uround <= / 2 -> ky * uround <= / 2 ->
     let err := power_err (m + 1) kx + power_err (n + 1) ky in err <= / 2 ->
     exists v, ps2_evaluate bm (mkPS2 A ax ay) x y = Ok v /\
       within ((3 * err + 64 * uround) * W) v
         (bsum (m + 1) (fun r => bsum (n + 1) (fun s => dvalue (a r s) * cheb s (unit_of (axis_values ay) (dvalue y))) * cheb r (unit_of (axis_values ax) (dvalue x))))).
Proof.
  intros TT bm f ax ay m n a HP Hm Hn FA sz W HW. assert (U := u_tiny). assert (PT : 0 < tiny) by apply bpow_gt_0. assert (HB := half_huge_big). change uround with u53 in *.
  assert (S0 : forall i j, (i < m + 1)%nat -> (j < n + 1)%nat -> tiny <= sz i j) by (intros i j Hi Hj; apply (s2_tiny m n (fun r s => mag (a r s))); [lia|lia|intros; apply mag_tiny]).
  assert (ST : forall i j, (i < m + 1)%nat -> (j < n + 1)%nat -> sz i j <= W) by (intros i j Hi Hj; apply sum2_dom; [exact Hi|exact Hj|intros p q Hp Hq; specialize (S0 p q Hp Hq); lra]).
  assert (W0 := ST 0%nat 0%nat ltac:(lia) ltac:(lia)). assert (W1 := S0 0%nat 0%nat ltac:(lia) ltac:(lia)).
  set (C := fun i j => power_coef m (fun r => power_coef n (fun s => dvalue (a r s)) j) i).
  assert (BF : forall i j, (i < m + 1)%nat -> (j < n + 1)%nat -> is_finite (b2 TT m n a i j) = true /\ Rabs (C i j) <= sz i j /\ Rabs (val (b2 TT m n a i j) - C i j) <= 64 * u53 * sz i j).
  { intros i j Hi Hj. destruct (step2 TT m n a (fun r s => dvalue (a r s)) (fun r s => mag (a r s)) 0 i j HP ltac:(lia) ltac:(lia)) as (F & A & D).
    - intros r s Hr Hs. split; [now apply FA|]. split; [apply mag_abs|]. split; [rewrite Rminus_diag_eq, Rabs_R0 by reflexivity; lra|apply mag_tiny].
    - lra.
    - intros r Hr. specialize (ST r j ltac:(lia) Hj). change (s2 m n (fun r s => mag (a r s)) r j) with (sz r j). lra.
    - rewrite Rplus_0_l in D. auto. }
  exists (mkMat (m + 1) (n + 1) (b2 TT m n a)). split.
  { unfold cs2_compute_bij. cbn [c2_m c2_n c2_a]. rewrite (proj2 (Nat.ltb_ge 18 m)), (proj2 (Nat.ltb_ge 18 n)) by assumption. reflexivity. }
  split; [reflexivity|]. split; [reflexivity|]. split.
  - intros i j Hi Hj. destruct (BF i j ltac:(lia) ltac:(lia)) as (F & _ & D). split; assumption.
  - intros x y Hx Hy kx ky Hkx Hky err HE. destruct (unit_f ax x Hx ltac:(fold kx; lra)) as (_ & _ & Tx & K0). destruct (unit_f ay y Hy ltac:(fold ky; lra)) as (_ & _ & Ty & K1).
    fold kx in K0. fold ky in K1. assert (PX := power_err_nonneg (m + 1) kx K0). assert (PY := power_err_nonneg (n + 1) ky K1).
    assert (SB := mat_abs (m + 1) (n + 1) (b2 TT m n a) C sz (64 * u53) (fun i j Hi Hj => proj2 (BF i j Hi Hj))). fold W in SB.
    assert (UW : 64 * u53 * W <= 1 * W) by (apply Rmult_le_compat_r; lra).
    destruct (ps2_double_lemma bm ax ay (mkMat (m + 1) (n + 1) (b2 TT m n a)) x y Hx Hy) as (v & EV & FV & D).
    + cbn. lia.
    + cbn. lia.
    + intros i j Hi Hj. apply BF; assumption.
    + lra.
    + exact Hkx.
    + exact Hky.
    + exact HE.
    + exists v. split; [exact EV|]. split; [exact FV|]. cbn [m_rows m_cols] in D. fold kx ky err in D.
      eapply fin_bound; [exact D| |exact SB|apply sum2_tiny; [lia|exact S0]|lra|unfold err; lra|lra].
      rewrite <- (power2_of m n). apply mat_diff; [exact Tx|exact Ty|]. intros i j Hi Hj. apply BF; assumption.
Qed.

(** ** Three variables *)
Lemma conv3_lemma : forall (TT : NumTr f64) bm f (ax ay az : axis f64) m n p (a : nat -> nat -> nat -> f64), pow_exact TT -> (m <= 18)%nat -> (n <= 18)%nat -> (p <= 18)%nat ->
  (forall t r s, (t <= p)%nat -> (r <= m)%nat -> (s <= n)%nat -> is_finite (a t r s) = true) ->
  let sz := fun k i j => power_size m (fun r => power_size n (fun s => power_size p (fun t => mag (a t r s)) k) j) i in
  let W := bsum (p + 1) (fun k => bsum (m + 1) (fun i => bsum (n + 1) (fun j => sz k i j))) in W <= / 2 * huge ->
  exists B, cs3_compute_bijk (mkCS3 f ax ay az m n p a) = Ok B /\ length B = (p + 1)%nat /\
    (forall k, (k <= p)%nat -> let A := nth k B no_mat in m_rows A = (m + 1)%nat /\ m_cols A = (n + 1)%nat /\ forall i j, (i <= m)%nat -> (j <= n)%nat ->
      within (96 * uround * sz k i j) (m_at A i j) (power_coef m (fun r => power_coef n (fun s => power_coef p (fun t => dvalue (a t r s)) k) j) i)) /\
    exists ser, ps3_make B ax ay az = Ok ser /\
    (forall x y z, usable ax x -> usable ay y -> usable az z ->
     let kx := axis_cond (axis_values ax) in let ky := axis_cond (axis_values ay) in let kz := axis_cond (axis_values az) in
     kx * uround <= / 2 -> ky * uround <= / 2 -> kz * uround <= / 2 ->
     let err := power_err (m + 1) kx + power_err (n + 1) ky + power_err (p + 1) kz in err <= / 2 ->
     exists v, ps3_evaluate bm ser x y z = Ok v /\
       within ((3 * err + 96 * uround) * W) v
         (bsum (p + 1) (fun t => bsum (m + 1) (fun r => bsum (n + 1) (fun s => dvalue (a t r s) * cheb s (unit_of (axis_values ay) (dvalue y))) *
            cheb r (unit_of (axis_values ax) (dvalue x))) * cheb t (unit_of (axis_values az) (dvalue z))))).
Proof.
  intros TT bm f ax ay az m n p a HP Hm Hn Hp FA sz W HW. assert (U := u_tiny). assert (PT : 0 < tiny) by apply bpow_gt_0. assert (HB := half_huge_big). change uround with u53 in *.
  set (in_s := fun k r s => power_size p (fun t => mag (a t r s)) k).
  set (in_c := fun k r s => power_coef p (fun t => dvalue (a t r s)) k).
  set (in_v := fun k r s => acc_loop_from k p (nofZ 0) (fun t => (a t r s * transformation_coefficient t k)%num)).
  assert (IT : forall k r s, (k < p + 1)%nat -> tiny <= in_s k r s) by (intros k r s Hk; apply size_tiny; [lia|intros; apply mag_tiny]).
  assert (S0 : forall k i j, (k < p + 1)%nat -> (i < m + 1)%nat -> (j < n + 1)%nat -> tiny <= sz k i j) by (intros k i j Hk Hi Hj; apply (s2_tiny m n (in_s k)); [lia|lia|intros; apply IT; exact Hk]).
  assert (SK : forall k, (k < p + 1)%nat -> bsum (m + 1) (fun i => bsum (n + 1) (fun j => sz k i j)) <= W).
  { intros k Hk. apply (bsum_single' (p + 1) (fun k => bsum (m + 1) (fun i => bsum (n + 1) (fun j => sz k i j)))); [exact Hk|]. intros q Hq. apply bsum_nonneg. intros i Hi. apply bsum_nonneg. intros j Hj.
    specialize (S0 q i j Hq Hi Hj). lra. }
  assert (ST : forall k i j, (k < p + 1)%nat -> (i < m + 1)%nat -> (j < n + 1)%nat -> sz k i j <= W).
  { intros k i j Hk Hi Hj. apply Rle_trans with (2 := SK k Hk). apply (sum2_dom (m + 1) (n + 1) (sz k)); [exact Hi|exact Hj|]. intros q r Hq Hr. specialize (S0 k q r Hk Hq Hr). lra. }
  assert (W0 := ST 0%nat 0%nat 0%nat ltac:(lia) ltac:(lia) ltac:(lia)). assert (W1 := S0 0%nat 0%nat 0%nat ltac:(lia) ltac:(lia) ltac:(lia)).
  assert (IN : forall k r s, (k < p + 1)%nat -> (r <= m)%nat -> (s <= n)%nat -> in_s k r s <= W).
  { intros k r s Hk Hr Hs. apply Rle_trans with (2 := ST k r s Hk ltac:(lia) ltac:(lia)). unfold sz.
    apply Rle_trans with (power_size n (fun s => in_s k r s) s).
    - apply (size_dom n (fun s => in_s k r s) s Hs). intros q _. specialize (IT k r q Hk). lra.
    - apply (size_dom m (fun r => power_size n (fun s0 => in_s k r s0) s) r Hr). intros q _. apply size_nonneg. intros q' _. specialize (IT k q q' Hk). lra. }
  set (C := fun k i j => power_coef m (fun r => power_coef n (fun s => in_c k r s) j) i).
  assert (BF : forall k i j, (k < p + 1)%nat -> (i < m + 1)%nat -> (j < n + 1)%nat ->
     is_finite (b2 TT m n (in_v k) i j) = true /\ Rabs (C k i j) <= sz k i j /\ Rabs (val (b2 TT m n (in_v k) i j) - C k i j) <= 96 * u53 * sz k i j).
  { intros k i j Hk Hi Hj. destruct (step2 TT m n (in_v k) (in_c k) (in_s k) (32 * u53) i j HP ltac:(lia) ltac:(lia)) as (F & A & D).
    - intros r s Hr Hs. destruct (axis_step TT k p (fun t => a t r s) (fun t => dvalue (a t r s)) (fun t => mag (a t r s)) 0 HP ltac:(lia)) as (F & A & D).
      + intros t Ht. split; [now apply FA|]. split; [apply mag_abs|]. split; [rewrite Rminus_diag_eq, Rabs_R0 by reflexivity; lra|apply mag_tiny].
      + lra.
      + specialize (IN k r s Hk Hr Hs). unfold in_s in IN. lra.
      + rewrite Rplus_0_l in D. split; [exact F|]. split; [exact A|]. split; [exact D|]. now apply IT.
    - lra.
    - intros r Hr. specialize (ST k r j Hk ltac:(lia) Hj). change (s2 m n (in_s k) r j) with (sz k r j). lra.
    - replace (32 * u53 + 64 * u53) with (96 * u53) in D by ring. auto. }
  set (B := map (fun k => mkMat (m + 1) (n + 1) (b2 TT m n (in_v k))) (seq 0 (p + 1))).
  assert (LB : length B = (p + 1)%nat) by (unfold B; now rewrite map_length, seq_length).
  assert (NB : forall k, (k < p + 1)%nat -> nth k B no_mat = mkMat (m + 1) (n + 1) (b2 TT m n (in_v k))).
  { intros k Hk. unfold B. rewrite (nth_indep _ no_mat (mkMat (m + 1) (n + 1) (b2 TT m n (in_v 0%nat)))) by (fold B; rewrite LB; exact Hk).
    rewrite (map_nth (fun k => mkMat (m + 1) (n + 1) (b2 TT m n (in_v k)))), seq_nth by exact Hk. reflexivity. }
  assert (BX : box_ok (m + 1) (n + 1) B).
  { intros k Hk. rewrite LB in Hk. rewrite NB by exact Hk. split; [reflexivity|]. split; [reflexivity|]. intros i j Hi Hj. apply BF; assumption. }
  assert (BN : B <> []) by (intros N; rewrite N in LB; cbn in LB; lia).
  exists B. split.
  { unfold cs3_compute_bijk. cbn [c3_m c3_n c3_p c3_a]. rewrite (proj2 (Nat.ltb_ge 18 m)), (proj2 (Nat.ltb_ge 18 n)), (proj2 (Nat.ltb_ge 18 p)) by assumption. reflexivity. }
  split; [exact LB|]. split.
  { intros k Hk A. unfold A. rewrite NB by lia. split; [reflexivity|]. split; [reflexivity|]. intros i j Hi Hj. destruct (BF k i j ltac:(lia) ltac:(lia) ltac:(lia)) as (F & _ & D). split; assumption. }
  assert (MK : ps3_make B ax ay az = Ok (mkPS3 B (m + 1) (n + 1) ax ay az)).
  { unfold ps3_make. destruct B as [|b B'] eqn:EB; [congruence|]. assert (N0 := NB 0%nat ltac:(lia)). cbn [nth] in N0. rewrite N0. reflexivity. }
  exists (mkPS3 B (m + 1) (n + 1) ax ay az). split; [exact MK|].
  intros x y z Hx Hy Hz kx ky kz Hkx Hky Hkz err HE.
  destruct (unit_f ax x Hx ltac:(fold kx; lra)) as (_ & _ & Tx & K0). destruct (unit_f ay y Hy ltac:(fold ky; lra)) as (_ & _ & Ty & K1). destruct (unit_f az z Hz ltac:(fold kz; lra)) as (_ & _ & Tz & K2).
  fold kx in K0. fold ky in K1. fold kz in K2. assert (PX := power_err_nonneg (m + 1) kx K0). assert (PY := power_err_nonneg (n + 1) ky K1). assert (PZ := power_err_nonneg (p + 1) kz K2).
  assert (SB : box_sum B <= W + 96 * u53 * W).
  { unfold box_sum. rewrite LB. unfold W. rewrite <- L_Ser64.bsum_scal, <- L_Ser64.bsum_plus. apply bsum_le. intros k Hk. rewrite NB by exact Hk.
    apply (mat_abs (m + 1) (n + 1) (b2 TT m n (in_v k)) (C k) (sz k)). intros i j Hi Hj. exact (proj2 (BF k i j Hk Hi Hj)). }
  assert (UW : 96 * u53 * W <= 1 * W) by (apply Rmult_le_compat_r; lra).
  destruct (ps3_double_lemma bm ax ay az B (m + 1) (n + 1) _ x y z Hx Hy Hz ltac:(lia) ltac:(lia) BN BX ltac:(lra) MK Hkx Hky Hkz) as (v & EV & FV & D).
  - rewrite LB. exact HE.
  - exists v. split; [exact EV|]. split; [exact FV|]. rewrite LB in D. fold kx ky kz err in D.
    eapply fin_bound; [exact D| |exact SB| |lra|unfold err; lra|lra].
    + set (u := unit_of (axis_values ax) (dvalue x)) in *. set (w := unit_of (axis_values ay) (dvalue y)) in *. set (q := unit_of (axis_values az) (dvalue z)) in *.
      rewrite <- (power_of p (fun t => bsum (m + 1) (fun r => bsum (n + 1) (fun s => dvalue (a t r s) * cheb s w) * cheb r u)) q).
      unfold box_poly. rewrite LB. unfold W.
      apply (poly_diff (p + 1) (fun k => mat_poly (nth k B no_mat) u w) (power_coef p (fun t => bsum (m + 1) (fun r => bsum (n + 1) (fun s => dvalue (a t r s) * cheb s w) * cheb r u)))
        (fun k => bsum (m + 1) (fun i => bsum (n + 1) (fun j => sz k i j))) (96 * u53) q Tz).
      intros k Hk. rewrite NB by exact Hk.
      assert (EQ : power_coef p (fun t => bsum (m + 1) (fun r => bsum (n + 1) (fun s => dvalue (a t r s) * cheb s w) * cheb r u)) k =
        bsum (m + 1) (fun i => bsum (n + 1) (fun j => C k i j * w ^ j) * u ^ i)).
      { unfold C. rewrite (power2_of m n (in_c k) u w). rewrite <- (power_lin (m + 1) p (fun t r => bsum (n + 1) (fun s => dvalue (a t r s) * cheb s w)) (fun r => cheb r u) k).
        apply bsum_ext. intros r _. f_equal. unfold in_c. rewrite (power_lin (n + 1) p (fun t s => dvalue (a t r s)) (fun s => cheb s w) k). reflexivity. }
      rewrite EQ. apply mat_diff; [exact Tx|exact Ty|]. intros i j Hi Hj. apply BF; assumption.
    + rewrite Rmult_assoc. rewrite <- (L_Ser64.bsum_const (INR (m + 1) * tiny) (p + 1)). apply bsum_le. intros k Hk. apply sum2_tiny; [lia|]. intros i j Hi Hj. now apply S0.
Qed.

(** ** The library used in the examples *)
Lemma ofR_val (v : f64) : is_finite v = true -> is_finite (ofR (val v)) = true /\ val (ofR (val v)) = val v.
Proof.
  intros F. unfold ofR. cbv zeta. assert (G : generic_format radix2 (FLT_exp (-1074) 53) (val v)) by apply generic_format_B2R.
  change (round radix2 (FLT_exp (-1074) 53) ZnearestE (val v)) with (rnd64 (val v)). rewrite (rnd64_id (val v) G).
  assert (N := binary_normalize_correct 53 1024 eq_refl eq_refl mode_NE (Ztrunc (scaled_mantissa radix2 (FLT_exp (-1074) 53) (val v))) (cexp radix2 (FLT_exp (-1074) 53) (val v)) false).
  cbv zeta in N. assert (E : F2R (Float radix2 (Ztrunc (scaled_mantissa radix2 (FLT_exp (-1074) 53) (val v))) (cexp radix2 (FLT_exp (-1074) 53) (val v))) = val v) by (symmetry; exact G).
  rewrite E in N. change (round radix2 (SpecFloat.fexp 53 1024) (round_mode mode_NE) (val v)) with (rnd64 (val v)) in N. rewrite (rnd64_id (val v) G) in N.
  rewrite Rlt_bool_true in N by apply abs_B2R_lt_emax. destruct N as (N1 & N2 & _). split; assumption.
Qed.
Lemma exact_pow_ok : pow_exact exact_pow.
Proof.
  intros b k v Hb Lb Lk FV EV. cbn [npow exact_pow].
  destruct (ofZ_ok b Lb) as (_ & B2). destruct (ofZ_ok k Lk) as (_ & K2). change (dvalue (f64_ofZ k)) with (val (f64_ofZ k)). change (dvalue (f64_ofZ b)) with (val (f64_ofZ b)).
  rewrite B2, K2, Zfloor_IZR. destruct (Req_EM_T _ _) as [_|N]; [|congruence]. rewrite <- EV. destruct (ofR_val v FV) as (F & E). change (dvalue v) with (val v).
  assert (NZ : val v <> 0) by (change (val v) with (dvalue v); rewrite EV; apply powerRZ_NOR; apply IZR_neq; exact Hb).
  apply B2R_inj; [apply is_finite_strict_B2R; rewrite E; exact NZ|apply is_finite_strict_B2R; exact NZ|exact E].
Qed.

(** ** Exactness of the integer table; examples *)
Lemma coefficients_pf : forall (TT : NumTr f64) n k, pow_exact TT -> (k <= n <= 18)%nat ->
  is_finite (transformation_coefficient n k) = true /\ dvalue (transformation_coefficient n k) = IZR (cheb_coef n k).
Proof. intros TT n k HP H. exact (tc_exact TT n k HP H). Qed.
Lemma cheb_coef_pf : forall n x, cheb n x = bsum (n + 1) (fun k => IZR (cheb_coef n k) * x ^ k).
Proof. intros n x. apply cheb_powers. lia. Qed.

Ltac vm := unfold mag; cbn [Nat.add bsum cheb_coef Nat.mul Z.mul Z.sub Z.add Z.opp Pos.mul Pos.add Pos.pred_double Z.pos_sub Z.of_nat Pos.of_succ_nat Pos.succ];
  vz; repeat match goal with |- context [Rabs (IZR (Zneg ?z))] => rewrite (Rabs_left1 (IZR (Zneg z))) by lra | |- context [Rabs (IZR ?z)] => rewrite (Rabs_pos_eq (IZR z)) by lra end.

Lemma ex_conv1 : exists b v, cs1_compute_bi (TT := exact_pow) (mkCS1 (fun x => x) (Closed (f64_ofZ 1) (f64_ofZ 5)) 2 (fun r => f64_ofZ (Z.of_nat r + 1))) = Ok b /\
  Rabs (dvalue (nth 0 b (nofZ 0)) - -2) <= / 1000000000000 /\ Rabs (dvalue (nth 1 b (nofZ 0)) - 2) <= / 1000000000000 /\ Rabs (dvalue (nth 2 b (nofZ 0)) - 6) <= / 1000000000000 /\
  ps1_evaluate (mkPS1 b (Closed (f64_ofZ 1) (f64_ofZ 5))) (f64_ofZ 4) = Ok v /\ Rabs (dvalue v - / 2) <= / 100000000000.
Proof.
  assert (U := u_tiny). assert (H := one_huge). assert (T := tiny_small). assert (PT : 0 < tiny) by apply bpow_gt_0.
  set (a := fun r => f64_ofZ (Z.of_nat r + 1)).
  assert (W : bsum (2 + 1) (power_size 2 (fun r => mag (a r))) = 12 + 5 * tiny) by (unfold power_size, a; vm; ring).
  assert (P : power_err (2 + 1) (41 / 4) = 61 * u53) by (unfold power_err; change uround with u53; simpl; field).
  destruct (conv1_lemma exact_pow (fun x => x) (Closed (f64_ofZ 1) (f64_ofZ 5)) 2 a exact_pow_ok ltac:(lia)) as (b & E & _ & D & V).
  - intros r Hr. apply fin_ofZ. lia.
  - rewrite W. lra.
  - cbv zeta in V. destruct (V (f64_ofZ 4) ex_usable) as (v & EV & FV & DV).
    + rewrite ex_axis_cond. change uround with u53. lra.
    + rewrite ex_axis_cond, P. lra.
    + exists b, v. split; [exact E|]. rewrite ex_axis_cond, P, W, ex_unit in DV. change uround with u53 in *.
      assert (D0 := proj2 (D 0%nat ltac:(lia))). assert (D1 := proj2 (D 1%nat ltac:(lia))). assert (D2 := proj2 (D 2%nat ltac:(lia))). clear D V.
      assert (UT : 0 <= u53 * tiny <= u53) by (split; [apply Rmult_le_pos; lra|apply Rle_trans with (u53 * 1); [apply Rmult_le_compat_l; lra|lra]]).
      split; [|split; [|split; [|split; [exact EV|]]]].
      * replace (-2) with (power_coef 2 (fun r => dvalue (a r)) 0) by (clear -a; unfold power_coef, a; vm; ring). apply Rle_trans with (1 := D0).
        replace (power_size 2 (fun r => mag (a r)) 0) with (4 + 2 * tiny) by (clear -a; unfold power_size, a; vm; ring). lra.
      * replace 2 with (power_coef 2 (fun r => dvalue (a r)) 1) by (clear -a; unfold power_coef, a; vm; ring). apply Rle_trans with (1 := D1).
        replace (power_size 2 (fun r => mag (a r)) 1) with (2 + tiny) by (clear -a; unfold power_size, a; vm; ring). lra.
      * replace 6 with (power_coef 2 (fun r => dvalue (a r)) 2) by (clear -a; unfold power_coef, a; vm; ring). apply Rle_trans with (1 := D2).
        replace (power_size 2 (fun r => mag (a r)) 2) with (6 + 2 * tiny) by (clear -a; unfold power_size, a; vm; ring). lra.
      * replace (/ 2) with (bsum (2 + 1) (fun r => dvalue (a r) * cheb r (/ 2))) by (clear -a; unfold a; vm; cbn [cheb]; field). apply Rle_trans with (1 := DV). lra.
Qed.

Lemma ex_conv2 : exists A v, cs2_compute_bij (TT := exact_pow) (mkCS2 (fun x y => x) (Closed (f64_ofZ 1) (f64_ofZ 5)) (Opened (f64_ofZ 1)) 2 1 (fun r s => f64_ofZ (Z.of_nat (1 + r + 2 * s)))) = Ok A /\
  Rabs (dvalue (m_at A 2 1) - 10) <= / 1000000000000 /\
  ps2_evaluate Release (mkPS2 A (Closed (f64_ofZ 1) (f64_ofZ 5)) (Opened (f64_ofZ 1))) (f64_ofZ 4) (f64_ofZ 4) = Ok v /\ Rabs (dvalue v - 7 / 4) <= / 10000000000.
Proof.
  assert (U := u_tiny). assert (H := one_huge). assert (T := tiny_small). assert (PT : 0 < tiny) by apply bpow_gt_0.
  set (a := fun r s => f64_ofZ (Z.of_nat (1 + r + 2 * s))).
  assert (W : bsum (2 + 1) (fun i => bsum (1 + 1) (fun j => power_size 2 (fun r => power_size 1 (fun s => mag (a r s)) j) i)) = 34 + 10 * tiny) by (unfold power_size, a; vm; ring).
  assert (P : power_err (2 + 1) (41 / 4) = 61 * u53) by (unfold power_err; change uround with u53; simpl; field).
  assert (P' : power_err (1 + 1) 4 = 18 * u53) by (unfold power_err; change uround with u53; simpl; field).
  destruct (conv2_lemma exact_pow Release (fun x y => x) (Closed (f64_ofZ 1) (f64_ofZ 5)) (Opened (f64_ofZ 1)) 2 1 a exact_pow_ok ltac:(lia) ltac:(lia)) as (A & E & _ & _ & D & V).
  - intros r s Hr Hs. apply fin_ofZ. lia.
  - rewrite W. lra.
  - cbv zeta in V. destruct (V (f64_ofZ 4) (f64_ofZ 4) ex_usable ex_usable_o) as (v & EV & FV & DV).
    + rewrite ex_axis_cond. change uround with u53. lra.
    + rewrite ex_axis_cond_o. change uround with u53. lra.
    + rewrite ex_axis_cond, ex_axis_cond_o, P, P'. lra.
    + exists A, v. split; [exact E|]. rewrite ex_axis_cond, ex_axis_cond_o, P, P', W, ex_unit, ex_unit_o in DV. change uround with u53 in *.
      assert (D0 := proj2 (D 2%nat 1%nat ltac:(lia) ltac:(lia))). clear D V.
      assert (UT : 0 <= u53 * tiny <= u53) by (split; [apply Rmult_le_pos; lra|apply Rle_trans with (u53 * 1); [apply Rmult_le_compat_l; lra|lra]]).
      split; [|split; [exact EV|]].
      * replace 10 with (power_coef 2 (fun r => power_coef 1 (fun s => dvalue (a r s)) 1) 2) by (clear -a; unfold power_coef, a; vm; ring). apply Rle_trans with (1 := D0).
        replace (power_size 2 (fun r => power_size 1 (fun s => mag (a r s)) 1) 2) with (10 + 2 * tiny) by (clear -a; unfold power_size, a; vm; ring). lra.
      * replace (7 / 4) with (bsum (2 + 1) (fun r => bsum (1 + 1) (fun s => dvalue (a r s) * cheb s (/ 2)) * cheb r (/ 2))) by (clear -a; unfold a; vm; cbn [cheb]; field). apply Rle_trans with (1 := DV). lra.
Qed.

Lemma ex_conv3 : exists B s v, cs3_compute_bijk (TT := exact_pow) (mkCS3 (fun x y z => x) (Closed (f64_ofZ 1) (f64_ofZ 5)) (Opened (f64_ofZ 1)) (Opened (f64_ofZ 1)) 2 1 1
    (fun t r s => f64_ofZ (Z.of_nat (1 + r + 2 * s + 4 * t)))) = Ok B /\
  ps3_make B (Closed (f64_ofZ 1) (f64_ofZ 5)) (Opened (f64_ofZ 1)) (Opened (f64_ofZ 1)) = Ok s /\
  ps3_evaluate Release s (f64_ofZ 4) (f64_ofZ 4) (f64_ofZ 4) = Ok v /\ Rabs (dvalue v - 45 / 8) <= / 1000000000.
Proof.
  assert (U := u_tiny). assert (H := one_huge). assert (T := tiny_small). assert (PT : 0 < tiny) by apply bpow_gt_0.
  set (a := fun t r s => f64_ofZ (Z.of_nat (1 + r + 2 * s + 4 * t))).
  assert (W : bsum (1 + 1) (fun k => bsum (2 + 1) (fun i => bsum (1 + 1) (fun j => power_size 2 (fun r => power_size 1 (fun s => power_size 1 (fun t => mag (a t r s)) k) j) i))) = 108 + 20 * tiny)
    by (unfold power_size, a; vm; ring).
  assert (P : power_err (2 + 1) (41 / 4) = 61 * u53) by (unfold power_err; change uround with u53; simpl; field).
  assert (P' : power_err (1 + 1) 4 = 18 * u53) by (unfold power_err; change uround with u53; simpl; field).
  destruct (conv3_lemma exact_pow Release (fun x y z => x) (Closed (f64_ofZ 1) (f64_ofZ 5)) (Opened (f64_ofZ 1)) (Opened (f64_ofZ 1)) 2 1 1 a exact_pow_ok ltac:(lia) ltac:(lia) ltac:(lia)) as (B & E & _ & _ & s & MK & V).
  - intros t r s Ht Hr Hs. apply fin_ofZ. lia.
  - rewrite W. lra.
  - cbv zeta in V. destruct (V (f64_ofZ 4) (f64_ofZ 4) (f64_ofZ 4) ex_usable ex_usable_o ex_usable_o) as (v & EV & FV & DV).
    + rewrite ex_axis_cond. change uround with u53. lra.
    + rewrite ex_axis_cond_o. change uround with u53. lra.
    + rewrite ex_axis_cond_o. change uround with u53. lra.
    + rewrite ex_axis_cond, ex_axis_cond_o, P, P'. lra.
    + exists B, s, v. split; [exact E|]. split; [exact MK|]. split; [exact EV|]. rewrite ex_axis_cond, ex_axis_cond_o, P, P', W, ex_unit, ex_unit_o in DV. change uround with u53 in *. clear V.
      assert (UT : 0 <= u53 * tiny <= u53) by (split; [apply Rmult_le_pos; lra|apply Rle_trans with (u53 * 1); [apply Rmult_le_compat_l; lra|lra]]).
      replace (45 / 8) with (bsum (1 + 1) (fun t => bsum (2 + 1) (fun r => bsum (1 + 1) (fun s => dvalue (a t r s) * cheb s (/ 2)) * cheb r (/ 2)) * cheb t (/ 2))) by (clear -a; unfold a; vm; cbn [cheb]; field). apply Rle_trans with (1 := DV). lra.
Qed.
