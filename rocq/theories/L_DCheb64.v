(** Derivatives of Chebyshev series in binary64. *)
From Coq Require Import List Arith ZArith Reals Bool Lia Lra Psatz.
From Flocq Require Import Core.Core IEEE754.BinarySingleNaN.
From Verif Require Import Outcome Num NumFun F64 L_F64 L_Linspace64 L_F64Err M_Series S_Series L_Series S_Angles S_Double L_Series64
  L_Interp64 L_Special64 L_Apx M_Cheb S_Cheb L_Cheb L_Cheb3 S_Ser64 L_Ser64 L_E1d S_Der64 L_Der64 S_DCheb64.
Import ListNotations.
Local Open Scope R_scope.

(** ** The three-term recurrence *)
Lemma sq_mono a b c : 0 <= a <= b -> 0 <= c -> a * a * c <= b * b * c.
Proof. intros H C. apply Rmult_le_compat_r; [exact C|]. apply Rmult_le_compat; lra. Qed.

(** [P] follows the recurrence at [t] and is bounded by [w]; [K u53] is the
    error of one step relative to [w]. *)
Lemma rec_near (P w : nat -> R) x t kap N : is_finite x = true -> Rabs t <= 1 -> Rabs (val x - t) <= kap * u53 -> 0 <= kap -> kap * u53 <= / 2 ->
  (forall j, P (S (S j)) = 2 * t * P (S j) - P j) -> (forall j, Rabs (P j) <= w j) -> (forall j, 1 <= w j <= w (S j)) -> (forall j, w j <= INR j + 1) ->
  let K := (3 * kap + 12) * u53 in INR N * INR N * K <= / 2 -> INR N + 1 <= bpow radix2 53 ->
  forall k j al (t0 t1 : f64), (S j + k <= N)%nat -> is_finite t0 = true -> is_finite t1 = true ->
  val t1 - P (S j) = usum al (S j) t -> val t0 - P j = usum (fun i => al (S i)) j t -> (forall i, (i < S j)%nat -> Rabs (al i) <= K * w (S j)) ->
  let r := chebyshev_loop k x t0 t1 in
  is_finite r = true /\ Rabs (val r - P (S j + k)%nat) <= INR N * INR N * K * w (S j + k)%nat.
Proof.
  intros Fx Ht Hx Hk Hku HP HPw Hw HwN K HN H53. assert (U := u_tiny). assert (PE := eta64_pos).
  assert (K0 : 0 < K) by (apply Rmult_lt_0_compat; lra).
  assert (UE : forall al m, (m <= N)%nat -> (forall i, (i < m)%nat -> Rabs (al i) <= K * w m) -> Rabs (usum al m t) <= INR N * INR N * K * w m).
  { intros al m Hm Hal. apply Rle_trans with (1 := usum_abs al m t Ht). assert (M0 := pos_INR m). assert (MN : INR m <= INR N) by (apply le_INR, Hm).
    apply Rle_trans with (INR m * (INR m * (K * w m))).
    - apply Rmult_le_compat_l; [exact M0|]. rewrite <- bsum_const. apply bsum_le. exact Hal.
    - rewrite <- Rmult_assoc, !(Rmult_assoc (INR N * INR N)). apply sq_mono; [lra|]. destruct (Hw m). apply Rmult_le_pos; lra. }
  assert (xb : Rabs (val x) <= 3 / 2) by (replace (val x) with ((val x - t) + t) by ring; apply Rle_trans with (1 := Rabs_triang _ _); lra).
  assert (B2 : 2 <= big) by (change 2 with (bpow radix2 1); apply bpow_le; discriminate).
  destruct (double_exact x Fx ltac:(lra)) as ((F2 & V2) & _).
  assert (E9 : eta64 <= / 1000 * u53). { assert (X := eta_900). assert (bpow radix2 (-900) <= 1) by (change 1 with (bpow radix2 0); apply bpow_le; discriminate). apply Rle_trans with (1 := X). rewrite <- (Rmult_1_r (/ 1000 * u53)) at 2. apply Rmult_le_compat_l; lra. }
  assert (B53 : bpow radix2 53 <= / 100 * big). { assert (X : bpow radix2 (53 + 7) <= big) by (apply bpow_le; discriminate). rewrite bpow_plus in X. change (bpow radix2 7) with 128 in X. assert (0 < bpow radix2 53) by apply bpow_gt_0. lra. }
  induction k as [|k IH]; intros j al t0 t1 Hj F0 F1 E1 E0 Hal r.
  - unfold r. cbn [chebyshev_loop]. split; [exact F1|]. rewrite Nat.add_0_r, E1. apply UE; [lia|exact Hal].
  - unfold r. cbn [chebyshev_loop]. clear r. set (t2 := chebyshev_next x t1 t0).
    assert (W1 := Hw (S j)). assert (W0 := Hw j). assert (WN := HwN (S j)).
    assert (JN : INR (S j) <= INR N) by (apply le_INR; lia).
    assert (WB : w (S j) <= / 100 * big) by lra.
    assert (A1 := UE al (S j) ltac:(lia) Hal). assert (A0 := UE (fun i => al (S i)) j ltac:(lia)).
    assert (NW : INR N * INR N * K * w (S j) <= / 2 * w (S j)) by (apply Rmult_le_compat_r; lra).
    assert (b1 : Rabs (val t1) <= 3 / 2 * w (S j)). { replace (val t1) with ((val t1 - P (S j)) + P (S j)) by ring. apply Rle_trans with (1 := Rabs_triang _ _). rewrite E1. assert (X := HPw (S j)). lra. }
    assert (b0 : Rabs (val t0) <= 3 / 2 * w (S j)).
    { replace (val t0) with ((val t0 - P j) + P j) by ring. apply Rle_trans with (1 := Rabs_triang _ _). rewrite E0. assert (X := HPw j).
      assert (Y : Rabs (usum (fun i => al (S i)) j t) <= INR N * INR N * K * w (S j)).
      { apply Rle_trans with (1 := usum_abs _ j t Ht). assert (M0 := pos_INR j). assert (MN : INR j <= INR N) by (apply le_INR; lia).
        apply Rle_trans with (INR j * (INR j * (K * w (S j)))).
        - apply Rmult_le_compat_l; [exact M0|]. rewrite <- bsum_const. apply bsum_le. intros i Hi. apply Hal. lia.
        - rewrite <- Rmult_assoc, !(Rmult_assoc (INR N * INR N)). apply sq_mono; [lra|]. apply Rmult_le_pos; lra. }
      lra. }
    assert (PM : Rabs (2 * val x * val t1) <= 9 / 2 * w (S j)). { rewrite Rabs_mult. apply Rle_trans with (3 * (3 / 2 * w (S j))); [|lra]. apply Rmult_le_compat; try apply Rabs_pos; [|exact b1]. rewrite Rabs_mult, (Rabs_pos_eq 2) by lra. lra. }
    destruct (mult_ok ((nofZ 2 : f64) *! x) t1 F2 F1) as (FM & _); [rewrite V2; apply big_over; lra|].
    assert (EM := mult_err _ _ FM). rewrite V2 in EM. set (mm := ((nofZ 2 : f64) *! x) *! t1) in *.
    assert (UM : u53 * Rabs (2 * val x * val t1) <= u53 * (9 / 2 * w (S j))) by (apply Rmult_le_compat_l; lra).
    assert (uw : 0 < u53 * w (S j)) by (apply Rmult_lt_0_compat; lra).
    assert (UW1 : u53 <= u53 * w (S j)) by (rewrite <- (Rmult_1_r u53) at 1; apply Rmult_le_compat_l; lra).
    assert (UW2 : u53 * w (S j) <= / 1000 * w (S j)) by (apply Rmult_le_compat_r; lra).
    assert (SM : Rabs (val mm - val t0) <= 61 / 10 * w (S j)).
    { replace (val mm - val t0) with ((val mm - 2 * val x * val t1) + (2 * val x * val t1 + - val t0)) by ring. apply Rle_trans with (1 := Rabs_triang _ _). assert (X := Rabs_triang (2 * val x * val t1) (- val t0)). rewrite Rabs_Ropp in X. lra. }
    destruct (minus_ok mm t0 FM F0) as (FS & _); [apply big_over; lra|]. assert (ES := minus_err _ _ FS). change (mm -! t0) with t2 in FS, ES.
    assert (US : u53 * Rabs (val mm - val t0) <= u53 * (61 / 10 * w (S j))) by (apply Rmult_le_compat_l; lra).
    set (q := val t2 - (2 * t * val t1 - val t0)).
    assert (XT : Rabs (2 * (val x - t) * val t1) <= 3 * (kap * (u53 * w (S j)))).
    { rewrite Rabs_mult. apply Rle_trans with (2 * (kap * u53) * (3 / 2 * w (S j))); [|lra]. apply Rmult_le_compat; try apply Rabs_pos; [|exact b1]. rewrite Rabs_mult, (Rabs_pos_eq 2) by lra. lra. }
    assert (Q : Rabs q <= K * w (S j)).
    { unfold q. replace (val t2 - (2 * t * val t1 - val t0)) with ((val t2 - (val mm - val t0)) + ((val mm - 2 * val x * val t1) + 2 * (val x - t) * val t1)) by ring.
      apply Rle_trans with (1 := Rabs_triang _ _). assert (X := Rabs_triang (val mm - 2 * val x * val t1) (2 * (val x - t) * val t1)). unfold K. lra. }
    assert (KW : K * w (S j) <= K * w (S (S j))) by (apply Rmult_le_compat_l; lra).
    replace (S j + S k)%nat with (S (S j) + k)%nat by lia. apply (IH (S j) (ncons q al) t1 t2).
    + lia.
    + exact F1.
    + exact FS.
    + rewrite usum_step. replace (S j - 1)%nat with j by lia. rewrite <- E1, <- E0, HP. unfold q. ring.
    + exact E1.
    + intros i Hi. destruct i as [|i]; cbn [ncons]; [lra|]. apply Rle_trans with (2 := KW). apply Hal. lia.
Qed.

(** ** The polynomials *)
Definition rerr (n : nat) (kap : R) : R := INR n * INR n * ((3 * kap + 12) * u53).
Lemma rerr_cheb n kap : 0 <= kap -> 0 <= rerr n kap <= 3 / 4 * cheb_err n kap.
Proof.
  intros Hk. unfold rerr, cheb_err. change uround with u53. assert (U := u_tiny). assert (N0 := pos_INR n). assert (P : 0 <= (3 * kap + 12) * u53) by (apply Rmult_le_pos; lra).
  rewrite plus_INR. change (INR 1) with 1. split; [apply Rmult_le_pos; [apply Rmult_le_pos; lra|exact P]|].
  assert (X : 0 <= INR n * u53 * kap) by (repeat apply Rmult_le_pos; lra). assert (Y : 0 <= INR n * u53) by (apply Rmult_le_pos; lra). assert (Z : 0 <= INR n * (INR n * u53)) by (apply Rmult_le_pos; lra).
  lra.
Qed.
Lemma rerr_mono m n kap : 0 <= kap -> (m <= n)%nat -> rerr m kap <= rerr n kap.
Proof. intros Hk H. unfold rerr. assert (U := u_tiny). apply sq_mono; [split; [apply pos_INR|apply le_INR, H]|]. apply Rmult_le_pos; lra. Qed.
Lemma rerr_terms n kap : 0 <= kap -> rerr n kap <= / 2 -> INR n + 1 <= bpow radix2 53.
Proof.
  intros Hk H. assert (U := u_tiny). assert (N0 := pos_INR n). destruct n as [|n]; [change (INR 0) with 0; assert (X := one_b53); lra|].
  apply (few_terms (INR (S n))); [|exact N0|ring]. apply Rle_trans with (2 := H). unfold rerr. set (m := S n) in *. assert (M1 : 1 <= INR m) by (change 1 with (INR 1); apply le_INR; unfold m; lia).
  assert (UM : 0 <= INR m * u53) by (apply Rmult_le_pos; lra).
  replace (INR m * INR m * ((3 * kap + 12) * u53)) with (INR m * u53 * (INR m * (3 * kap + 12))) by ring. replace (10 * INR m * u53) with (INR m * u53 * 10) by ring.
  apply Rmult_le_compat_l; [exact UM|]. apply Rle_trans with (1 * 12); [lra|]. apply Rmult_le_compat; lra.
Qed.

Section Poly.
Context (x : f64) (t kap : R) (Fx : is_finite x = true) (Ht : Rabs t <= 1) (Hx : Rabs (val x - t) <= kap * u53) (Hk : 0 <= kap) (Hku : kap * u53 <= / 2).

Lemma t_near n : rerr n kap <= / 2 -> is_finite (chebyshev_t n x) = true /\ Rabs (val (chebyshev_t n x) - cheb n t) <= rerr n kap.
Proof.
  intros HN. assert (U := u_tiny). destruct one_ok as (F1 & V1). destruct n as [|n].
  - cbn [chebyshev_t cheb]. split; [exact F1|]. rewrite V1, Rminus_diag_eq, Rabs_R0 by reflexivity. apply (rerr_cheb 0 kap Hk).
  - cbn [chebyshev_t]. destruct (rec_near (fun j => cheb j t) (fun _ => 1) x t kap (S n) Fx Ht Hx Hk Hku (fun j => eq_refl) (fun j => cheb_abs j t Ht) (fun _ => conj (Rle_refl 1) (Rle_refl 1))
      ltac:(intros j; assert (J := pos_INR j); lra) HN (rerr_terms (S n) kap Hk HN) n 0%nat (fun _ => val x - t) (nofZ 1) x ltac:(lia) F1 Fx) as (F & E).
    + unfold usum. cbn. ring.
    + unfold usum. cbn [bsum cheb]. rewrite V1. ring.
    + intros i _. apply Rle_trans with (1 := Hx). rewrite Rmult_1_r. apply Rmult_le_compat_r; lra.
    + split; [exact F|]. rewrite Rmult_1_r in E. exact E.
Qed.
Lemma u_near n : rerr n kap <= / 2 -> is_finite (chebyshev_u n x) = true /\ Rabs (val (chebyshev_u n x) - chebu n t) <= rerr n kap * INR (S n).
Proof.
  intros HN. assert (U := u_tiny). destruct one_ok as (F1 & V1). assert (B2 : 2 <= big) by (change 2 with (bpow radix2 1); apply bpow_le; discriminate).
  assert (xb : Rabs (val x) <= 3 / 2) by (replace (val x) with ((val x - t) + t) by ring; apply Rle_trans with (1 := Rabs_triang _ _); lra).
  destruct (double_exact x Fx ltac:(lra)) as ((F2 & V2) & _). destruct n as [|n].
  - cbn [chebyshev_u chebu]. split; [exact F1|]. rewrite V1, Rminus_diag_eq, Rabs_R0 by reflexivity. apply Rmult_le_pos; [apply (rerr_cheb 0 kap Hk)|apply pos_INR].
  - cbn [chebyshev_u]. destruct (rec_near (fun j => chebu j t) (fun j => INR (S j)) x t kap (S n) Fx Ht Hx Hk Hku (fun j => eq_refl) (fun j => chebu_abs j t Ht)
      ltac:(intros j; cbv beta; assert (J := pos_INR j); rewrite !S_INR; lra) ltac:(intros j; cbv beta; rewrite S_INR; lra) HN (rerr_terms (S n) kap Hk HN) n 0%nat (fun _ => 2 * (val x - t)) (nofZ 1) ((nofZ 2 : f64) *! x) ltac:(lia) F1 F2) as (F & E).
    + rewrite V2. unfold usum. cbn. ring.
    + unfold usum. cbn [bsum chebu]. rewrite V1. ring.
    + intros i _. rewrite Rabs_mult, (Rabs_pos_eq 2) by lra. replace (INR 2) with 2 by (simpl; lra). assert (0 <= kap * u53) by (apply Rmult_le_pos; lra). lra.
    + split; [exact F|]. exact E.
Qed.
Lemma dcheb_abs n : Rabs (dcheb n t) <= INR n * INR n.
Proof.
  destruct n as [|n]; [cbn [dcheb]; rewrite Rabs_R0; change (INR 0) with 0; lra|]. cbn [dcheb]. rewrite Rabs_mult, (Rabs_pos_eq (INR (S n))) by apply pos_INR.
  apply Rmult_le_compat_l; [apply pos_INR|]. apply chebu_abs, Ht.
Qed.
Lemma tp_near n : rerr n kap <= / 2 -> is_finite (chebyshev_t_prime n x) = true /\ Rabs (val (chebyshev_t_prime n x) - dcheb n t) <= rerr n kap * (INR n * INR n).
Proof.
  intros HN. assert (U := u_tiny). assert (N53 := rerr_terms n kap Hk HN). destruct n as [|n].
  - cbn [chebyshev_t_prime dcheb]. split; [vm_compute; reflexivity|]. change (INR 0) with 0. replace (val (nofZ 0 : f64)) with 0 by (symmetry; exact (proj2 (ofZ_ok 0 eq_refl))). rewrite Rminus_diag_eq, Rabs_R0 by reflexivity. lra.
  - assert (RM := rerr_mono n (S n) kap Hk ltac:(lia)). destruct (u_near n ltac:(lra)) as (Fu & Eu). assert (Bu := chebu_abs n t Ht).
    destruct (nat_double (S n) ltac:(lra)) as (Fn & Vn). cbn [chebyshev_t_prime dcheb]. set (m := S n) in *. set (uh := chebyshev_u n x) in *.
    assert (M1 : 1 <= INR m) by (change 1 with (INR 1); apply le_INR; unfold m; lia).
    assert (HU : Rabs (val uh) <= 3 / 2 * INR m). { replace (val uh) with ((val uh - chebu n t) + chebu n t) by ring. apply Rle_trans with (1 := Rabs_triang _ _). assert (rerr n kap * INR m <= / 2 * INR m) by (apply Rmult_le_compat_r; lra). lra. }
    assert (HP : Rabs (INR m * val uh) <= 3 / 2 * (INR m * INR m)). { rewrite Rabs_mult, (Rabs_pos_eq (INR m)) by lra. assert (INR m * Rabs (val uh) <= INR m * (3 / 2 * INR m)) by (apply Rmult_le_compat_l; lra). lra. }
    assert (MB : INR m * INR m <= big). { assert (INR m * INR m <= bpow radix2 53 * bpow radix2 53) by (apply Rmult_le_compat; lra). rewrite <- bpow_plus in H. apply Rle_trans with (1 := H). apply bpow_le. discriminate. }
    assert (MM : 1 <= INR m * INR m) by (replace 1 with (1 * 1) by ring; apply Rmult_le_compat; lra).
    destruct (mult_ok (nofZ (Z.of_nat m)) uh Fn Fu) as (F & _); [rewrite Vn; apply big_over; lra|]. split; [exact F|]. assert (E := mult_err _ _ F). rewrite Vn in E.
    assert (E9 : eta64 <= / 1000 * u53). { assert (X := eta_900). assert (bpow radix2 (-900) <= 1) by (change 1 with (bpow radix2 0); apply bpow_le; discriminate). apply Rle_trans with (1 := X). rewrite <- (Rmult_1_r (/ 1000 * u53)) at 2. apply Rmult_le_compat_l; lra. }
    assert (UP : u53 * Rabs (INR m * val uh) <= u53 * (3 / 2 * (INR m * INR m))) by (apply Rmult_le_compat_l; lra).
    assert (UM : u53 <= u53 * (INR m * INR m)) by (rewrite <- (Rmult_1_r u53) at 1; apply Rmult_le_compat_l; lra).
    assert (X : Rabs (INR m * (val uh - chebu n t)) <= rerr n kap * (INR m * INR m)). { rewrite Rabs_mult, (Rabs_pos_eq (INR m)) by lra. assert (INR m * Rabs (val uh - chebu n t) <= INR m * (rerr n kap * INR m)) by (apply Rmult_le_compat_l; lra). lra. }
    assert (RD : rerr n kap + 2 * u53 <= rerr m kap).
    { unfold rerr, m. rewrite S_INR. assert (N0 := pos_INR n). assert (0 <= kap * u53) by (apply Rmult_le_pos; lra). assert (0 <= INR n * (kap * u53)) by (apply Rmult_le_pos; lra). assert (0 <= INR n * u53) by (apply Rmult_le_pos; lra). lra. }
    assert (RD2 : (rerr n kap + 2 * u53) * (INR m * INR m) <= rerr m kap * (INR m * INR m)) by (apply Rmult_le_compat_r; lra).
    change (val (nofZ (Z.of_nat m) * uh)%num) with (val ((nofZ (Z.of_nat m) : f64) *! uh)). replace (val ((nofZ (Z.of_nat m) : f64) *! uh) - INR m * chebu n t) with ((val ((nofZ (Z.of_nat m) : f64) *! uh) - INR m * val uh) + INR m * (val uh - chebu n t)) by ring.
    apply Rle_trans with (1 := Rabs_triang _ _). lra.
Qed.
End Poly.

(** ** Products and sums *)
Lemma prod_near (p f : f64) Pv Fv B W ep e : is_finite p = true -> is_finite f = true -> Rabs Pv <= B -> Rabs Fv <= W -> Rabs (val p - Pv) <= ep * B -> Rabs (val f - Fv) <= e * W ->
  0 <= ep <= / 4 -> 0 <= e <= / 4 -> B * W = 0 \/ tiny <= B * W -> B * W <= big ->
  is_finite (p *! f) = true /\ Rabs (Pv * Fv) <= B * W /\ Rabs (val (p *! f) - Pv * Fv) <= (ep + e + ep * e + 2 * u53) * (B * W).
Proof.
  intros Fp Ff HP HF EP EF Hep He HZ HB. assert (U := u_tiny). assert (PE := eta64_pos). assert (B0 : 0 <= B) by (eapply Rle_trans; [apply Rabs_pos|exact HP]). assert (W0 : 0 <= W) by (eapply Rle_trans; [apply Rabs_pos|exact HF]).
  assert (BW : 0 <= B * W) by (apply Rmult_le_pos; lra).
  assert (PB : Rabs (val p) <= (1 + ep) * B) by (replace (val p) with ((val p - Pv) + Pv) by ring; apply Rle_trans with (1 := Rabs_triang _ _); lra).
  assert (FB : Rabs (val f) <= (1 + e) * W) by (replace (val f) with ((val f - Fv) + Fv) by ring; apply Rle_trans with (1 := Rabs_triang _ _); lra).
  assert (E0 : 0 <= ep * e <= / 16) by (split; [apply Rmult_le_pos; lra|replace (/ 16) with (/ 4 * / 4) by field; apply Rmult_le_compat; lra]).
  assert (Q : Rabs (val p * val f) <= (1 + ep + e + ep * e) * (B * W)). { rewrite Rabs_mult. apply Rle_trans with ((1 + ep) * B * ((1 + e) * W)); [apply Rmult_le_compat; try apply Rabs_pos; assumption|]. apply Req_le. ring. }
  assert (Q2 : Rabs (val p * val f) <= 158 / 100 * (B * W)). { apply Rle_trans with (1 := Q). apply Rmult_le_compat_r; lra. }
  destruct (mult_ok p f Fp Ff) as (F & V); [apply big_over; lra|]. split; [exact F|].
  split; [rewrite Rabs_mult; apply Rmult_le_compat; try apply Rabs_pos; assumption|].
  assert (D : Rabs (val p * val f - Pv * Fv) <= (ep + e + ep * e) * (B * W)).
  { replace (val p * val f - Pv * Fv) with (val p * (val f - Fv) + (val p - Pv) * Fv) by ring. apply Rle_trans with (1 := Rabs_triang _ _).
    assert (Rabs (val p * (val f - Fv)) <= (1 + ep) * B * (e * W)) by (rewrite Rabs_mult; apply Rmult_le_compat; try apply Rabs_pos; assumption).
    assert (Rabs ((val p - Pv) * Fv) <= ep * B * W) by (rewrite Rabs_mult; apply Rmult_le_compat; try apply Rabs_pos; assumption). lra. }
  replace (val (p *! f) - Pv * Fv) with ((val (p *! f) - val p * val f) + (val p * val f - Pv * Fv)) by ring. apply Rle_trans with (1 := Rabs_triang _ _).
  assert (R : Rabs (val (p *! f) - val p * val f) <= 2 * u53 * (B * W)); [|lra].
  destruct HZ as [HZ|HZ].
  - rewrite HZ in *. assert (Z : val p * val f = 0) by (destruct (Req_dec (val p * val f) 0) as [z|z]; [exact z|apply Rabs_pos_lt in z; lra]).
    rewrite V, Z, rnd64_id by apply generic_format_0. rewrite Rminus_diag_eq, Rabs_R0 by reflexivity. lra.
  - assert (E := mult_err p f F). assert (E9 := eta_900). fold tiny in E9. assert (u53 * Rabs (val p * val f) <= u53 * (158 / 100 * (B * W))) by (apply Rmult_le_compat_l; lra).
    assert (/ 1000 * u53 * tiny <= / 1000 * u53 * (B * W)) by (apply Rmult_le_compat_l; lra). assert (0 <= u53 * (B * W)) by (apply Rmult_le_pos; lra). lra.
Qed.

Definition ls {A} (f : A -> R) (l : list A) : R := fold_right (fun a s => f a + s) 0 l.
Lemma ls_abs {A} (f : A -> R) l : Rabs (ls f l) <= ls (fun a => Rabs (f a)) l.
Proof. induction l as [|a l IH]; cbn [ls fold_right]; [rewrite Rabs_R0; lra|]. apply Rle_trans with (1 := Rabs_triang _ _). apply Rplus_le_compat_l, IH. Qed.
Lemma ls_le {A} (f g : A -> R) l : (forall a, In a l -> f a <= g a) -> ls f l <= ls g l.
Proof. induction l as [|a l IH]; intros H; cbn [ls fold_right]; [lra|]. apply Rplus_le_compat; [apply H; left; reflexivity|]. apply IH. intros b Hb. apply H. right. exact Hb. Qed.
Lemma ls_scal {A} k (f : A -> R) l : ls (fun a => k * f a) l = k * ls f l.
Proof. induction l as [|a l IH]; cbn [ls fold_right]; [ring|]. fold (ls (fun a => k * f a) l) (ls f l). rewrite IH. ring. Qed.
Lemma ls_minus {A} (f g : A -> R) l : ls (fun a => f a - g a) l = ls f l - ls g l.
Proof. induction l as [|a l IH]; cbn [ls fold_right]; [ring|]. fold (ls (fun a => f a - g a) l) (ls f l) (ls g l). rewrite IH. ring. Qed.
Lemma ls_nonneg {A} (f : A -> R) l : (forall a, 0 <= f a) -> 0 <= ls f l.
Proof. intros H. induction l as [|a l IH]; cbn [ls fold_right]; [lra|]. fold (ls f l). assert (X := H a). lra. Qed.
Lemma ls_app {A} (f : A -> R) l l' : ls f (l ++ l') = ls f l + ls f l'.
Proof. induction l as [|a l IH]; cbn [ls fold_right app]; [fold (ls f l'); ring|]. fold (ls f (l ++ l')) (ls f l). rewrite IH. ring. Qed.
Lemma ls_map {A B} (f : B -> R) (h : A -> B) l : ls f (map h l) = ls (fun a => f (h a)) l.
Proof. induction l as [|a l IH]; cbn [ls fold_right map]; [reflexivity|]. fold (ls f (map h l)) (ls (fun a => f (h a)) l). rewrite IH. reflexivity. Qed.
Lemma ls_flat {A B} (f : B -> R) (h : A -> list B) l : ls f (flat_map h l) = ls (fun a => ls f (h a)) l.
Proof. induction l as [|a l IH]; cbn [flat_map]; [reflexivity|]. rewrite ls_app, IH. reflexivity. Qed.
Lemma ls_seq f n : ls f (seq 0 n) = bsum n f.
Proof. induction n as [|n IH]; [reflexivity|]. rewrite seq_S, ls_app, IH. cbn. ring. Qed.

Lemma sum_fold {A} (g : A -> f64) (l : list A) : (forall a, In a l -> is_finite (g a) = true) -> forall (acc : f64) s c M, is_finite acc = true -> Rabs (val acc - s) <= c * u53 * M -> 0 <= c ->
  Rabs s + ls (fun a => Rabs (val (g a))) l <= M -> M <= big -> (c + 11 / 10 * INR (length l)) * u53 <= / 10 ->
  let r := fold_left (fun acc a => acc +! g a) l acc in
  is_finite r = true /\ Rabs (val r - (s + ls (fun a => val (g a)) l)) <= (c + 11 / 10 * INR (length l)) * u53 * M.
Proof.
  assert (U := u_tiny). induction l as [|a l IH]; intros Fg acc s c M Fa Ea Hc HM HB HC r.
  - unfold r. cbn [fold_left ls fold_right length INR]. split; [exact Fa|]. rewrite Rplus_0_r, Rmult_0_r, Rplus_0_r. exact Ea.
  - unfold r. clear r. cbn [fold_left]. cbn [ls fold_right] in HM |- *. fold (ls (fun a => Rabs (val (g a))) l) in HM. fold (ls (fun a => val (g a)) l). cbn [length] in HC |- *. rewrite S_INR in HC |- *.
    assert (L0 := pos_INR (length l)). assert (S0 := ls_nonneg (fun a => Rabs (val (g a))) l (fun a => Rabs_pos _)). assert (As := Rabs_pos s). assert (Ag := Rabs_pos (val (g a))).
    assert (Fga := Fg a (or_introl eq_refl)).
    assert (CU : 0 <= c * u53 <= / 10). { split; [apply Rmult_le_pos; lra|]. apply Rle_trans with (2 := HC). apply Rmult_le_compat_r; lra. }
    assert (M0 : 0 <= M) by lra. assert (CM : c * u53 * M <= / 10 * M) by (apply Rmult_le_compat_r; lra).
    assert (SB : Rabs (val acc + val (g a)) <= 11 / 10 * M).
    { replace (val acc + val (g a)) with ((val acc - s) + (s + val (g a))) by ring. apply Rle_trans with (1 := Rabs_triang _ _). assert (X := Rabs_triang s (val (g a))). lra. }
    destruct (plus_ok acc (g a) Fa Fga) as (Fs & _); [apply big_over; lra|]. assert (Es := plus_err acc (g a) Fs).
    assert (UB : u53 * Rabs (val acc + val (g a)) <= u53 * (11 / 10 * M)) by (apply Rmult_le_compat_l; lra).
    destruct (IH (fun b Hb => Fg b (or_intror Hb)) (acc +! g a) (s + val (g a)) (c + 11 / 10) M) as (F & E).
    + exact Fs.
    + replace (val (acc +! g a) - (s + val (g a))) with ((val (acc +! g a) - (val acc + val (g a))) + (val acc - s)) by ring. apply Rle_trans with (1 := Rabs_triang _ _). lra.
    + lra.
    + assert (X := Rabs_triang s (val (g a))). lra.
    + exact HB.
    + replace (c + 11 / 10 + 11 / 10 * INR (length l)) with (c + 11 / 10 * (INR (length l) + 1)) by ring. exact HC.
    + split; [exact F|]. rewrite <- Rplus_assoc. replace (c + 11 / 10 * (INR (length l) + 1)) with (c + 11 / 10 + 11 / 10 * INR (length l)) by ring. exact E.
Qed.

(** Terms known to a relative error [E]. *)
Lemma sum_near {A} (g : A -> f64) (G B : A -> R) (l : list A) E : (forall a, In a l -> is_finite (g a) = true /\ Rabs (G a) <= B a /\ Rabs (val (g a) - G a) <= E * B a) ->
  0 <= E <= 3 / 10 -> ls B l <= / 2 * big -> INR (length l) * u53 <= / 20 ->
  let r := fold_left (fun acc a => acc +! g a) l (nofZ 0) in
  is_finite r = true /\ Rabs (ls G l) <= ls B l /\ Rabs (val r - ls G l) <= (E + 3 / 2 * INR (length l) * u53) * ls B l.
Proof.
  intros H HE HB HL r. assert (U := u_tiny). assert (L0 := pos_INR (length l)).
  assert (Z : is_finite (nofZ 0 : f64) = true /\ val (nofZ 0 : f64) = 0) by exact (ofZ_ok 0 eq_refl). destruct Z as (FZ & VZ).
  assert (GB : Rabs (ls G l) <= ls B l) by (apply Rle_trans with (1 := ls_abs _ _); apply ls_le; intros a Ha; apply (H a Ha)).
  assert (DB : Rabs (ls (fun a => val (g a)) l - ls G l) <= E * ls B l).
  { rewrite <- ls_minus, <- ls_scal. apply Rle_trans with (1 := ls_abs _ _). apply ls_le. intros a Ha. apply (H a Ha). }
  assert (AB : ls (fun a => Rabs (val (g a))) l <= 13 / 10 * ls B l).
  { rewrite <- ls_scal. apply ls_le. intros a Ha. destruct (H a Ha) as (_ & X & Y). replace (val (g a)) with ((val (g a) - G a) + G a) by ring. apply Rle_trans with (1 := Rabs_triang _ _).
    assert (B0 : 0 <= B a) by (eapply Rle_trans; [apply Rabs_pos|exact X]). assert (E * B a <= 3 / 10 * B a) by (apply Rmult_le_compat_r; lra). lra. }
  assert (B0 : 0 <= ls B l) by (eapply Rle_trans; [apply Rabs_pos|exact GB]).
  destruct (sum_fold g l (fun a Ha => proj1 (H a Ha)) (nofZ 0) 0 0 (13 / 10 * ls B l) FZ) as (F & R).
  - rewrite VZ, Rminus_0_r, Rabs_R0. lra.
  - lra.
  - rewrite Rabs_R0. lra.
  - lra.
  - lra.
  - fold r in F, R. split; [exact F|]. split; [exact GB|]. rewrite Rplus_0_l in R.
    replace (val r - ls G l) with ((val r - (0 + ls (fun a => val (g a)) l)) + (ls (fun a => val (g a)) l - ls G l)) by ring. apply Rle_trans with (1 := Rabs_triang _ _). rewrite Rplus_0_l.
    assert (0 <= INR (length l) * (u53 * ls B l)) by (apply Rmult_le_pos; [lra|apply Rmult_le_pos; lra]). lra.
Qed.

(** ** The last step *)
Lemma finish_r (a : axis f64) (x h : f64) H err S r D : usable a x -> rate_moderate (axis_values a) (val x) -> let c := unit_rate (axis_values a) (val x) in
  is_finite h = true -> 0 <= S -> c * S <= huge -> 0 <= r <= bpow radix2 400 -> Rabs H <= S + r * tiny -> 0 <= err <= 6 / 10 -> Rabs (val h - H) <= err * (S + r * tiny) -> D = c * H ->
  close_to_rate (h * coef_deriv a x)%num D err c (S + r * tiny).
Proof.
  intros Hu Hm c Fh S0 HS Hr HH Her Eh ->. destruct (rate_f a x Hu Hm) as (Fc & Bc & Ec). fold c in Bc, Ec. assert (P := tiny_pos). assert (R0 : 0 <= r * tiny) by (apply Rmult_le_pos; lra).
  set (cd := coef_deriv a x) in *. assert (U := u_tiny). assert (Room := rate_room c S r Bc S0 HS Hr).
  assert (W : is_finite (h *! cd) = true /\ val (h *! cd) = val (cd *! h)).
  { assert (HB1 : Rabs (val h) <= 16 / 10 * (S + r * tiny)). { replace (val h) with ((val h - H) + H) by ring. apply Rle_trans with (1 := Rabs_triang _ _). assert (err * (S + r * tiny) <= 6 / 10 * (S + r * tiny)) by (apply Rmult_le_compat_r; lra). lra. }
    assert (CB1 : Rabs (val cd) <= 101 / 100 * c). { replace (val cd) with ((val cd - c) + c) by ring. apply Rle_trans with (1 := Rabs_triang _ _). rewrite (Rabs_pos_eq c) by lra. assert (u53 * c <= / 1000 * c) by (apply Rmult_le_compat_r; lra). lra. }
    assert (PB : Rabs (val cd * val h) <= 8 * big). { rewrite Rabs_mult. apply Rle_trans with (101 / 100 * c * (16 / 10 * (S + r * tiny))); [apply Rmult_le_compat; try apply Rabs_pos; lra|]. assert (0 < big) by apply bpow_gt_0. lra. }
    destruct (mult_ok cd h Fc Fh (big_over _ PB)) as (_ & V1). rewrite Rmult_comm in PB. destruct (mult_ok h cd Fh Fc (big_over _ PB)) as (F2 & V2). split; [exact F2|]. rewrite V1, V2, Rmult_comm. reflexivity. }
  destruct (final_f cd h c H err (S + r * tiny) Fc (proj1 Bc) Ec Fh ltac:(lra) HH Her Eh Room) as (F & E).
  split; [exact (proj1 W)|]. change (dvalue (h * cd)%num) with (val (h *! cd)). rewrite (proj2 W). change uround with u53. apply Rle_trans with (1 := E). apply Rplus_le_compat_r. apply Rmult_le_compat_r; [|lra].
  apply Rmult_le_pos; lra.
Qed.

(** ** Exact derivatives *)
Lemma cheb_comp i a x : regular a x -> derivable_pt_lim (fun t => cheb i (unit_of a t)) x (dcheb i (unit_of a x) * unit_rate a x).
Proof. intros H. apply (derivable_pt_lim_comp (unit_of a) (cheb i)); [apply unit_deriv, H|apply cheb_deriv]. Qed.
Lemma sum_comp n (cf : nat -> R) a x : regular a x ->
  derivable_pt_lim (fun t => bsum n (fun i => cf i * cheb i (unit_of a t))) x (unit_rate a x * bsum n (fun i => dcheb i (unit_of a x) * cf i)).
Proof.
  intros H. rewrite <- L_Series.bsum_scal. apply (bsum_deriv n (fun i t => cf i * cheb i (unit_of a t))). intros i _.
  replace (unit_rate a x * (dcheb i (unit_of a x) * cf i)) with (cf i * (dcheb i (unit_of a x) * unit_rate a x)) by ring. apply deriv_scal, cheb_comp, H.
Qed.
Lemma deriv_unique f g x D D' : (forall t, f t = g t) -> derivable_pt_lim f x D -> derivable_pt_lim g x D' -> D = D'.
Proof. intros E H H'. apply (uniqueness_limite g x); [|exact H']. intros eps He. destruct (H eps He) as (d & Hd). exists d. intros h H0 Hh. rewrite <- !E. exact (Hd h H0 Hh). Qed.

(** ** One index *)
Lemma terms_err_nonneg n : 0 <= terms_err n.
Proof. unfold terms_err. change uround with u53. assert (U := u_tiny). repeat apply Rmult_le_pos; try lra. apply pos_INR. Qed.
Lemma sq_cases i : INR i * INR i = 0 \/ 1 <= INR i * INR i.
Proof. destruct i as [|i]; [left; simpl; ring|right]. assert (1 <= INR (S i)) by (change 1 with (INR 1); apply le_INR; lia). replace 1 with (1 * 1) by ring. apply Rmult_le_compat; lra. Qed.

Lemma acc_near m (r : nat -> f64) (Rv Ra : nat -> R) (x : f64) t kap e :
  is_finite x = true -> Rabs t <= 1 -> Rabs (val x - t) <= kap * u53 -> 0 <= kap -> kap * u53 <= / 2 -> 0 <= e ->
  let err := cheb_err m kap + e + terms_err (m + 1) in err <= / 4 ->
  let S := bsum (m + 1) (fun i => INR i * INR i * Ra i) in S <= huge ->
  (forall i, (i <= m)%nat -> is_finite (r i) = true /\ Rabs (Rv i) <= Ra i /\ Rabs (val (r i) - Rv i) <= e * (Ra i + tiny)) ->
  let h := acc_loop m (nofZ 0) (fun i => (chebyshev_t_prime i x * r i)%num) in let H := bsum (m + 1) (fun i => dcheb i t * Rv i) in
  let F := INR m * INR m * INR (m + 1) in
  is_finite h = true /\ 0 <= F <= bpow radix2 400 /\ Rabs H <= S + F * tiny /\ Rabs (val h - H) <= err * (S + F * tiny).
Proof.
  intros Fx Ht Hx Hk Hku He err HE S HS Hr h H F. assert (U := u_tiny). assert (TP := tiny_pos). assert (CE := cheb_err_nonneg m kap Hk). assert (TE := terms_err_nonneg (m + 1)).
  assert (RC := rerr_cheb m kap Hk). unfold err in HE. assert (M0 := pos_INR m). assert (M1 : 1 <= INR (m + 1)) by (change 1 with (INR 1); apply le_INR; lia).
  assert (N53 := rerr_terms m kap Hk ltac:(lra)). assert (FB : 0 <= F <= bpow radix2 159).
  { unfold F. rewrite plus_INR. change (INR 1) with 1. split; [apply Rmult_le_pos; [apply Rmult_le_pos; lra|lra]|]. change 159%Z with (53 + 53 + 53)%Z. rewrite !bpow_plus. apply Rmult_le_compat; [apply Rmult_le_pos; lra|lra| |lra]. apply Rmult_le_compat; lra. }
  assert (FT : 0 <= F * tiny <= 1). { split; [apply Rmult_le_pos; lra|]. apply Rle_trans with (bpow radix2 159 * tiny); [apply Rmult_le_compat_r; lra|]. unfold tiny. rewrite <- bpow_plus. change 1 with (bpow radix2 0). apply bpow_le. discriminate. }
  assert (HG : 1000 * huge <= big) by (unfold huge, big; apply Rle_trans with (bpow radix2 10 * bpow radix2 800); [apply Rmult_le_compat_r; [apply bpow_ge_0|change (bpow radix2 10) with 1024; lra]|rewrite <- bpow_plus; apply bpow_le; discriminate]).
  assert (H1 := one_huge).
  set (B := fun i => INR i * INR i * (Ra i + tiny)).
  assert (BS : ls B (seq 0 (m + 1)) <= S + F * tiny).
  { rewrite ls_seq. unfold B. rewrite (bsum_ext _ _ (fun i => INR i * INR i * Ra i + tiny * (INR i * INR i))) by (intros; ring). rewrite bsum_plus, L_Series.bsum_scal. fold S. apply Rplus_le_compat_l.
    rewrite Rmult_comm. apply Rmult_le_compat_r; [lra|]. unfold F. rewrite (Rmult_comm (INR m * INR m)), <- bsum_const. apply bsum_le. intros i Hi. assert (0 <= INR i <= INR m) by (split; [apply pos_INR|apply le_INR; lia]). apply Rmult_le_compat; lra. }
  assert (BP : forall i, (i <= m)%nat -> 0 <= B i).
  { intros i Hi. destruct (Hr i Hi) as (_ & X & _). assert (0 <= Ra i) by (eapply Rle_trans; [apply Rabs_pos|exact X]). unfold B. apply Rmult_le_pos; [apply Rmult_le_pos; apply pos_INR|lra]. }
  assert (BI : forall i, (i <= m)%nat -> B i <= S + F * tiny).
  { intros i Hi. apply Rle_trans with (2 := BS). rewrite ls_seq. set (B' := fun j => if (j <=? m)%nat then B j else 0). rewrite (bsum_ext _ B B') by (intros j Hj; unfold B'; rewrite (proj2 (Nat.leb_le j m)) by lia; reflexivity).
    replace (B i) with (B' i) by (unfold B'; rewrite (proj2 (Nat.leb_le i m)) by lia; reflexivity). apply bsum_single; [lia|]. intros j. unfold B'. destruct (Nat.leb_spec j m); [apply BP; lia|lra]. }
  destruct (sum_near (fun i => chebyshev_t_prime i x *! r i) (fun i => dcheb i t * Rv i) B (seq 0 (m + 1)) (cheb_err m kap + e + 2 * u53)) as (Fh & BH & EH).
  - intros i Hi. apply in_seq in Hi. assert (Him : (i <= m)%nat) by lia. destruct (Hr i Him) as (Fr & Br & Er). assert (RM := rerr_mono i m kap Hk Him). destruct (tp_near x t kap Fx Ht Hx Hk Hku i ltac:(lra)) as (Fp & Ep).
    assert (Dp := dcheb_abs t Ht i). assert (R0 := proj1 (rerr_cheb i kap Hk)). assert (Ra0 : 0 <= Ra i) by (eapply Rle_trans; [apply Rabs_pos|exact Br]). assert (Bi := BI i Him).
    destruct (prod_near (chebyshev_t_prime i x) (r i) (dcheb i t) (Rv i) (INR i * INR i) (Ra i + tiny) (rerr i kap) e Fp Fr Dp ltac:(lra) Ep Er ltac:(lra) ltac:(lra)) as (A1 & A2 & A3).
    + destruct (sq_cases i) as [Z|Z]; [left; rewrite Z; ring|right]. apply Rle_trans with (1 * tiny); [lra|]. apply Rmult_le_compat; lra.
    + change (B i <= big). lra.
    + split; [exact A1|]. split; [exact A2|]. apply Rle_trans with (1 := A3). apply Rmult_le_compat_r; [apply (BP i Him)|].
      assert (rerr i kap * e <= rerr i kap * (1 / 4)) by (apply Rmult_le_compat_l; lra). lra.
  - assert (X : 8 * u53 <= terms_err (m + 1)) by (unfold terms_err; change uround with u53; apply Rmult_le_compat_r; lra). lra.
  - lra.
  - rewrite seq_length. unfold terms_err in HE. change uround with u53 in HE. lra.
  - rewrite seq_length in EH. rewrite ls_seq in BH, EH. fold H in BH, EH. change (fold_left (fun acc a => acc +! (chebyshev_t_prime a x *! r a)) (seq 0 (m + 1)) (nofZ 0)) with h in Fh, EH.
    split; [exact Fh|]. split; [split; [lra|]; apply Rle_trans with (1 := proj2 FB); apply bpow_le; discriminate|]. split; [lra|]. apply Rle_trans with (1 := EH).
    assert (LB0 : 0 <= ls B (seq 0 (m + 1))) by (eapply Rle_trans; [apply Rabs_pos|exact BH]).
    apply Rmult_le_compat; try lra.
    + assert (0 <= INR (m + 1) * u53) by (apply Rmult_le_pos; lra). lra.
    + unfold err, terms_err. change uround with u53. assert (u53 <= INR (m + 1) * u53) by (rewrite <- (Rmult_1_l u53) at 1; apply Rmult_le_compat_r; lra). lra.
Qed.

Lemma cs1_deriv_lemma : forall f (ax : axis f64) n (a : nat -> f64) x D, usable ax x -> rate_moderate (axis_values ax) (dvalue x) -> (forall i, (i <= n)%nat -> is_finite (a i) = true) ->
  let c := unit_rate (axis_values ax) (dvalue x) in cheb_dsum n a <= huge -> c * cheb_dsum n a <= huge ->
  let k := axis_cond (axis_values ax) in k * uround <= / 2 -> let err := cheb_err n k + terms_err (n + 1) in err <= / 4 ->
  derivable_pt_lim (fun t => bsum (n + 1) (fun i => dvalue (a i) * cheb i (unit_of (axis_values ax) t))) (dvalue x) D ->
  close_to_rate (cs1_derivative_x (mkCS1 f ax n a) x) D err c (cheb_dsum n a + INR n * INR n * INR (n + 1) * tiny).
Proof.
  intros f ax n a x D Hu Hm Fa c HS HcS k Hk err HE HD. change uround with u53 in *. assert (U := u_tiny). assert (TP := tiny_pos).
  destruct (unit_f ax x Hu ltac:(fold k; lra)) as (Ft & Et & Ht & K0). fold k in Et, K0. assert (CE := cheb_err_nonneg n k K0). assert (TE := terms_err_nonneg (n + 1)).
  destruct (acc_near n a (fun i => val (a i)) (fun i => Rabs (val (a i))) (to_unit ax x) (unit_of (axis_values ax) (val x)) k 0 Ft Ht Et K0 Hk ltac:(lra)) as (Fh & FB & BH & EH).
  - unfold err in HE. lra.
  - exact HS.
  - intros i Hi. split; [apply Fa, Hi|]. split; [lra|]. rewrite Rminus_diag_eq, Rabs_R0 by reflexivity. lra.
  - unfold cs1_derivative_x. cbn [c1_n c1_x c1_a]. apply finish_r with (H := bsum (n + 1) (fun i => dcheb i (unit_of (axis_values ax) (val x)) * val (a i))); auto.
    + apply bsum_nonneg. intros i _. repeat apply Rmult_le_pos; try apply pos_INR. apply Rabs_pos.
    + unfold err in *. lra.
    + replace err with (cheb_err n k + 0 + terms_err (n + 1)) by (unfold err; ring). exact EH.
    + apply (deriv_unique _ _ _ _ _ (fun t => eq_refl) HD). apply sum_comp, usable_regular, Hu.
Qed.

(** ** Two variables; the first index is the differentiated one *)
Lemma row_le m n (b : nat -> nat -> f64) : bsum (m + 1) (fun i => bsum (n + 1) (fun j => Rabs (val (b i j)))) <= huge -> forall i, (i <= m)%nat -> bsum (n + 1) (fun j => Rabs (val (b i j))) <= huge.
Proof. intros H i Hi. apply Rle_trans with (2 := H). apply (bsum_single (m + 1) (fun i => bsum (n + 1) (fun j => Rabs (val (b i j))))); [lia|]. intros j. apply bsum_nonneg. intros. apply Rabs_pos. Qed.
Lemma d2_gen (ax ay : axis f64) m n (b : nat -> nat -> f64) x y D : usable ax x -> usable ay y -> rate_moderate (axis_values ax) (val x) ->
  (forall i j, (i <= m)%nat -> (j <= n)%nat -> is_finite (b i j) = true) -> bsum (m + 1) (fun i => bsum (n + 1) (fun j => Rabs (val (b i j)))) <= huge ->
  let c := unit_rate (axis_values ax) (val x) in cheb_dsum2 m n b <= huge -> c * cheb_dsum2 m n b <= huge ->
  let kx := axis_cond (axis_values ax) in let ky := axis_cond (axis_values ay) in kx * u53 <= / 2 -> ky * u53 <= / 2 ->
  let err := cheb_err m kx + cheb_err n ky + terms_err (m + 1) in err <= / 4 ->
  derivable_pt_lim (fun t => bsum (m + 1) (fun i => bsum (n + 1) (fun j => val (b i j) * cheb j (unit_of (axis_values ay) (val y))) * cheb i (unit_of (axis_values ax) t))) (val x) D ->
  close_to_rate (acc_loop m (nofZ 0) (fun i => chebyshev_t_prime i (to_unit ax x) * clenshaw_sum n (b i) (to_unit ay y)) * coef_deriv ax x)%num D err c (cheb_dsum2 m n b + INR m * INR m * INR (m + 1) * tiny).
Proof.
  intros Hux Huy Hm Fb HT c HS HcS kx ky Hkx Hky err HE HD. assert (U := u_tiny). assert (TP := tiny_pos).
  destruct (unit_f ax x Hux ltac:(fold kx; lra)) as (Ft & Et & Ht & K0). fold kx in Et, K0. destruct (unit_f ay y Huy ltac:(fold ky; lra)) as (Fv & Ev & Hv & L0). fold ky in Ev, L0.
  assert (CX := cheb_err_nonneg m kx K0). assert (CY := cheb_err_nonneg n ky L0). assert (TE := terms_err_nonneg (m + 1)).
  set (v := unit_of (axis_values ay) (val y)) in *.
  destruct (acc_near m (fun i => clenshaw_sum n (b i) (to_unit ay y)) (fun i => bsum (n + 1) (fun j => val (b i j) * cheb j v)) (fun i => bsum (n + 1) (fun j => Rabs (val (b i j)))) (to_unit ax x) (unit_of (axis_values ax) (val x)) kx (cheb_err n ky) Ft Ht Et K0 Hkx CY HE HS) as (Fh & FB & BH & EH).
  - intros i Hi. destruct (cl1_near n (b i) (to_unit ay y) v ky Fv Hv Ev L0 (fun j Hj => Fb i j Hi Hj) (row_le m n b HT i Hi) ltac:(unfold err in HE; lra)) as (Fc & Ec).
    split; [exact Fc|]. split; [|exact Ec]. apply cheb_sum_abs, Hv.
  - apply finish_r with (H := bsum (m + 1) (fun i => dcheb i (unit_of (axis_values ax) (val x)) * bsum (n + 1) (fun j => val (b i j) * cheb j v))); auto.
    + apply bsum_nonneg. intros i _. repeat apply Rmult_le_pos; try apply pos_INR. apply bsum_nonneg. intros. apply Rabs_pos.
    + unfold err in *. lra.
    + apply (deriv_unique _ _ _ _ _ (fun t => eq_refl) HD). apply (sum_comp (m + 1) (fun i => bsum (n + 1) (fun j => val (b i j) * cheb j v))), usable_regular, Hux.
Qed.

Lemma cs2_deriv_lemma : forall f (ax ay : axis f64) m n (a : nat -> nat -> f64) x y, usable ax x -> usable ay y ->
  (forall i j, (i <= m)%nat -> (j <= n)%nat -> is_finite (a i j) = true) -> bsum (m + 1) (fun i => bsum (n + 1) (fun j => Rabs (dvalue (a i j)))) <= huge ->
  let kx := axis_cond (axis_values ax) in let ky := axis_cond (axis_values ay) in kx * uround <= / 2 -> ky * uround <= / 2 ->
  let u := unit_of (axis_values ax) in let v := unit_of (axis_values ay) in
  let exact s t := bsum (m + 1) (fun i => bsum (n + 1) (fun j => dvalue (a i j) * cheb j (v t)) * cheb i (u s)) in
  (forall D, rate_moderate (axis_values ax) (dvalue x) -> let c := unit_rate (axis_values ax) (dvalue x) in let S := cheb_dsum2 m n a in S <= huge -> c * S <= huge ->
     let err := cheb_err m kx + cheb_err n ky + terms_err (m + 1) in err <= / 4 -> derivable_pt_lim (fun s => exact s (dvalue y)) (dvalue x) D ->
     close_to_rate (cs2_derivative_x (mkCS2 f ax ay m n a) x y) D err c (S + INR m * INR m * INR (m + 1) * tiny)) /\
  (forall D, rate_moderate (axis_values ay) (dvalue y) -> let c := unit_rate (axis_values ay) (dvalue y) in let S := cheb_dsum2 n m (fun j i => a i j) in S <= huge -> c * S <= huge ->
     let err := cheb_err n ky + cheb_err m kx + terms_err (n + 1) in err <= / 4 -> derivable_pt_lim (fun t => exact (dvalue x) t) (dvalue y) D ->
     close_to_rate (cs2_derivative_y (mkCS2 f ax ay m n a) x y) D err c (S + INR n * INR n * INR (n + 1) * tiny)).
Proof.
  intros f ax ay m n a x y Hux Huy Fa HT kx ky Hkx Hky u v exact. split; intros D Hm c S HS HcS err HE HD.
  - exact (d2_gen ax ay m n a x y D Hux Huy Hm Fa HT HS HcS Hkx Hky HE HD).
  - apply (d2_gen ay ax n m (fun j i => a i j) y x D Huy Hux Hm (fun j i Hj Hi => Fa i j Hi Hj)); auto.
    + rewrite bsum_swap. exact HT.
    + eapply deriv_ext; [|exact HD]. intros t. unfold exact. cbv beta.
      rewrite (bsum_ext (m + 1) _ (fun i => bsum (n + 1) (fun j => dvalue (a i j) * cheb j (v t) * cheb i (u (dvalue x))))) by (intros; rewrite <- L_Series.bsum_scal_r; reflexivity).
      rewrite bsum_swap. apply bsum_ext. intros j _. rewrite <- L_Series.bsum_scal_r. apply bsum_ext. intros i _. change (dvalue (a i j)) with (val (a i j)). unfold v, u. change dvalue with (fun q : f64 => val q). cbv beta. ring.
Qed.

(** ** Three variables *)
Definition fac (w : bool) (i : nat) (x : f64) : f64 := if w then chebyshev_t_prime i x else chebyshev_t i x.
Definition FAC (w : bool) (i : nat) (t : R) : R := if w then dcheb i t else cheb i t.
Definition wq (w : bool) (i : nat) : R := if w then INR i * INR i else 1.
Lemma wq_cases w i : wq w i = 0 \/ 1 <= wq w i.
Proof. destruct w; [apply sq_cases|right; apply Rle_refl]. Qed.
Lemma wq_nonneg w i : 0 <= wq w i.
Proof. destruct (wq_cases w i); lra. Qed.
Lemma fac_near w (x : f64) t kap i : is_finite x = true -> Rabs t <= 1 -> Rabs (val x - t) <= kap * u53 -> 0 <= kap -> kap * u53 <= / 2 -> rerr i kap <= / 2 ->
  is_finite (fac w i x) = true /\ Rabs (FAC w i t) <= wq w i /\ Rabs (val (fac w i x) - FAC w i t) <= rerr i kap * wq w i.
Proof.
  intros Fx Ht Hx Hk Hku HR. destruct w; cbn [fac FAC wq].
  - destruct (tp_near x t kap Fx Ht Hx Hk Hku i HR) as (F & E). split; [exact F|]. split; [apply dcheb_abs, Ht|exact E].
  - destruct (t_near x t kap Fx Ht Hx Hk Hku i HR) as (F & E). split; [exact F|]. split; [apply cheb_abs, Ht|lra].
Qed.

Definition triples (m n p : nat) : list (nat * nat * nat) :=
  flat_map (fun i => flat_map (fun j => map (fun k => (i, j, k)) (seq 0 (p + 1))) (seq 0 (n + 1))) (seq 0 (m + 1)).
Lemma fold_flat {A B C} (F : A -> B -> A) (h : C -> list B) l : forall acc, fold_left F (flat_map h l) acc = fold_left (fun acc c => fold_left F (h c) acc) l acc.
Proof. induction l as [|c l IH]; intros acc; cbn [flat_map fold_left]; [reflexivity|]. rewrite fold_left_app. apply IH. Qed.
Lemma fold_map {A B C} (F : A -> B -> A) (h : C -> B) l : forall acc, fold_left F (map h l) acc = fold_left (fun acc c => F acc (h c)) l acc.
Proof. induction l as [|c l IH]; intros acc; cbn [map fold_left]; [reflexivity|]. apply IH. Qed.
Lemma fold_ext {A B} (F G : A -> B -> A) l : (forall a b, F a b = G a b) -> forall acc, fold_left F l acc = fold_left G l acc.
Proof. intros H. induction l as [|c l IH]; intros acc; cbn [fold_left]; [reflexivity|]. rewrite H. apply IH. Qed.
Lemma triple_fold m n p (g : nat -> nat -> nat -> f64) : triple_loop m n p g = fold_left (fun acc q => acc +! g (fst (fst q)) (snd (fst q)) (snd q)) (triples m n p) (nofZ 0).
Proof.
  unfold triple_loop, triples. rewrite fold_flat. apply fold_ext. intros acc i. rewrite fold_flat. apply fold_ext. intros acc' j. rewrite fold_map. reflexivity.
Qed.
Lemma triples_in m n p i j k : In (i, j, k) (triples m n p) -> (i <= m)%nat /\ (j <= n)%nat /\ (k <= p)%nat.
Proof.
  unfold triples. intros H. apply in_flat_map in H as (i' & Hi & H). apply in_flat_map in H as (j' & Hj & H). apply in_map_iff in H as (k' & E & Hk). apply in_seq in Hi, Hj, Hk. injection E as -> -> ->. lia.
Qed.
Lemma triples_ls m n p (f : nat -> nat -> nat -> R) : ls (fun q => f (fst (fst q)) (snd (fst q)) (snd q)) (triples m n p) = bsum (m + 1) (fun i => bsum (n + 1) (fun j => bsum (p + 1) (fun k => f i j k))).
Proof.
  unfold triples. rewrite ls_flat, ls_seq. apply bsum_ext. intros i _. rewrite ls_flat, ls_seq. apply bsum_ext. intros j _. rewrite ls_map, ls_seq. reflexivity.
Qed.
Lemma flat_length {A B} (h : A -> list B) l c : (forall a, length (h a) = c) -> length (flat_map h l) = (length l * c)%nat.
Proof. intros H. induction l as [|a l IH]; cbn [flat_map length]; [reflexivity|]. rewrite app_length, H, IH. lia. Qed.
Lemma triples_length m n p : length (triples m n p) = ((m + 1) * (n + 1) * (p + 1))%nat.
Proof.
  unfold triples. rewrite (flat_length _ _ ((n + 1) * (p + 1))), seq_length; [lia|]. intros i. rewrite (flat_length _ _ (p + 1)), seq_length; [lia|]. intros j. rewrite map_length, seq_length. reflexivity.
Qed.

Lemma d3_gen wx wy wz m n p (a : nat -> nat -> nat -> f64) (x y z : f64) tx ty tz kx ky kz Q :
  is_finite x = true -> Rabs tx <= 1 -> Rabs (val x - tx) <= kx * u53 -> 0 <= kx -> kx * u53 <= / 2 ->
  is_finite y = true -> Rabs ty <= 1 -> Rabs (val y - ty) <= ky * u53 -> 0 <= ky -> ky * u53 <= / 2 ->
  is_finite z = true -> Rabs tz <= 1 -> Rabs (val z - tz) <= kz * u53 -> 0 <= kz -> kz * u53 <= / 2 ->
  (forall k i j, (k <= p)%nat -> (i <= m)%nat -> (j <= n)%nat -> is_finite (a k i j) = true /\ Rabs (val (a k i j)) <= huge) ->
  (forall k i j, (k <= p)%nat -> (i <= m)%nat -> (j <= n)%nat -> wq wx i <= Q + 1 /\ wq wx i * wq wy j <= Q + 1 /\ wq wx i * wq wy j * wq wz k <= Q) -> Q <= bpow radix2 106 ->
  let count := ((m + 1) * (n + 1) * (p + 1))%nat in let err := cheb_err m kx + cheb_err n ky + cheb_err p kz + terms_err count in err <= / 4 ->
  let S := bsum (m + 1) (fun i => bsum (n + 1) (fun j => bsum (p + 1) (fun k => Rabs (val (a k i j)) * wq wx i * wq wy j * wq wz k))) in S <= huge ->
  let h := triple_loop m n p (fun i j k => (a k i j * fac wx i x * fac wy j y * fac wz k z)%num) in
  let H := bsum (m + 1) (fun i => bsum (n + 1) (fun j => bsum (p + 1) (fun k => val (a k i j) * FAC wx i tx * FAC wy j ty * FAC wz k tz))) in
  let F := Q * INR count in
  is_finite h = true /\ 0 <= F <= bpow radix2 400 /\ Rabs H <= S + F * tiny /\ Rabs (val h - H) <= err * (S + F * tiny).
Proof.
  intros Fx Ht Hx Hkx Hux Fy Hty Hy Hky Huy Fz Htz Hz Hkz Huz Ha HQ HQ2 count err HE S HS h H F. assert (U := u_tiny). assert (TP := tiny_pos).
  assert (CX := cheb_err_nonneg m kx Hkx). assert (CY := cheb_err_nonneg n ky Hky). assert (CZ := cheb_err_nonneg p kz Hkz). assert (TE := terms_err_nonneg count).
  assert (RX := rerr_cheb m kx Hkx). assert (RY := rerr_cheb n ky Hky). assert (RZ := rerr_cheb p kz Hkz). unfold err in HE.
  assert (C1 : 1 <= INR count) by (change 1 with (INR 1); apply le_INR; unfold count; nia).
  assert (TU : 8 * INR count * u53 = terms_err count) by reflexivity. assert (CU : u53 <= INR count * u53) by (rewrite <- (Rmult_1_l u53) at 1; apply Rmult_le_compat_r; lra).
  assert (Q0 : 0 <= Q) by (destruct (HQ 0%nat 0%nat 0%nat) as (_ & _ & X); try lia; assert (Y := Rmult_le_pos _ _ (Rmult_le_pos _ _ (wq_nonneg wx 0) (wq_nonneg wy 0)) (wq_nonneg wz 0)); lra).
  assert (CB : INR count <= bpow radix2 53). { assert (X := u53_b53). apply Rmult_le_reg_l with u53; [lra|]. lra. }
  assert (FB : 0 <= F <= bpow radix2 159). { unfold F. split; [apply Rmult_le_pos; lra|]. change 159%Z with (106 + 53)%Z. rewrite bpow_plus. apply Rmult_le_compat; lra. }
  assert (FT : 0 <= F * tiny <= 1). { split; [apply Rmult_le_pos; lra|]. apply Rle_trans with (bpow radix2 159 * tiny); [apply Rmult_le_compat_r; lra|]. unfold tiny. rewrite <- bpow_plus. change 1 with (bpow radix2 0). apply bpow_le. discriminate. }
  assert (H1 := one_huge). assert (T1 := tiny_small).
  assert (HG : 2 * huge * bpow radix2 106 <= / 4 * big).
  { assert (X : 4 * (2 * huge * bpow radix2 106) <= big); [|lra]. replace (4 * (2 * huge * bpow radix2 106)) with (bpow radix2 3 * huge * bpow radix2 106) by (change (bpow radix2 3) with 8; ring). unfold huge. rewrite <- !bpow_plus. apply bpow_le. discriminate. }
  assert (B106 : 1 <= bpow radix2 106) by (change 1 with (bpow radix2 0); apply bpow_le; discriminate).
  set (B := fun q : nat * nat * nat => let '(i, j, k) := q in (Rabs (val (a k i j)) + tiny) * wq wx i * wq wy j * wq wz k).
  set (bb := fun i j k => (Rabs (val (a k i j)) + tiny) * wq wx i * wq wy j * wq wz k).
  assert (BQ : ls B (triples m n p) = bsum (m + 1) (fun i => bsum (n + 1) (fun j => bsum (p + 1) (fun k => bb i j k)))).
  { rewrite <- triples_ls. apply Rle_antisym; apply ls_le; intros ((i, j), k) _; apply Rle_refl. }
  assert (BS : ls B (triples m n p) <= S + F * tiny).
  { rewrite BQ. replace (S + F * tiny) with (bsum (m + 1) (fun i => bsum (n + 1) (fun j => bsum (p + 1) (fun k => Rabs (val (a k i j)) * wq wx i * wq wy j * wq wz k + Q * tiny)))).
    - apply bsum_le. intros i Hi. apply bsum_le. intros j Hj. apply bsum_le. intros k Hk. unfold bb. destruct (HQ k i j ltac:(lia) ltac:(lia) ltac:(lia)) as (_ & _ & X).
      assert (wq wx i * wq wy j * wq wz k * tiny <= Q * tiny) by (apply Rmult_le_compat_r; lra). lra.
    - rewrite (bsum_ext (m + 1) _ (fun i => bsum (n + 1) (fun j => bsum (p + 1) (fun k => Rabs (val (a k i j)) * wq wx i * wq wy j * wq wz k)) + INR (n + 1) * (INR (p + 1) * (Q * tiny)))).
      + rewrite bsum_plus, bsum_const. fold S. unfold F, count. rewrite !mult_INR. ring.
      + intros i _. rewrite (bsum_ext (n + 1) _ (fun j => bsum (p + 1) (fun k => Rabs (val (a k i j)) * wq wx i * wq wy j * wq wz k) + INR (p + 1) * (Q * tiny))); [rewrite bsum_plus, bsum_const; reflexivity|].
        intros j _. rewrite bsum_plus, bsum_const. reflexivity. }
  destruct (sum_near (fun q => (a (snd q) (fst (fst q)) (snd (fst q)) *! fac wx (fst (fst q)) x) *! fac wy (snd (fst q)) y *! fac wz (snd q) z)
    (fun q => val (a (snd q) (fst (fst q)) (snd (fst q))) * FAC wx (fst (fst q)) tx * FAC wy (snd (fst q)) ty * FAC wz (snd q) tz) B (triples m n p) (cheb_err m kx + cheb_err n ky + cheb_err p kz + 6 * u53)) as (Fh & BH & EH).
  - intros ((i, j), k) Hq. destruct (triples_in _ _ _ _ _ _ Hq) as (Hi & Hj & Hk). cbn [fst snd]. destruct (Ha k i j Hk Hi Hj) as (Fa & Ba). destruct (HQ k i j Hk Hi Hj) as (Q1 & Q2 & Q3).
    assert (MX := rerr_mono i m kx Hkx Hi). assert (MY := rerr_mono j n ky Hky Hj). assert (MZ := rerr_mono k p kz Hkz Hk).
    assert (PX := proj1 (rerr_cheb i kx Hkx)). assert (PY := proj1 (rerr_cheb j ky Hky)). assert (PZ := proj1 (rerr_cheb k kz Hkz)).
    destruct (fac_near wx x tx kx i Fx Ht Hx Hkx Hux ltac:(lra)) as (F1 & B1 & E1). destruct (fac_near wy y ty ky j Fy Hty Hy Hky Huy ltac:(lra)) as (F2 & B2 & E2). destruct (fac_near wz z tz kz k Fz Htz Hz Hkz Huz ltac:(lra)) as (F3 & B3 & E3).
    assert (W1 := wq_cases wx i). assert (W2 := wq_cases wy j). assert (W3 := wq_cases wz k). assert (w1 := wq_nonneg wx i). assert (w2 := wq_nonneg wy j). assert (w3 := wq_nonneg wz k).
    set (A := Rabs (val (a k i j)) + tiny). assert (A0 : tiny <= A) by (unfold A; assert (X := Rabs_pos (val (a k i j))); lra).
    assert (AQ : forall W, 0 <= W <= Q + 1 -> A * W <= big). { intros W HW. assert (BG : 0 < big) by apply bpow_gt_0. apply Rle_trans with (2 * huge * (2 * bpow radix2 106)); [apply Rmult_le_compat; unfold A; assert (X := Rabs_pos (val (a k i j))); lra|lra]. }
    assert (STEP : forall b w, b = 0 \/ tiny <= b -> w = 0 \/ 1 <= w -> b * w = 0 \/ tiny <= b * w).
    { intros b w [->|Hb] [->|Hw]; try (left; ring). right. apply Rle_trans with (tiny * 1); [lra|]. apply Rmult_le_compat; lra. }
    destruct (prod_near (a k i j) (fac wx i x) (val (a k i j)) (FAC wx i tx) A (wq wx i) 0 (rerr i kx) Fa F1 ltac:(unfold A; lra) B1 ltac:(rewrite Rminus_diag_eq, Rabs_R0 by reflexivity; lra) E1 ltac:(lra) ltac:(lra)
      (STEP _ _ (or_intror A0) W1) (AQ (wq wx i) (conj w1 Q1))) as (G1 & I1 & J1).
    assert (Z1 := STEP _ _ (or_intror A0) W1). assert (a1 : 0 <= A * wq wx i) by (apply Rmult_le_pos; lra). assert (p12 : 0 <= wq wx i * wq wy j) by (apply Rmult_le_pos; lra). assert (p123 : 0 <= wq wx i * wq wy j * wq wz k) by (apply Rmult_le_pos; lra).
    set (e1 := 0 + rerr i kx + 0 * rerr i kx + 2 * u53) in *. assert (e1b : e1 = rerr i kx + 2 * u53) by (unfold e1; ring).
    destruct (prod_near _ _ _ _ _ _ _ _ G1 F2 I1 B2 J1 E2 ltac:(lra) ltac:(lra) (STEP _ _ Z1 W2) ltac:(rewrite Rmult_assoc; apply AQ; lra)) as (G2 & I2 & J2).
    set (e2 := e1 + rerr j ky + e1 * rerr j ky + 2 * u53) in *. assert (e12 : 0 <= e1 * rerr j ky <= / 4 * rerr j ky) by (split; [apply Rmult_le_pos; lra|apply Rmult_le_compat_r; lra]).
    assert (Z2 := STEP _ _ Z1 W2).
    destruct (prod_near _ _ _ _ _ _ _ _ G2 F3 I2 B3 J2 E3 ltac:(unfold e2; lra) ltac:(lra) (STEP _ _ Z2 W3) ltac:(rewrite !Rmult_assoc; apply AQ; rewrite <- Rmult_assoc; lra)) as (G3 & I3 & J3).
    split; [exact G3|]. split; [exact I3|]. apply Rle_trans with (1 := J3). apply Rmult_le_compat_r; [eapply Rle_trans; [apply Rabs_pos|exact I3]|].
    assert (e2 * rerr k kz <= / 4 * rerr k kz) by (apply Rmult_le_compat_r; unfold e2; lra). unfold e2 in *. lra.
  - lra.
  - assert (2 * huge * 1 <= 2 * huge * bpow radix2 106) by (apply Rmult_le_compat_l; lra). assert (BG : 0 < big) by apply bpow_gt_0. lra.
  - rewrite triples_length. fold count. lra.
  - rewrite triples_length in EH. fold count in EH. rewrite (triples_ls m n p (fun i j k => val (a k i j) * FAC wx i tx * FAC wy j ty * FAC wz k tz)) in BH, EH. fold H in BH, EH.
    assert (EQ : h = fold_left (fun acc q => acc +! ((a (snd q) (fst (fst q)) (snd (fst q)) *! fac wx (fst (fst q)) x) *! fac wy (snd (fst q)) y *! fac wz (snd q) z)) (triples m n p) (nofZ 0)) by (unfold h; rewrite triple_fold; reflexivity).
    rewrite <- EQ in Fh, EH. split; [exact Fh|]. split; [split; [lra|]; apply Rle_trans with (1 := proj2 FB); apply bpow_le; discriminate|]. split; [lra|]. apply Rle_trans with (1 := EH).
    assert (LB0 : 0 <= ls B (triples m n p)) by (eapply Rle_trans; [apply Rabs_pos|exact BH]).
    apply Rmult_le_compat; try lra. unfold err. lra.
Qed.

(** The derivative of a triple sum along the axis of its first index. *)
Lemma sum3_comp m n p (cf : nat -> nat -> nat -> R) a x : regular a x ->
  derivable_pt_lim (fun t => bsum m (fun i => bsum n (fun j => bsum p (fun k => cf i j k)) * cheb i (unit_of a t))) x
    (unit_rate a x * bsum m (fun i => dcheb i (unit_of a x) * bsum n (fun j => bsum p (fun k => cf i j k)))).
Proof. intros H. apply (sum_comp m (fun i => bsum n (fun j => bsum p (fun k => cf i j k)))), H. Qed.

Lemma sq_le i m : (i <= m)%nat -> 0 <= INR i * INR i <= INR m * INR m.
Proof. intros H. assert (0 <= INR i <= INR m) by (split; [apply pos_INR|apply le_INR, H]). split; [apply Rmult_le_pos; lra|apply Rmult_le_compat; lra]. Qed.
Lemma sq_106 m k : 0 <= k -> cheb_err m k <= / 4 -> INR m * INR m <= bpow radix2 106.
Proof.
  intros Hk H. assert (R := rerr_cheb m k Hk). assert (N := rerr_terms m k Hk ltac:(lra)). assert (M := pos_INR m). change 106%Z with (53 + 53)%Z. rewrite bpow_plus. apply Rmult_le_compat; lra.
Qed.

Lemma cs3_deriv_lemma : forall f (ax ay az : axis f64) m n p (a : nat -> nat -> nat -> f64) x y z, usable ax x -> usable ay y -> usable az z ->
  (forall k i j, (k <= p)%nat -> (i <= m)%nat -> (j <= n)%nat -> is_finite (a k i j) = true /\ Rabs (dvalue (a k i j)) <= huge) ->
  let kx := axis_cond (axis_values ax) in let ky := axis_cond (axis_values ay) in let kz := axis_cond (axis_values az) in
  kx * uround <= / 2 -> ky * uround <= / 2 -> kz * uround <= / 2 ->
  let count := ((m + 1) * (n + 1) * (p + 1))%nat in let err := cheb_err m kx + cheb_err n ky + cheb_err p kz + terms_err count in err <= / 4 ->
  let u := unit_of (axis_values ax) in let v := unit_of (axis_values ay) in let w := unit_of (axis_values az) in
  let exact s t r := bsum (m + 1) (fun i => bsum (n + 1) (fun j => bsum (p + 1) (fun k => dvalue (a k i j) * cheb k (w r)) * cheb j (v t)) * cheb i (u s)) in
  (forall D, rate_moderate (axis_values ax) (dvalue x) -> let c := unit_rate (axis_values ax) (dvalue x) in let S := cheb_dsum3 m n p (fun i j k => a k i j) in S <= huge -> c * S <= huge ->
     derivable_pt_lim (fun s => exact s (dvalue y) (dvalue z)) (dvalue x) D ->
     close_to_rate (cs3_derivative_x (mkCS3 f ax ay az m n p a) x y z) D err c (S + INR m * INR m * INR count * tiny)) /\
  (forall D, rate_moderate (axis_values ay) (dvalue y) -> let c := unit_rate (axis_values ay) (dvalue y) in let S := cheb_dsum3 n m p (fun j i k => a k i j) in S <= huge -> c * S <= huge ->
     derivable_pt_lim (fun t => exact (dvalue x) t (dvalue z)) (dvalue y) D ->
     close_to_rate (cs3_derivative_y (mkCS3 f ax ay az m n p a) x y z) D err c (S + INR n * INR n * INR count * tiny)) /\
  (forall D, rate_moderate (axis_values az) (dvalue z) -> let c := unit_rate (axis_values az) (dvalue z) in let S := cheb_dsum3 p m n (fun k i j => a k i j) in S <= huge -> c * S <= huge ->
     derivable_pt_lim (fun r => exact (dvalue x) (dvalue y) r) (dvalue z) D ->
     close_to_rate (cs3_derivative_z (mkCS3 f ax ay az m n p a) x y z) D err c (S + INR p * INR p * INR count * tiny)).
Proof.
  intros f ax ay az m n p a x y z Hux Huy Huz Fa kx ky kz Hkx Hky Hkz count err HE u v w exact. change uround with u53 in *. assert (U := u_tiny). assert (TP := tiny_pos).
  destruct (unit_f ax x Hux ltac:(fold kx; lra)) as (Fx & Ex & Hx & X0). fold kx in Ex, X0. destruct (unit_f ay y Huy ltac:(fold ky; lra)) as (Fy & Ey & Hy & Y0). fold ky in Ey, Y0. destruct (unit_f az z Huz ltac:(fold kz; lra)) as (Fz & Ez & Hz & Z0). fold kz in Ez, Z0.
  assert (CX := cheb_err_nonneg m kx X0). assert (CY := cheb_err_nonneg n ky Y0). assert (CZ := cheb_err_nonneg p kz Z0). assert (TE := terms_err_nonneg count).
  assert (HE' := HE). unfold err in HE'.
  assert (QX := sq_106 m kx X0 ltac:(lra)). assert (QY := sq_106 n ky Y0 ltac:(lra)). assert (QZ := sq_106 p kz Z0 ltac:(lra)).
  fold u in Ex, Hx. fold v in Ey, Hy. fold w in Ez, Hz.
  split; [|split]; intros D Hm c S HS HcS HD.
  - assert (ES : bsum (m + 1) (fun i => bsum (n + 1) (fun j => bsum (p + 1) (fun k => Rabs (val (a k i j)) * wq true i * wq false j * wq false k))) = S).
    { unfold S, cheb_dsum3. apply bsum_ext. intros i _. rewrite <- L_Series.bsum_scal. apply bsum_ext. intros j _. rewrite <- L_Series.bsum_scal. apply bsum_ext. intros k _. cbn [wq]. unfold dvalue. ring. }
    destruct (d3_gen true false false m n p a (to_unit ax x) (to_unit ay y) (to_unit az z) (u (val x)) (v (val y)) (w (val z)) kx ky kz (INR m * INR m) Fx Hx Ex X0 Hkx Fy Hy Ey Y0 Hky Fz Hz Ez Z0 Hkz Fa) as (Fh & FB & BH & EH).
    + intros k i j _ Hi _. cbn [wq]. assert (X := sq_le i m Hi). lra.
    + exact QX.
    + exact HE.
    + rewrite ES. exact HS.
    + rewrite ES in BH, EH. refine (finish_r ax x _ _ err S _ D Hux Hm Fh _ HcS FB BH _ EH _).
      * apply bsum_nonneg. intros i _. apply Rmult_le_pos; [apply Rmult_le_pos; apply pos_INR|]. apply bsum_nonneg. intros. apply bsum_nonneg. intros. apply Rabs_pos.
      * unfold err. lra.
      * rewrite (deriv_unique _ _ _ _ _ (fun t => eq_refl) HD (sum_comp (m + 1) (fun i => bsum (n + 1) (fun j => bsum (p + 1) (fun k => dvalue (a k i j) * cheb k (w (dvalue z))) * cheb j (v (dvalue y)))) (axis_values ax) (dvalue x) (usable_regular ax x Hux))).
        f_equal. apply bsum_ext. intros i _. rewrite <- L_Series.bsum_scal. apply bsum_ext. intros j _. rewrite <- L_Series.bsum_scal_r, <- L_Series.bsum_scal. apply bsum_ext. intros k _. cbn [FAC]. unfold dvalue, u. ring.
  - assert (ES : bsum (m + 1) (fun i => bsum (n + 1) (fun j => bsum (p + 1) (fun k => Rabs (val (a k i j)) * wq false i * wq true j * wq false k))) = S).
    { unfold S, cheb_dsum3. rewrite bsum_swap. apply bsum_ext. intros j _. rewrite <- L_Series.bsum_scal. apply bsum_ext. intros i _. rewrite <- L_Series.bsum_scal. apply bsum_ext. intros k _. cbn [wq]. unfold dvalue. ring. }
    destruct (d3_gen false true false m n p a (to_unit ax x) (to_unit ay y) (to_unit az z) (u (val x)) (v (val y)) (w (val z)) kx ky kz (INR n * INR n) Fx Hx Ex X0 Hkx Fy Hy Ey Y0 Hky Fz Hz Ez Z0 Hkz Fa) as (Fh & FB & BH & EH).
    + intros k i j _ _ Hj. cbn [wq]. assert (X := sq_le j n Hj). lra.
    + exact QY.
    + exact HE.
    + rewrite ES. exact HS.
    + rewrite ES in BH, EH. refine (finish_r ay y _ _ err S _ D Huy Hm Fh _ HcS FB BH _ EH _).
      * apply bsum_nonneg. intros i _. apply Rmult_le_pos; [apply Rmult_le_pos; apply pos_INR|]. apply bsum_nonneg. intros. apply bsum_nonneg. intros. apply Rabs_pos.
      * unfold err. lra.
      * assert (HD' : derivable_pt_lim (fun t => bsum (n + 1) (fun j => bsum (m + 1) (fun i => bsum (p + 1) (fun k => dvalue (a k i j) * cheb k (w (dvalue z))) * cheb i (u (dvalue x))) * cheb j (v t))) (dvalue y) D).
        { eapply deriv_ext; [|exact HD]. intros t. unfold exact. cbv beta. rewrite (bsum_ext (m + 1) _ (fun i => bsum (n + 1) (fun j => bsum (p + 1) (fun k => dvalue (a k i j) * cheb k (w (dvalue z))) * cheb j (v t) * cheb i (u (dvalue x))))) by (intros; rewrite <- L_Series.bsum_scal_r; reflexivity).
          rewrite bsum_swap. apply bsum_ext. intros j _. rewrite <- L_Series.bsum_scal_r. apply bsum_ext. intros i _. ring. }
        rewrite (deriv_unique _ _ _ _ _ (fun t => eq_refl) HD' (sum_comp (n + 1) (fun j => bsum (m + 1) (fun i => bsum (p + 1) (fun k => dvalue (a k i j) * cheb k (w (dvalue z))) * cheb i (u (dvalue x)))) (axis_values ay) (dvalue y) (usable_regular ay y Huy))).
        f_equal. rewrite (bsum_swap (m + 1)). apply bsum_ext. intros j _. rewrite <- L_Series.bsum_scal. apply bsum_ext. intros i _. rewrite <- L_Series.bsum_scal_r, <- L_Series.bsum_scal. apply bsum_ext. intros k _. cbn [FAC]. unfold dvalue, v. ring.
  - assert (ROT : forall g : nat -> nat -> nat -> R, bsum (m + 1) (fun i => bsum (n + 1) (fun j => bsum (p + 1) (fun k => g i j k))) = bsum (p + 1) (fun k => bsum (m + 1) (fun i => bsum (n + 1) (fun j => g i j k)))).
    { intros g. rewrite (bsum_ext (m + 1) _ (fun i => bsum (p + 1) (fun k => bsum (n + 1) (fun j => g i j k)))) by (intros; apply bsum_swap). apply (bsum_swap (m + 1) (p + 1) (fun i k => bsum (n + 1) (fun j => g i j k))). }
    assert (ES : bsum (m + 1) (fun i => bsum (n + 1) (fun j => bsum (p + 1) (fun k => Rabs (val (a k i j)) * wq false i * wq false j * wq true k))) = S).
    { unfold S, cheb_dsum3. rewrite ROT. apply bsum_ext. intros k _. rewrite <- L_Series.bsum_scal. apply bsum_ext. intros i _. rewrite <- L_Series.bsum_scal. apply bsum_ext. intros j _. cbn [wq]. unfold dvalue. ring. }
    destruct (d3_gen false false true m n p a (to_unit ax x) (to_unit ay y) (to_unit az z) (u (val x)) (v (val y)) (w (val z)) kx ky kz (INR p * INR p) Fx Hx Ex X0 Hkx Fy Hy Ey Y0 Hky Fz Hz Ez Z0 Hkz Fa) as (Fh & FB & BH & EH).
    + intros k i j Hk _ _. cbn [wq]. assert (X := sq_le k p Hk). lra.
    + exact QZ.
    + exact HE.
    + rewrite ES. exact HS.
    + rewrite ES in BH, EH. refine (finish_r az z _ _ err S _ D Huz Hm Fh _ HcS FB BH _ EH _).
      * apply bsum_nonneg. intros i _. apply Rmult_le_pos; [apply Rmult_le_pos; apply pos_INR|]. apply bsum_nonneg. intros. apply bsum_nonneg. intros. apply Rabs_pos.
      * unfold err. lra.
      * assert (HD' : derivable_pt_lim (fun t => bsum (p + 1) (fun k => bsum (m + 1) (fun i => bsum (n + 1) (fun j => dvalue (a k i j) * cheb j (v (dvalue y)) * cheb i (u (dvalue x)))) * cheb k (w t))) (dvalue z) D).
        { eapply deriv_ext; [|exact HD]. intros t. unfold exact. cbv beta.
          rewrite (bsum_ext (m + 1) _ (fun i => bsum (n + 1) (fun j => bsum (p + 1) (fun k => dvalue (a k i j) * cheb k (w t) * cheb j (v (dvalue y)) * cheb i (u (dvalue x)))))).
          - rewrite ROT. apply bsum_ext. intros k _. rewrite <- L_Series.bsum_scal_r. apply bsum_ext. intros i _. rewrite <- L_Series.bsum_scal_r. apply bsum_ext. intros j _. ring.
          - intros i _. rewrite <- L_Series.bsum_scal_r. apply bsum_ext. intros j _. rewrite <- !L_Series.bsum_scal_r. reflexivity. }
        rewrite (deriv_unique _ _ _ _ _ (fun t => eq_refl) HD' (sum_comp (p + 1) (fun k => bsum (m + 1) (fun i => bsum (n + 1) (fun j => dvalue (a k i j) * cheb j (v (dvalue y)) * cheb i (u (dvalue x))))) (axis_values az) (dvalue z) (usable_regular az z Huz))).
        f_equal. rewrite ROT. apply bsum_ext. intros k _. rewrite <- L_Series.bsum_scal. apply bsum_ext. intros i _. rewrite <- L_Series.bsum_scal. apply bsum_ext. intros j _. cbn [FAC]. unfold dvalue, w. ring.
Qed.

(** ** Examples *)
Lemma deriv_eq f x d e : derivable_pt_lim f x d -> d = e -> derivable_pt_lim f x e.
Proof. intros H <-. exact H. Qed.
Lemma ex_dcheb1 : forall f,
  Rabs (dvalue (cs1_derivative_x (mkCS1 f (Closed (f64_ofZ 1) (f64_ofZ 5)) 2 (fun i => f64_ofZ (Z.of_nat i + 1))) (f64_ofZ 4)) - 4) <= / 100000000000.
Proof.
  intros f. assert (U := u_tiny). assert (H := one_huge). assert (T := tiny_small). assert (TP := tiny_pos). assert (TU := tiny_u). set (a := fun i : nat => f64_ofZ (Z.of_nat i + 1)).
  assert (VS : cheb_dsum 2 a = 14).
  { unfold cheb_dsum, a. cbn [Nat.add bsum Z.of_nat Pos.of_succ_nat Pos.succ Z.add Pos.add]. vz. rewrite !Rabs_pos_eq by lra. simpl. ring. }
  assert (PE : cheb_err 2 (41 / 4) = 366 * u53) by (unfold cheb_err; change uround with u53; simpl; field).
  assert (PT : terms_err (2 + 1) = 24 * u53) by (unfold terms_err; change uround with u53; simpl; ring).
  destruct (cs1_deriv_lemma f (Closed (f64_ofZ 1) (f64_ofZ 5)) 2 a (f64_ofZ 4) 4 ex_usable I) as (_ & Ev).
  - intros i Hi. unfold a. apply fin_ofZ. lia.
  - rewrite VS. lra.
  - rewrite VS, ex_rate_c. lra.
  - rewrite ex_axis_cond. change uround with u53. lra.
  - rewrite ex_axis_cond, PE, PT. lra.
  - assert (X := sum_comp (2 + 1) (fun i => dvalue (a i)) (axis_values (Closed (f64_ofZ 1) (f64_ofZ 5))) (dvalue (f64_ofZ 4)) (usable_regular _ _ ex_usable)).
    apply (deriv_eq _ _ _ _ X).
    rewrite ex_rate_c, ex_unit. unfold a. cbn [Nat.add bsum Z.of_nat Pos.of_succ_nat Pos.succ Z.add Pos.add]. vz. simpl. field.
  - rewrite ex_axis_cond, VS, ex_rate_c, PE, PT in Ev. change uround with u53 in Ev. apply Rle_trans with (1 := Ev).
    change (INR 2) with 2. change (INR (2 + 1)) with (2 + 1). apply Rle_trans with (402 * u53 * 20 + u53); [|lra]. apply Rplus_le_compat; [apply Rmult_le_compat; lra|lra].
Qed.

Lemma ex_dcheb2 : forall f,
  Rabs (dvalue (cs2_derivative_x (mkCS2 f (Closed (f64_ofZ 1) (f64_ofZ 5)) (Opened (f64_ofZ 1)) 1 2 (fun i j => f64_ofZ (Z.of_nat (2 * i + j)))) (f64_ofZ 4) (f64_ofZ 4)) - 3 / 4) <= / 100000000000.
Proof.
  intros f. assert (U := u_tiny). assert (H := one_huge). assert (T := tiny_small). assert (TP := tiny_pos). assert (TU := tiny_u). set (a := fun i j : nat => f64_ofZ (Z.of_nat (2 * i + j))).
  assert (VT : bsum (1 + 1) (fun i => bsum (2 + 1) (fun j => Rabs (dvalue (a i j)))) = 12).
  { unfold a. cbn [Nat.add bsum]. simpl Z.of_nat. vz. rewrite !Rabs_pos_eq by lra. ring. }
  assert (VS : cheb_dsum2 1 2 a = 9).
  { unfold cheb_dsum2, a. cbn [Nat.add bsum]. simpl Z.of_nat. vz. rewrite !Rabs_pos_eq by lra. simpl. ring. }
  assert (P1 : cheb_err 1 (41 / 4) = 122 * u53) by (unfold cheb_err; change uround with u53; simpl; field).
  assert (P2 : cheb_err 2 4 = 216 * u53) by (unfold cheb_err; change uround with u53; simpl; field).
  assert (PT : terms_err (1 + 1) = 16 * u53) by (unfold terms_err; change uround with u53; simpl; ring).
  destruct (cs2_deriv_lemma f (Closed (f64_ofZ 1) (f64_ofZ 5)) (Opened (f64_ofZ 1)) 1 2 a (f64_ofZ 4) (f64_ofZ 4) ex_usable ex_usable_o) as (DX & _).
  - intros i j Hi Hj. unfold a. apply fin_ofZ. lia.
  - rewrite VT. lra.
  - rewrite ex_axis_cond. change uround with u53. lra.
  - rewrite ex_axis_cond_o. change uround with u53. lra.
  - destruct (DX (3 / 4) I) as (_ & Ev).
    + rewrite VS. lra.
    + rewrite VS, ex_rate_c. lra.
    + rewrite ex_axis_cond, ex_axis_cond_o, P1, P2, PT. lra.
    + assert (X := sum_comp (1 + 1) (fun i => bsum (2 + 1) (fun j => dvalue (a i j) * cheb j (unit_of (axis_values (Opened (f64_ofZ 1))) (dvalue (f64_ofZ 4))))) (axis_values (Closed (f64_ofZ 1) (f64_ofZ 5))) (dvalue (f64_ofZ 4)) (usable_regular _ _ ex_usable)).
      apply (deriv_eq _ _ _ _ X).
      rewrite ex_rate_c, ex_unit, ex_unit_o. unfold a. cbn [Nat.add bsum]. simpl Z.of_nat. vz. simpl. field.
    + rewrite ex_axis_cond, ex_axis_cond_o, VS, ex_rate_c, P1, P2, PT in Ev. change uround with u53 in Ev. apply Rle_trans with (1 := Ev).
      change (INR 1) with 1. change (INR (1 + 1)) with 2. apply Rle_trans with (366 * u53 * 20 + u53); [|lra]. apply Rplus_le_compat; [apply Rmult_le_compat; lra|lra].
Qed.

Lemma ex_dcheb3 : forall f,
  Rabs (dvalue (cs3_derivative_z (mkCS3 f (Closed (f64_ofZ 1) (f64_ofZ 5)) (Opened (f64_ofZ 1)) (Opened (f64_ofZ 1)) 1 1 1 (fun k i j => f64_ofZ (Z.of_nat (2 * i + j + k * i)))) (f64_ofZ 4) (f64_ofZ 4) (f64_ofZ 4)) - 3 / 8) <= / 100000000000.
Proof.
  intros f. assert (U := u_tiny). assert (H := one_huge). assert (T := tiny_small). assert (TP := tiny_pos). assert (TU := tiny_u). set (a := fun k i j : nat => f64_ofZ (Z.of_nat (2 * i + j + k * i))).
  assert (VS : cheb_dsum3 1 1 1 (fun k i j => a k i j) = 8).
  { unfold cheb_dsum3, a. cbn [Nat.add bsum]. simpl Z.of_nat. vz. rewrite !Rabs_pos_eq by lra. simpl. ring. }
  assert (P1 : cheb_err 1 (41 / 4) = 122 * u53) by (unfold cheb_err; change uround with u53; simpl; field).
  assert (P2 : cheb_err 1 4 = 72 * u53) by (unfold cheb_err; change uround with u53; simpl; field).
  assert (PT : terms_err ((1 + 1) * (1 + 1) * (1 + 1)) = 64 * u53) by (unfold terms_err; change uround with u53; simpl; ring).
  destruct (cs3_deriv_lemma f (Closed (f64_ofZ 1) (f64_ofZ 5)) (Opened (f64_ofZ 1)) (Opened (f64_ofZ 1)) 1 1 1 a (f64_ofZ 4) (f64_ofZ 4) (f64_ofZ 4) ex_usable ex_usable_o ex_usable_o) as (_ & _ & DZ).
  - intros k i j Hk Hi Hj. unfold a. assert (k * i <= 1)%nat by nia. split; [apply fin_ofZ; lia|].
    destruct k as [|[|k]]; [..|lia]; (destruct i as [|[|i]]; [..|lia]); (destruct j as [|[|j]]; [..|lia]); simpl Z.of_nat; vz; rewrite Rabs_pos_eq by lra; lra.
  - rewrite ex_axis_cond. change uround with u53. lra.
  - rewrite ex_axis_cond_o. change uround with u53. lra.
  - rewrite ex_axis_cond_o. change uround with u53. lra.
  - rewrite ex_axis_cond, ex_axis_cond_o, P1, P2, PT. lra.
  - destruct (DZ (3 / 8) ex_moderate_o) as (_ & Ev).
    + rewrite VS. lra.
    + rewrite VS, ex_rate_o. lra.
    + rewrite ex_unit, ex_unit_o.
      assert (X := sum_comp (1 + 1) (fun k => bsum (1 + 1) (fun i => bsum (1 + 1) (fun j => dvalue (a k i j) * cheb j (/ 2) * cheb i (/ 2)))) (axis_values (Opened (f64_ofZ 1))) (dvalue (f64_ofZ 4)) (usable_regular _ _ ex_usable_o)).
      refine (deriv_ext _ _ _ _ _ (deriv_eq _ _ _ (3 / 8) X _)).
      * intros t. cbv beta. cbn [Nat.add bsum]. ring.
      * rewrite ex_rate_o, ex_unit_o. unfold a. cbn [Nat.add bsum]. simpl Z.of_nat. vz. simpl. field.
    + rewrite ex_axis_cond, ex_axis_cond_o, VS, ex_rate_o, P1, P2, PT in Ev. change uround with u53 in Ev. apply Rle_trans with (1 := Ev).
      change (INR 1) with 1. replace (INR ((1 + 1) * (1 + 1) * (1 + 1))) with 8 by (simpl; ring). apply Rle_trans with (342 * u53 * 20 + u53); [|lra]. apply Rplus_le_compat; [apply Rmult_le_compat; lra|lra].
Qed.
