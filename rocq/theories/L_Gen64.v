(** logspace, the cardinal sine and velocity transport in binary64. *)
From Coq Require Import List Arith ZArith Reals Bool Lia Lra Psatz.
From Flocq Require Import Core.Core IEEE754.BinarySingleNaN.
From Verif Require Import Outcome Num NumFun F64 M_Basics M_Triangle M_Geometry M_Vec S_Basics S_Vec S_Angles S_Double S_Rot64 S_Gen64
  L_F64 L_Linspace64 L_F64Err L_Series64 L_Interp64 L_Special64 L_Apx.
From Verif Require L_Arange64 L_Units64 L_Rot64 L_E1d L_Sinc.
Import ListNotations.
Local Open Scope R_scope.

(** ** The cardinal sine *)
Definition sinc1 {TT : NumTr f64} (v : f64) : f64 := if neq v (nofZ 0) then nofZ 1 else (nsin v / v)%num.

Lemma small_big x : Rabs x <= bpow radix2 1000 -> Rabs x <= fmax64 + bpow radix2 969.
Proof. intros H. assert (B := big1003). assert (P := bpow_gt_0 radix2 1000). assert (Q := bpow_gt_0 radix2 969). lra. Qed.
Lemma big_2 : 2 <= bpow radix2 1000.
Proof. change 2 with (bpow radix2 1). apply bpow_le. lia. Qed.

Lemma sinc1_ok kappa (TT : NumTr f64) (v : f64) : libm_sine kappa TT -> 0 <= kappa <= 1000 -> is_finite v = true ->
  within ((kappa + 2) * uround / Rmax 1 (Rabs (dvalue v)) + uflow) (sinc1 v) (sinc (dvalue v)) /\
  (dvalue v = 0 -> dvalue (sinc1 v) = 1).
Proof.
  intros HL HK F. rewrite uround_u53, uflow_eta. unfold sinc1. cbn [neq nofZ ndiv F64Num].
  destruct (ofZ_ok 0 ltac:(lia)) as (F0 & V0). destruct (ofZ_ok 1 ltac:(lia)) as (F1 & V1). unfold dvalue.
  rewrite (Beqb_correct 53 1024 v (f64_ofZ 0) F F0), V0.
  assert (U := u_tiny). assert (EP := eta64_pos). set (x := val v) in *.
  assert (MX : 1 <= Rmax 1 (Rabs x)) by apply Rmax_l. assert (IM : 0 < / Rmax 1 (Rabs x) <= 1).
  { split; [apply Rinv_0_lt_compat; lra|]. apply Rle_trans with (/ 1); [apply Rinv_le_contravar|]; lra. }
  set (m := / Rmax 1 (Rabs x)) in *.
  assert (KU0 : 0 <= (kappa + 2) * u53) by (apply Rmult_le_pos; lra).
  assert (KUM : 0 <= (kappa + 2) * u53 * m) by (apply Rmult_le_pos; lra).
  destruct (Req_bool_spec x 0) as [E|N].
  - split; [|intros _; exact V1]. split; [exact F1|]. unfold dvalue. rewrite V1. unfold sinc. destruct (Req_EM_T x 0) as [_|C]; [|contradiction].
    unfold Rdiv. fold m. rewrite Rminus_diag_eq, Rabs_R0 by reflexivity. lra.
  - split; [|intros C; contradiction]. destruct (HL v F) as (FS & ES). rewrite uround_u53 in ES. unfold dvalue in ES. fold x in ES.
    set (s := val (nsin v)) in *. unfold sinc. destruct (Req_EM_T x 0) as [C|_]; [contradiction|].
    assert (AX : 0 < Rabs x) by (apply Rabs_pos_lt; exact N).
    assert (EM : Rmin 1 (Rabs x) / Rabs x = m).
    { unfold m, Rmin, Rmax. destruct (Rle_dec 1 (Rabs x)); field; lra. }
    assert (SX : Rabs (sin x / x) <= m).
    { unfold Rdiv. rewrite Rabs_mult, Rabs_inv, <- EM. apply Rmult_le_compat_r; [left; apply Rinv_0_lt_compat; exact AX|].
      apply Rmin_glb; [apply Rabs_le; destruct (SIN_bound x); lra|apply L_Rot64.abs_sin_le]. }
    assert (D : Rabs (s / x - sin x / x) <= kappa * u53 * m).
    { replace (s / x - sin x / x) with ((s - sin x) * / x) by (unfold Rdiv; ring). rewrite Rabs_mult, Rabs_inv, <- EM.
      unfold Rdiv. rewrite <- Rmult_assoc. apply Rmult_le_compat_r; [left; apply Rinv_0_lt_compat; exact AX|exact ES]. }
    assert (KU : 0 <= kappa * u53 <= / 1000000000000) by (split; [apply Rmult_le_pos; lra|]; assert (kappa * u53 <= 1000 * u53) by (apply Rmult_le_compat_r; lra); lra).
    assert (KM : 0 <= kappa * u53 * m <= / 1000000000000 * m) by (split; [apply Rmult_le_pos; lra|]; apply Rmult_le_compat_r; lra).
    assert (SV : Rabs (s / x) <= (1 + / 1000000000000) * m).
    { replace (s / x) with ((s / x - sin x / x) + sin x / x) by ring. apply Rle_trans with (1 := Rabs_triang _ _). lra. }
    destruct (div_ok (nsin v) v FS F N) as (FD & VD).
    { apply small_big. apply Rle_trans with (2 := big_2). apply Rle_trans with (1 := SV). lra. }
    split; [exact FD|]. unfold dvalue. rewrite VD. change (val (nsin v)) with s. change (val v) with x.
    assert (R := rnd_err (s / x)). assert (US : u53 * Rabs (s / x) <= u53 * ((1 + / 1000000000000) * m)) by (apply Rmult_le_compat_l; lra).
    replace (rnd64 (s / x) - sin x / x) with ((rnd64 (s / x) - s / x) + (s / x - sin x / x)) by ring.
    apply Rle_trans with (1 := Rabs_triang _ _). change ((kappa + 2) * u53 / Rmax 1 (Rabs x)) with ((kappa + 2) * u53 * m).
    assert (0 <= u53 * m) by (apply Rmult_le_pos; lra). lra.
Qed.

Lemma sinc_double_lemma : forall kappa (TT : NumTr f64), libm_sine kappa TT -> 0 <= kappa <= 1000 ->
  forall x, all_finite x -> length (Sinc x) = length x /\
  forall k, (k < length x)%nat -> let v := dvalue (nth k x (nofZ 0)) in
    within ((kappa + 2) * uround / Rmax 1 (Rabs v) + uflow) (nth k (Sinc x) (nofZ 0)) (sinc v) /\
    (v = 0 -> dvalue (nth k (Sinc x) (nofZ 0)) = 1).
Proof.
  intros kappa TT HL HK x HF. unfold Sinc. rewrite map_length. split; [reflexivity|]. intros k Hk. cbv zeta.
  change (fun v : f64 => if neq v (nofZ 0) then nofZ 1 else (nsin v / v)%num) with (sinc1 (TT := TT)).
  rewrite (nth_indep (map sinc1 x) (nofZ 0) (sinc1 (nofZ 0))) by (rewrite map_length; exact Hk). rewrite map_nth.
  apply sinc1_ok; auto. unfold all_finite in HF. rewrite Forall_forall in HF. apply HF, nth_In, Hk.
Qed.

Lemma sinc_range_double_lemma : forall kappa (TT : NumTr f64), libm_sine kappa TT -> 0 <= kappa <= 1000 ->
  forall bm xmin xmax n, grid_ready xmin xmax n -> exists l, Sinc_range bm xmin xmax n = Ok l /\ length l = n /\
  forall k, (k < n)%nat -> within ((kappa + 2) * uround + uflow + uround * grid_size xmin xmax)
    (nth k l (nofZ 0)) (sinc (grid_point xmin xmax n k)).
Proof.
  intros kappa TT HL HK bm xmin xmax n (H1 & H2 & H3 & H4 & H5 & H6 & H7).
  destruct (linspace_double_lemma bm xmin xmax n H1 H2 H3 H4 H5 H6 H7) as (x & E & Lx & _ & _ & HX & _).
  exists (Sinc x). unfold Sinc_range. rewrite E. cbn [bind]. split; [reflexivity|].
  assert (AF : all_finite x).
  { unfold all_finite. rewrite Forall_forall. intros v Hv. apply (In_nth _ _ xmin) in Hv. destruct Hv as (k & Hk & <-). apply HX. lia. }
  destruct (sinc_double_lemma kappa TT HL HK x AF) as (LS & S). split; [rewrite LS; exact Lx|].
  intros k Hk. destruct (S k ltac:(lia)) as ((FS & ES) & _). split; [exact FS|].
  destruct (HX k Hk) as (_ & _ & EX). rewrite (nth_indep x xmin (nofZ 0)) in EX by lia.
  fold (grid_point xmin xmax n k) in EX. fold (grid_size xmin xmax) in EX. fold uround in EX.
  set (v := dvalue (nth k x (nofZ 0))) in *. set (g := grid_point xmin xmax n k) in *.
  assert (LP := L_Sinc.sinc_lipschitz v g).
  assert (U := u_tiny). rewrite <- uround_u53 in U.
  assert (MX : 1 <= Rmax 1 (Rabs v)) by apply Rmax_l. assert (IM : / Rmax 1 (Rabs v) <= 1) by (apply Rle_trans with (/ 1); [apply Rinv_le_contravar|]; lra).
  assert (0 <= (kappa + 2) * uround) by (apply Rmult_le_pos; lra).
  assert ((kappa + 2) * uround / Rmax 1 (Rabs v) <= (kappa + 2) * uround * 1) by (apply Rmult_le_compat_l; lra).
  replace (dvalue (nth k (Sinc x) (nofZ 0)) - sinc g) with ((dvalue (nth k (Sinc x) (nofZ 0)) - sinc v) + (sinc v - sinc g)) by ring.
  apply Rle_trans with (1 := Rabs_triang _ _). lra.
Qed.

(** ** logspace *)
Lemma exp_near t : Rabs t <= / 100 -> Rabs (exp t - 1) <= 2 * Rabs t.
Proof.
  intros H. assert (P : forall s, - / 100 <= s <= / 100 -> exp s - 1 <= 2 * Rabs s).
  { intros s Hs. assert (K := exp_ineq1_le (- s)). rewrite exp_Ropp in K. assert (E := exp_pos s).
    assert (K2 : (1 - s) * exp s <= 1) by (replace 1 with (/ exp s * exp s) at 2 by (field; lra); apply Rmult_le_compat_r; lra).
    unfold Rabs. destruct (Rcase_abs s); [|nra]. assert (exp s < 1) by (rewrite <- exp_0; apply exp_increasing; lra). lra. }
  apply Rabs_le_inv in H. apply Rabs_le. split; [|apply P; lra].
  assert (K := exp_ineq1_le t). assert (A := Rle_abs (- t)). rewrite Rabs_Ropp in A. assert (B := Rabs_pos t). lra.
Qed.

Lemma logspace_double_lemma : forall kappa (TT : NumTr f64), libm_pow kappa TT -> 0 <= kappa <= 1000 ->
  forall bm start stop num base, grid_ready start stop num -> is_finite base = true -> 0 < dvalue base ->
  let b := dvalue base in Rmax (Rabs (dvalue start)) (Rabs (dvalue stop)) * Rabs (ln b) <= 700 ->
  exists l, logspace bm start stop num base = Ok l /\ length l = num /\
  (forall k, (k < num)%nat -> let y := Rpower b (grid_point start stop num k) in
     within ((kappa + 1 + 2 * Rabs (ln b) * grid_size start stop) * uround * y) (nth k l (nofZ 0)) y) /\
  within (kappa * uround * Rpower b (dvalue start)) (nth 0 l (nofZ 0)) (Rpower b (dvalue start)) /\
  within (kappa * uround * Rpower b (dvalue stop)) (nth (num - 1) l (nofZ 0)) (Rpower b (dvalue stop)).
Proof.
  intros kappa TT HL HK bm start stop num base (H1 & H2 & H3 & H4 & H5 & H6 & H7) FB PB b HB.
  destruct (linspace_double_lemma bm start stop num H1 H2 H3 H4 H5 H6 H7) as (x & E & Lx & Elast & Efirst & HX & _).
  exists (map (fun v => npow base v) x). unfold logspace.
  assert (A1 : cassert bm (1 <? num) = Ok tt) by (unfold cassert; destruct bm; [replace (1 <? num)%nat with true by (symmetry; apply Nat.ltb_lt; lia)|]; reflexivity).
  assert (A2 : cassert bm (nle start stop) = Ok tt).
  { unfold cassert; destruct bm; [|reflexivity]. cbn [nle F64Num]. rewrite (Bleb_correct 53 1024 start stop H1 H2).
    rewrite Rle_bool_true by exact H3. reflexivity. }
  rewrite A1, A2, E. cbn [bind]. split; [reflexivity|]. rewrite map_length. split; [exact Lx|].
  assert (NE : forall k, (k < num)%nat -> nth k (map (fun v => npow base v) x) (nofZ 0) = npow base (nth k x start)).
  { intros k Hk. rewrite (nth_indep (map (fun v => npow base v) x) (nofZ 0) (npow base start)) by (rewrite map_length; lia). apply (map_nth (fun v => npow base v)). }
  set (M := Rmax (Rabs (dvalue start)) (Rabs (dvalue stop))) in *. set (L := Rabs (ln b)) in *.
  assert (LP : 0 <= L) by apply Rabs_pos. assert (MS : Rabs (dvalue start) <= M) by apply Rmax_l. assert (MT : Rabs (dvalue stop) <= M) by apply Rmax_r.
  assert (XL : forall v, Rabs v <= M -> Rabs (v * ln b) <= 700).
  { intros v Hv. rewrite Rabs_mult. fold L. apply Rle_trans with (2 := HB). apply Rmult_le_compat_r; auto. }
  assert (U := u_tiny). rewrite <- uround_u53 in U.
  split; [|split].
  - intros k Hk. cbv zeta. set (y := Rpower b (grid_point start stop num k)). rewrite NE by exact Hk. destruct (HX k Hk) as (FX & RX & EX). set (v := nth k x start) in *.
    fold (grid_point start stop num k) in EX. fold M in EX. change (4 * (dvalue stop - dvalue start) + M) with (grid_size start stop) in EX. fold uround in EX.
    assert (VM : Rabs (dvalue v) <= M).
    { apply Rabs_le_inv in MS. apply Rabs_le_inv in MT. apply Rabs_le. lra. }
    destruct (HL base v FB FX PB (XL _ VM)) as (FP & EP). split; [exact FP|].
    set (g := grid_point start stop num k) in *. set (t := (dvalue v - g) * ln b).
    assert (EY : Rpower b (dvalue v) = y * exp t) by (unfold y, t, Rpower; rewrite <- exp_plus; f_equal; ring).
    assert (YP : 0 < y) by apply exp_pos.
    fold b in EP. rewrite EY in EP. set (G := grid_size start stop) in *.
    assert (GB : 0 <= G <= 9 * M).
    { apply Rabs_le_inv in MS. apply Rabs_le_inv in MT. unfold G, grid_size. fold M. lra. }
    assert (LG : 0 <= L * G <= 6300).
    { split; [apply Rmult_le_pos; lra|]. assert (L * G <= L * (9 * M)) by (apply Rmult_le_compat_l; lra). lra. }
    assert (TB : Rabs t <= uround * (L * G)).
    { unfold t. rewrite Rabs_mult. fold L. replace (uround * (L * G)) with ((uround * G) * L) by ring. apply Rmult_le_compat_r; lra. }
    assert (UL : uround * (L * G) <= / 1000000000000000 * 6300) by (apply Rmult_le_compat; lra).
    assert (XN := exp_near t ltac:(lra)). set (e := exp t) in *.
    assert (E0 : 0 < e) by apply exp_pos. assert (XN' := XN). apply Rabs_le_inv in XN'. assert (TP := Rabs_pos t).
    assert (EB : e <= 2) by lra.
    replace (dvalue (npow base v) - y) with ((dvalue (npow base v) - y * e) + y * (e - 1)) by ring.
    apply Rle_trans with (1 := Rabs_triang _ _). rewrite (Rabs_mult y), (Rabs_pos_eq y) by lra.
    assert (KU : 0 <= kappa * uround <= / 1000000000000) by (split; [apply Rmult_le_pos; lra|]; assert (kappa * uround <= 1000 * uround) by (apply Rmult_le_compat_r; lra); lra).
    assert (Q1 : kappa * uround * e <= (kappa + 1) * uround).
    { assert (kappa * uround * (e - 1) <= / 1000000000000 * (uround * (2 * (L * G)))).
      { apply Rle_trans with (kappa * uround * (2 * (uround * (L * G)))); [apply Rmult_le_compat_l; lra|].
        replace (kappa * uround * (2 * (uround * (L * G)))) with (kappa * uround * (uround * (2 * (L * G)))) by ring.
        apply Rmult_le_compat_r; [|lra]. apply Rmult_le_pos; lra. }
      assert (uround * (2 * (L * G)) <= uround * 12600) by (apply Rmult_le_compat_l; lra). lra. }
    assert (Q2 : kappa * uround * e * y <= (kappa + 1) * uround * y) by (apply Rmult_le_compat_r; lra).
    assert (Q3 : y * Rabs (e - 1) <= y * (2 * (uround * (L * G)))) by (apply Rmult_le_compat_l; lra).
    lra.
  - rewrite NE by lia. destruct (HX 0%nat ltac:(lia)) as (FX & _). rewrite (nth_indep x stop start) in Efirst by lia.
    assert (K := HL base (nth 0 x start) FB FX PB). rewrite Efirst in K. apply K, XL, MS.
  - rewrite NE by lia. rewrite Elast. apply (HL base stop FB H2 PB), XL, MT.
Qed.

(** ** Velocity transport *)
Lemma rate_bound u w f : / 2 ^ 400 <= Rabs w <= 2 ^ 400 -> denotes_hertz PI u w f -> Rabs (2 * PI * f) <= 7 * 2 ^ 400.
Proof.
  intros (HL & HU) H. assert (P4 := PI_4). assert (P0 := PI_RGT_0). assert (P2 : 314 / 100 < PI < 315 / 100) by (assert (X := L_Units64.pi_close); lra).
  assert (T : 0 < 2 ^ 400) by (apply pow_lt; lra). assert (W : 0 < Rabs w) by (assert (0 < / 2 ^ 400) by (apply Rinv_0_lt_compat; exact T); lra).
  assert (G : forall c, 0 <= c <= 1 -> f = c * w -> Rabs (2 * PI * f) <= 7 * 2 ^ 400).
  { intros c Hc ->. rewrite !Rabs_mult, (Rabs_pos_eq 2), (Rabs_pos_eq PI), (Rabs_pos_eq c) by lra.
    assert (c * Rabs w <= 1 * 2 ^ 400) by (apply Rmult_le_compat; lra).
    assert (0 <= c * Rabs w) by (apply Rmult_le_pos; lra).
    apply Rle_trans with (7 * (c * Rabs w)); [apply Rmult_le_compat_r; lra|lra]. }
  destruct u; unfold denotes_hertz in H.
  - apply (G 1); lra.
  - subst w. lra.
  - apply (G (/ 360)); lra.
  - apply (G (/ (360 * 60))); lra.
  - assert (N : w <> 0) by (intros ->; rewrite Rabs_R0 in W; lra).
    assert (E : f = / w) by (apply (Rmult_eq_reg_l w); [rewrite H; field; exact N|exact N]). subst f.
    rewrite !Rabs_mult, Rabs_inv, (Rabs_pos_eq 2), (Rabs_pos_eq PI) by lra.
    assert (I : / Rabs w <= 2 ^ 400) by (rewrite <- (Rinv_inv (2 ^ 400)); apply Rinv_le_contravar; [apply Rinv_0_lt_compat; exact T|exact HL]).
    assert (0 < / Rabs w) by (apply Rinv_0_lt_compat; exact W).
    apply Rmult_le_compat; lra.
  - apply (G (/ 60)); lra.
Qed.

(** v + p*W for a rate W within 13 roundings of k. *)
Lemma axpy_ok (v p W : f64) (k : R) : is_finite v = true -> is_finite p = true -> is_finite W = true ->
  Rabs (val v) <= 2 ^ 400 -> Rabs (val p) <= 2 ^ 400 -> Rabs k <= 7 * 2 ^ 400 -> Rabs (val W - k) <= 13 * u53 * Rabs k ->
  within ((Rabs (val v) + 17 * Rabs (k * val p)) * u53 + 2 * eta64) (v +! (p *! W)) (val v + k * val p) /\
  within ((Rabs (val v) + 17 * Rabs (k * val p)) * u53 + 2 * eta64) (v -! (p *! W)) (val v - k * val p).
Proof.
  intros Fv Fp FW Bv Bp Bk EW. assert (U := u_tiny). assert (ES := L_Arange64.eta_small). assert (EP := eta64_pos).
  set (x := val v) in *. set (q := val p) in *. set (w := val W) in *. set (B := 2 ^ 400) in *.
  assert (B1 : 1 <= B) by (unfold B; apply pow_R1_Rle; lra).
  assert (KQ : 0 <= Rabs (k * q)) by apply Rabs_pos.
  assert (UK : 0 <= u53 * Rabs (k * q) <= / 1000000000000000 * Rabs (k * q)) by (split; [apply Rmult_le_pos; lra|]; apply Rmult_le_compat_r; lra).
  assert (D : Rabs (q * w - k * q) <= 13 * (u53 * Rabs (k * q))).
  { replace (q * w - k * q) with (q * (w - k)) by ring. rewrite Rabs_mult. apply Rle_trans with (Rabs q * (13 * u53 * Rabs k)).
    - apply Rmult_le_compat_l; [apply Rabs_pos|exact EW].
    - rewrite Rabs_mult. lra. }
  assert (KB : Rabs (k * q) <= 7 * (B * B)).
  { rewrite Rabs_mult. replace (7 * (B * B)) with (7 * B * B) by ring. apply Rmult_le_compat; auto using Rabs_pos. }
  assert (BB : 10 * (B * B) <= bpow radix2 1000 /\ B <= B * B).
  { split.
    - unfold B. rewrite <- pow_add. change (400 + 400)%nat with 800%nat. apply Rle_trans with (2 ^ 4 * 2 ^ 800); [apply Rmult_le_compat_r; [apply pow_le|]; simpl; lra|].
      rewrite <- pow_add. change (4 + 800)%nat with 804%nat. rewrite bpow_powerRZ. change (IZR (radix_val radix2)) with 2.
      change 1000%Z with (Z.of_nat 1000). rewrite <- pow_powerRZ. apply Rle_pow; [lra|lia].
    - replace B with (1 * B) at 1 by ring. apply Rmult_le_compat_r; lra. }
  assert (QW : Rabs (q * w) <= 8 * (B * B)).
  { replace (q * w) with ((q * w - k * q) + k * q) by ring. apply Rle_trans with (1 := Rabs_triang _ _). lra. }
  destruct (mult_ok p W Fp FW) as (Fm & Vm); [apply small_big; fold q w; lra|]. fold q w in Vm.
  assert (Rm := rnd_err (q * w)). rewrite <- Vm in Rm. set (y := val (p *! W)) in *.
  assert (QA : Rabs (q * w) <= (1 + 13 * / 1000000000000000) * Rabs (k * q)).
  { replace (q * w) with ((q * w - k * q) + k * q) by ring. apply Rle_trans with (1 := Rabs_triang _ _). lra. }
  assert (UQ : u53 * Rabs (q * w) <= u53 * ((1 + 13 * / 1000000000000000) * Rabs (k * q))) by (apply Rmult_le_compat_l; lra).
  assert (DY : Rabs (y - k * q) <= 15 * (u53 * Rabs (k * q)) + eta64).
  { replace (y - k * q) with ((y - q * w) + (q * w - k * q)) by ring. apply Rle_trans with (1 := Rabs_triang _ _). lra. }
  assert (YA : Rabs y <= (1 + 15 * / 1000000000000000) * Rabs (k * q) + eta64).
  { replace y with ((y - k * q) + k * q) by ring. apply Rle_trans with (1 := Rabs_triang _ _). lra. }
  assert (YB : Rabs y <= 8 * (B * B)) by lra.
  assert (UY : u53 * Rabs y <= u53 * ((1 + 15 * / 1000000000000000) * Rabs (k * q) + eta64)) by (apply Rmult_le_compat_l; lra).
  assert (UE : u53 * eta64 <= / 1000000000000000 * eta64) by (apply Rmult_le_compat_r; lra).
  assert (XP := Rabs_pos x).
  split.
  - assert (S : Rabs (x + y) <= Rabs x + Rabs y) by apply Rabs_triang.
    destruct (plus_ok v (p *! W) Fv Fm) as (Fs & _); [apply small_big; fold x y; lra|]. split; [exact Fs|].
    assert (Es := plus_err v (p *! W) Fs). fold x y in Es. unfold dvalue.
    assert (u53 * Rabs (x + y) <= u53 * (Rabs x + Rabs y)) by (apply Rmult_le_compat_l; lra).
    replace (val (v +! (p *! W)) - (x + k * q)) with ((val (v +! (p *! W)) - (x + y)) + (y - k * q)) by ring.
    apply Rle_trans with (1 := Rabs_triang _ _). lra.
  - assert (S : Rabs (x - y) <= Rabs x + Rabs y) by (unfold Rminus; rewrite <- (Rabs_Ropp y); apply Rabs_triang).
    destruct (minus_ok v (p *! W) Fv Fm) as (Fs & _); [apply small_big; fold x y; lra|]. split; [exact Fs|].
    assert (Es := minus_err v (p *! W) Fs). fold x y in Es. unfold dvalue.
    assert (u53 * Rabs (x - y) <= u53 * (Rabs x + Rabs y)) by (apply Rmult_le_compat_l; lra).
    replace (val (v -! (p *! W)) - (x - k * q)) with ((val (v -! (p *! W)) - (x - y)) - (y - k * q)) by ring.
    unfold Rminus at 1. apply Rle_trans with (1 := Rabs_triang _ _). rewrite Rabs_Ropp. lra.
Qed.

Lemma rate_ok w u f : is_finite w = true -> / 2 ^ 400 <= Rabs (dvalue w) <= 2 ^ 400 -> denotes_hertz PI u (dvalue w) f ->
  let W := if frequency_unit_eqb u RADS then w else convert_frequency w u RADS in
  is_finite W = true /\ Rabs (val W - 2 * PI * f) <= 13 * u53 * Rabs (2 * PI * f).
Proof.
  intros F H D W. assert (U := u_tiny). destruct (frequency_unit_eqb u RADS) eqn:E; unfold W.
  - split; [exact F|]. assert (EU : u = RADS) by (destruct u; [discriminate| reflexivity| discriminate..]). rewrite EU in D.
    cbn [denotes_hertz] in D. unfold dvalue in D. rewrite <- D, Rminus_diag_eq, Rabs_R0 by reflexivity. apply Rmult_le_pos; [lra|apply Rabs_pos].
  - assert (M : 2 ^ 400 <= 2 ^ 900) by (apply Rle_pow; [lra|lia]). assert (T : 0 < 2 ^ 400) by (apply pow_lt; lra).
    assert (I : / 2 ^ 900 <= / 2 ^ 400) by (apply Rinv_le_contravar; lra).
    destruct (L_Units64.frequency_double_lemma w u RADS f (2 * PI * f) F ltac:(lra) D eq_refl) as (A & B).
    split; [exact A|]. rewrite uround_u53 in B. exact B.
Qed.

(** Bounds per component of the transport of [v] to [p]. *)
Lemma transport_double_lemma : forall (h : store (T := f64)) this point w u f, this <> point ->
  bounded2 (2 ^ 400) (h this) -> bounded2 (2 ^ 400) (h point) ->
  is_finite w = true -> / 2 ^ 400 <= Rabs (dvalue w) <= 2 ^ 400 -> denotes_hertz PI u (dvalue w) f ->
  near_transport (2 * PI * f) (h this) (h point) (TransportAtPoint h this point w u this) /\
  forall r, r <> this -> TransportAtPoint h this point w u r = h r.
Proof.
  intros h this point w u f HN ((Fx & Bx) & (Fy & By)) ((Gx & Cx) & (Gy & Cy)) F H D.
  destruct (rate_ok w u f F H D) as (FW & EW). assert (KB := rate_bound u (dvalue w) f H D). cbv zeta in FW, EW.
  split.
  - unfold TransportAtPoint. cbv zeta. set (W := if frequency_unit_eqb u RADS then w else convert_frequency w u RADS) in *.
    unfold supd. rewrite !Nat.eqb_refl. replace (point =? this)%nat with false by (symmetry; apply Nat.eqb_neq; auto).
    unfold near_transport. rewrite uround_u53, uflow_eta. cbn [ux uy add2 scal2 quarter dvec2 nsub nadd nmul F64Num].
    destruct (axpy_ok (ux (h this)) (uy (h point)) W _ Fx Gy FW Bx Cy KB EW) as (_ & A).
    destruct (axpy_ok (uy (h this)) (ux (h point)) W _ Fy Gx FW By Cx KB EW) as (C & _).
    split; [|exact C]. replace (dvalue (ux (h this)) + 2 * PI * f * - dvalue (uy (h point))) with (dvalue (ux (h this)) - 2 * PI * f * dvalue (uy (h point))) by ring.
    exact A.
  - intros r Hr. unfold TransportAtPoint. cbv zeta. unfold supd. replace (r =? this)%nat with false by (symmetry; apply Nat.eqb_neq; exact Hr). reflexivity.
Qed.
Lemma transport_out_double_lemma : forall (h : store (T := f64)) this out point w u f, out <> point ->
  bounded2 (2 ^ 400) (h this) -> bounded2 (2 ^ 400) (h point) ->
  is_finite w = true -> / 2 ^ 400 <= Rabs (dvalue w) <= 2 ^ 400 -> denotes_hertz PI u (dvalue w) f ->
  near_transport (2 * PI * f) (h this) (h point) (TransportAtPoint_out h this out point w u out) /\
  forall r, r <> out -> TransportAtPoint_out h this out point w u r = h r.
Proof.
  intros h this out point w u f HN B1 B2 F H D. unfold TransportAtPoint_out.
  assert (E1 : supd h out (h this) out = h this) by (unfold supd; rewrite Nat.eqb_refl; reflexivity).
  assert (E2 : supd h out (h this) point = h point) by (unfold supd; replace (point =? out)%nat with false by (symmetry; apply Nat.eqb_neq; auto); reflexivity).
  destruct (transport_double_lemma (supd h out (h this)) out point w u f HN) as (A & B); [rewrite E1; exact B1|rewrite E2; exact B2|exact F|exact H|exact D|].
  rewrite E1, E2 in A. split; [exact A|]. intros r Hr. rewrite B by exact Hr. unfold supd. replace (r =? out)%nat with false by (symmetry; apply Nat.eqb_neq; exact Hr). reflexivity.
Qed.
Lemma transport_fun_double_lemma : forall v p w u f, bounded2 (2 ^ 400) v -> bounded2 (2 ^ 400) p ->
  is_finite w = true -> / 2 ^ 400 <= Rabs (dvalue w) <= 2 ^ 400 -> denotes_hertz PI u (dvalue w) f ->
  near_transport (2 * PI * f) v p (TransportAtPoint_fun v p w u).
Proof.
  intros v p w u f B1 B2 F H D. unfold TransportAtPoint_fun.
  exact (proj1 (transport_double_lemma (fun r => if Nat.eqb r 0 then v else p) 0 1 w u f ltac:(discriminate) B1 B2 F H D)).
Qed.

(** ** The example library *)
Lemma exp_range t : Rabs t <= 700 -> bpow radix2 (-1021) <= exp t <= bpow radix2 1020.
Proof.
  intros H. assert (E7 : exp 700 <= 10 ^ 305).
  { replace 700 with (INR 700 * 1) by (rewrite INR_IZR_INZ; change (Z.of_nat 700) with 700%Z; ring). rewrite L_E1d.exp_INR.
    apply Rle_trans with ((272 / 100) ^ 700); [apply pow_incr; split; [left; apply exp_pos|exact L_E1d.exp_1_le]|].
    replace (10 ^ 305) with ((10 / 1) ^ 305) by (f_equal; field). apply L_E1d.pow_IZR_le; [lia|lia|vm_compute; discriminate]. }
  assert (ML : forall a b, a <= b -> exp a <= exp b) by (intros a b [L| ->]; [left; apply exp_increasing; exact L|lra]).
  apply Rabs_le_inv in H. split.
  - apply Rle_trans with (exp (Ropp 700)); [|apply ML; lra]. replace (exp (Ropp 700)) with (/ exp 700) by (symmetry; apply exp_Ropp). apply Rle_trans with (/ 10 ^ 305); [|apply Rinv_le_contravar; [apply exp_pos|exact E7]].
    replace (bpow radix2 (-1021)) with (/ IZR (2 ^ 1021)) by reflexivity. rewrite pow_IZR. apply Rinv_le_contravar; [apply IZR_lt; reflexivity|]. apply IZR_le. vm_compute. discriminate.
  - apply Rle_trans with (exp 700); [apply ML; lra|]. apply Rle_trans with (1 := E7). replace (bpow radix2 1020) with (IZR (2 ^ 1020)) by reflexivity. rewrite pow_IZR. apply IZR_le. vm_compute. discriminate.
Qed.
Lemma sin_minus_id x : Rabs (sin x - x) <= Rabs x * (x * x / 2).
Proof.
  assert (G : forall t, Rabs (1 - cos t) <= t * t / 2).
  { intros t. replace (cos t) with (1 - 2 * sin (t / 2) * sin (t / 2)) by (rewrite <- cos_2a_sin; f_equal; field).
    replace (1 - (1 - 2 * sin (t / 2) * sin (t / 2))) with (2 * (sin (t / 2) * sin (t / 2))) by ring.
    rewrite Rabs_mult, (Rabs_pos_eq 2), Rabs_mult by lra. assert (S := L_Rot64.abs_sin_le (t / 2)). assert (P := Rabs_pos (sin (t / 2))).
    assert (Rabs (sin (t / 2)) * Rabs (sin (t / 2)) <= Rabs (t / 2) * Rabs (t / 2)) by (apply Rmult_le_compat; lra).
    assert (Q : Rabs (t / 2) * Rabs (t / 2) = t / 2 * (t / 2)) by (rewrite <- Rabs_mult; apply Rabs_pos_eq; nra). rewrite Q in H. nra. }
  destruct (Req_dec x 0) as [->|N]; [rewrite sin_0, Rminus_0_r, Rabs_R0; lra|].
  assert (D : forall c, derivable_pt_lim (fun t => t - sin t) c (1 - cos c)) by (intros c; apply derivable_pt_lim_minus; [apply derivable_pt_lim_id|apply derivable_pt_lim_sin]).
  assert (W : exists c, Rabs c <= Rabs x /\ x - sin x = (1 - cos c) * x).
  { destruct (Rlt_le_dec 0 x) as [P|P].
    - destruct (MVT_cor2 (fun t => t - sin t) (fun t => 1 - cos t) 0 x P (fun c _ => D c)) as (c & E & Hc). exists c. rewrite !Rabs_pos_eq by lra. rewrite sin_0 in E. split; lra.
    - assert (P' : x < 0) by lra. destruct (MVT_cor2 (fun t => t - sin t) (fun t => 1 - cos t) x 0 P' (fun c _ => D c)) as (c & E & Hc). exists c. rewrite !Rabs_left by lra. rewrite sin_0 in E. split; lra. }
  destruct W as (c & Hc & E). rewrite Rabs_minus_sym, E, Rabs_mult, Rmult_comm. apply Rmult_le_compat_l; [apply Rabs_pos|].
  apply Rle_trans with (1 := G c). unfold Rdiv. apply Rmult_le_compat_r; [lra|]. rewrite <- (Rabs_pos_eq (c * c)), <- (Rabs_pos_eq (x * x)), !Rabs_mult by nra. apply Rmult_le_compat; auto using Rabs_pos.
Qed.
Lemma exact_sinpow_near : libm_sine 2 exact_sinpow /\ libm_pow 1 exact_sinpow.
Proof.
  split.
  - intros x F. rewrite uround_u53. cbn [nsin exact_sinpow]. assert (U := u_tiny). assert (P30 : / 2 ^ 30 <= 1) by (apply Rle_trans with (/ 1); [apply Rinv_le_contravar; [lra|simpl; lra]|lra]).
    destruct (Rle_dec (Rabs (dvalue x)) (/ 2 ^ 30)) as [H|H].
    + split; [exact F|]. rewrite Rabs_minus_sym. apply Rle_trans with (1 := sin_minus_id _). set (a := dvalue x) in *. assert (P := Rabs_pos a).
      rewrite Rmin_right by lra. rewrite Rmult_comm. apply Rmult_le_compat_r; [exact P|]. apply Rle_trans with (a * a); [nra|]. rewrite <- (Rabs_pos_eq (a * a)) by nra. rewrite Rabs_mult.
      assert (Rabs a * Rabs a <= / 2 ^ 30 * / 2 ^ 30) by (apply Rmult_le_compat; lra). apply Rle_trans with (1 := H0). unfold u53. simpl. lra.
    + apply Rnot_le_lt in H. assert (S := SIN_bound (dvalue x)). destruct (L_Rot64.ofR_ok (sin (dvalue x))) as (A & B); [apply Rabs_le; lra|].
      split; [exact A|]. unfold dvalue at 1. rewrite B. assert (R := rnd_err (sin (dvalue x))).
      assert (M : Rabs (sin (dvalue x)) <= Rmin 1 (Rabs (dvalue x))) by (apply Rmin_glb; [apply Rabs_le; lra|apply L_Rot64.abs_sin_le]).
      assert (M2 : / 2 ^ 30 <= Rmin 1 (Rabs (dvalue x))) by (apply Rmin_glb; lra).
      assert (u53 * Rabs (sin (dvalue x)) <= u53 * Rmin 1 (Rabs (dvalue x))) by (apply Rmult_le_compat_l; lra).
      assert (EE : eta64 <= u53 * / 2 ^ 30).
      { unfold eta64, u53. apply Rle_trans with (bpow radix2 (-1074)); [assert (X := bpow_gt_0 radix2 (-1074)); lra|].
        rewrite <- Rinv_mult, <- pow_add. change (53 + 30)%nat with 83%nat. replace (/ 2 ^ 83) with (bpow radix2 (-83)) by (rewrite bpow_powerRZ; simpl; lra).
        apply bpow_le. lia. }
      assert (u53 * / 2 ^ 30 <= u53 * Rmin 1 (Rabs (dvalue x))) by (apply Rmult_le_compat_l; lra). lra.
  - intros b x Fb Fx Pb H. rewrite uround_u53. cbn [npow exact_sinpow]. unfold within, dvalue at 1. unfold Rpower.
    assert (P := exp_pos (dvalue x * ln (dvalue b))). assert (R := exp_range _ H).
    destruct (L_E1d.ofR_rel (exp (dvalue x * ln (dvalue b)))) as (A & B); [right; rewrite Rabs_pos_eq by lra; exact R|].
    rewrite (Rabs_pos_eq (exp (dvalue x * ln (dvalue b)))) in B by lra. split; [exact A|exact B].
Qed.
Lemma ex_grid : grid_ready (f64_ofZ 0) (f64_ofZ 2) 3.
Proof.
  destruct (ofZ_ok 0 ltac:(lia)) as (F0 & V0). destruct (ofZ_ok 2 ltac:(lia)) as (F2 & V2).
  unfold grid_ready, dvalue. rewrite V0, V2. split; [exact F0|]. split; [exact F2|]. split; [lra|]. split.
  - rewrite dmax_fmax. assert (B := big1003). assert (X := big_2). lra.
  - split; [lia|]. split; [reflexivity|]. right. unfold dmin_normal. replace (INR (3 - 1)) with 2 by (simpl; lra).
    replace (powerRZ 2 (-1022)) with (bpow radix2 (-1022)) by (rewrite bpow_powerRZ; reflexivity).
    assert (bpow radix2 (-1022) <= bpow radix2 0) by (apply bpow_le; lia). change (bpow radix2 0) with 1 in H. lra.
Qed.
Lemma ln_10 : 0 <= ln 10 <= 9.
Proof.
  split; [rewrite <- ln_1; left; apply ln_increasing; lra|]. assert (K := exp_ineq1_le (ln 10)). rewrite exp_ln in K by lra. lra.
Qed.
Lemma half_ok : is_finite (Bdiv mode_NE (f64_ofZ 1) (f64_ofZ 2)) = true /\ val (Bdiv mode_NE (f64_ofZ 1) (f64_ofZ 2)) = 1 / 2.
Proof.
  destruct (ofZ_ok 1 ltac:(lia)) as (F1 & V1). destruct (ofZ_ok 2 ltac:(lia)) as (F2 & V2).
  destruct (div_ok (f64_ofZ 1) (f64_ofZ 2) F1 F2) as (A & B).
  - rewrite V2. lra.
  - rewrite V1, V2. apply small_big. rewrite Rabs_pos_eq by lra. assert (X := big_2). lra.
  - split; [exact A|]. rewrite B, V1, V2. apply rnd64_id. replace (1 / 2) with (bpow radix2 (-1)) by (simpl; lra).
    apply generic_format_bpow. vm_compute. discriminate.
Qed.
