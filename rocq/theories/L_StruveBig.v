(** The Struve approximations above 3. *)
From Coq Require Import ZArith Reals Lra Lia Bool List.
From Coquelicot Require Import Coquelicot.
From Verif Require Import Outcome Num NumFun M_Special S_Special S_Struve L_Poly L_PolyWin L_Special L_E1 L_Bessel L_StruveK L_StruveY.
Import ListNotations.
Open Scope R_scope.

(** A rational function of v = x^2 very close to x times the transform. *)
Definition kA : list Z :=
  [15126948805962649; 53016411814711675; 26011481763596370; 3761607948381059; 202689681765491; 4404659651347; 37521720366; 100000000]%Z.
Definition kB : list Z :=
  [29935140154330393; 66977233605029406; 28759326168918367; 3935813458246065; 206814967239111; 4441381371820; 37621720366; 100000000]%Z.
Definition kW := wron kA kB.
Definition kB2 := zmul kB kB.
Definition kW2 := wron kW kB2.
Definition kB4 := zmul kB2 kB2.
(** 4 v^2 q'' + q + v (q - 1), times B^4. *)
Definition kR := zadd (zmul [0; 0; 4]%Z kW2) (zmul (zadd kA (0%Z :: zsub kA kB)) (zmul kB kB2)).
(** The two quotients of the code, as polynomials in v. *)
Definition s0n : list Z := [32303607 * 729; 385542044 * 81; 477228920 * 9; 99999906]%Z.
Definition s0d : list Z := [52120508 * 729; 428957333 * 81; 488331068 * 9; 100000000]%Z.
Definition s1n : list Z := [27450895 * 729; 264893033 * 81; 392205313 * 9; 100000004]%Z.
Definition s1d : list Z := [10885141 * 729; 226216956 * 81; 381095112 * 9; 100000000]%Z.
Definition e9 : Z := 1000000000%Z.
(** |residual| <= 5.6e-8 *)
Definition cR (s : Z) := zsub (zscale 56 kB4) (zscale (s * e9) kR).
(** |q - 1| <= 2/v, |2q' - q/v| <= 2/v *)
Definition cI (s : Z) := zsub (zscale 2 kB) (0%Z :: zscale s (zsub kA kB)).
Definition cI1 (s : Z) := zsub (zscale 2 kB2) (zscale s (zsub (0%Z :: zscale 2 kW) (zmul kA kB))).
(** |r0 - q| <= 1.29e-8 x, squared *)
Definition s0D := zmul s0d kB.
Definition s0E := zsub (zmul s0n kB) (zmul kA s0d).
Definition cS0 := zsub (0%Z :: zscale (129 * 129) (zmul s0D s0D)) (zscale (10 * e9 * (10 * e9)) (zmul s0E s0E)).
(** |r1 - (1 - 2q' + q/v)| <= 4e-8 *)
Definition s1D := zmul s1d (0%Z :: kB2).
Definition s1E := zsub (zmul s1n (0%Z :: kB2)) (zmul s1d (zadd (0%Z :: zsub kB2 (zscale 2 kW)) (zmul kA kB))).
Definition cS1 (s : Z) := zsub (zscale 40 s1D) (zscale (s * e9) s1E).
Definition cuts : list Z := [12; 14; 16; 20; 25; 32; 40; 50; 64; 80; 100; 150; 200; 300; 400; 600; 1000; 2000; 5000; 10000; 30000; 100000]%Z.
Definition pall (c : list Z) : bool := zwins 250 200 9 10 cuts 1 c && zpos (zsh 100000 c).
Lemma pall_val c v : pall c = true -> 9 <= v -> 0 < zev c v.
Proof.
  intros H Hv. apply andb_true_iff in H. destruct H as [H1 H2]. destruct (Rle_lt_dec v 100000) as [L|L].
  - apply (zwins_val _ _ _ _ _ _ _ v H1). cbn [cuts last]. lra.
  - replace v with (100000 + (v - 100000)) by ring. rewrite <- zsh_val. apply zpos_val; [lra|exact H2].
Qed.
Lemma kB_chk : pall kB = true.
Proof. vm_compute. reflexivity. Qed.
Lemma cRp_chk : pall (cR 1) = true.
Proof. vm_compute. reflexivity. Qed.
Lemma cRn_chk : pall (cR (-1)) = true.
Proof. vm_compute. reflexivity. Qed.
Lemma cIp_chk : pall (cI 1) = true.
Proof. vm_compute. reflexivity. Qed.
Lemma cIn_chk : pall (cI (-1)) = true.
Proof. vm_compute. reflexivity. Qed.
Lemma cI1p_chk : pall (cI1 1) = true.
Proof. vm_compute. reflexivity. Qed.
Lemma cI1n_chk : pall (cI1 (-1)) = true.
Proof. vm_compute. reflexivity. Qed.
Lemma cS0_chk : pall cS0 = true.
Proof. vm_compute. reflexivity. Qed.
Lemma cS1p_chk : pall (cS1 1) = true.
Proof. vm_compute. reflexivity. Qed.
Lemma cS1n_chk : pall (cS1 (-1)) = true.
Proof. vm_compute. reflexivity. Qed.
Lemma s0d_chk : pall s0d = true.
Proof. vm_compute. reflexivity. Qed.
Lemma s1d_chk : pall s1d = true.
Proof. vm_compute. reflexivity. Qed.
Lemma kB_pos v : 9 <= v -> 0 < zev kB v.
Proof. apply pall_val. exact kB_chk. Qed.
Lemma s0d_pos v : 9 <= v -> 0 < zev s0d v.
Proof. apply pall_val. exact s0d_chk. Qed.
Lemma s1d_pos v : 9 <= v -> 0 < zev s1d v.
Proof. apply pall_val. exact s1d_chk. Qed.

Definition kq (v : R) : R := zev kA v / zev kB v.
Definition kq1 (v : R) : R := zev kW v / zev kB2 v.
Definition kq2 (v : R) : R := zev kW2 v / zev kB4 v.
Lemma kB2_val v : zev kB2 v = zev kB v * zev kB v.
Proof. apply zev_mul. Qed.
Lemma kB4_val v : zev kB4 v = zev kB2 v * zev kB2 v.
Proof. apply zev_mul. Qed.
Lemma kB2_pos v : 9 <= v -> 0 < zev kB2 v.
Proof. intros H. rewrite kB2_val. assert (P := kB_pos v H). nra. Qed.
Lemma kB4_pos v : 9 <= v -> 0 < zev kB4 v.
Proof. intros H. rewrite kB4_val. assert (P := kB2_pos v H). nra. Qed.
Lemma kq_derive v : 9 <= v -> is_derive kq v (kq1 v).
Proof.
  intros H. assert (P := kB_pos v H). unfold kq1. rewrite kB2_val.
  replace (zev kB v * zev kB v) with (zev kB v ^ 2) by ring. apply (rat_derive kA kB v). lra.
Qed.
Lemma kq1_derive v : 9 <= v -> is_derive kq1 v (kq2 v).
Proof.
  intros H. assert (P := kB2_pos v H). unfold kq2. rewrite kB4_val.
  replace (zev kB2 v * zev kB2 v) with (zev kB2 v ^ 2) by ring. apply (rat_derive kW kB2 v). lra.
Qed.
Lemma abs_frac n d k : 0 < d -> - (k * d) < n -> n < k * d -> Rabs (n / d) <= k.
Proof.
  intros Hd H1 H2. apply Rabs_le. split.
  - apply (Rmult_le_reg_r d); [exact Hd|]. replace (n / d * d) with n by (field; lra). lra.
  - apply (Rmult_le_reg_r d); [exact Hd|]. replace (n / d * d) with n by (field; lra). lra.
Qed.
Lemma kq_res v : 9 <= v -> Rabs (4 * v ^ 2 * kq2 v + kq v + v * (kq v - 1)) <= 56 / 1000000000.
Proof.
  intros H. assert (P := kB_pos v H). assert (P4 := kB4_pos v H).
  assert (C1 : 0 < zev (cR 1) v) by (apply pall_val; [exact cRp_chk|exact H]).
  assert (C2 : 0 < zev (cR (-1)) v) by (apply pall_val; [exact cRn_chk|exact H]).
  unfold cR in C1, C2. rewrite zev_sub, !zev_scale, mult_IZR in C1, C2. unfold e9 in *.
  assert (E : 4 * v ^ 2 * kq2 v + kq v + v * (kq v - 1) = zev kR v / zev kB4 v).
  { unfold kq, kq2, kR. rewrite zev_add, !zev_mul, zev_add, (zev_cons 0 (zsub kA kB)), zev_sub, kB4_val, kB2_val.
    replace (zev [0; 0; 4]%Z v) with (4 * v ^ 2) by (cbn [zev]; ring).
    set (a := zev kA v). set (b := zev kB v) in *. set (w := zev kW2 v). clearbody a b w. field. lra. }
  rewrite E. apply abs_frac; lra.
Qed.
Lemma kq_inf v : 9 <= v -> Rabs (kq v - 1) <= 2 / v.
Proof.
  intros H. assert (P := kB_pos v H).
  assert (C1 : 0 < zev (cI 1) v) by (apply pall_val; [exact cIp_chk|exact H]).
  assert (C2 : 0 < zev (cI (-1)) v) by (apply pall_val; [exact cIn_chk|exact H]).
  unfold cI in C1, C2. rewrite zev_sub, zev_cons, !zev_scale, zev_sub in C1, C2.
  unfold kq. set (a := zev kA v) in *. set (b := zev kB v) in *. clearbody a b.
  replace (a / b - 1) with ((v * (a - b)) / (v * b)) by (field; lra).
  assert (0 < v * b) by (apply Rmult_lt_0_compat; lra).
  apply abs_frac; [assumption| |]; replace (2 / v * (v * b)) with (2 * b) by (field; lra); lra.
Qed.
Lemma kq_inf1 v : 9 <= v -> Rabs (2 * kq1 v - kq v / v) <= 2 / v.
Proof.
  intros H. assert (P := kB_pos v H).
  assert (C1 : 0 < zev (cI1 1) v) by (apply pall_val; [exact cI1p_chk|exact H]).
  assert (C2 : 0 < zev (cI1 (-1)) v) by (apply pall_val; [exact cI1n_chk|exact H]).
  unfold cI1 in C1, C2. rewrite zev_sub, !zev_scale, zev_sub, zev_cons, zev_scale, zev_mul, kB2_val in C1, C2.
  unfold kq, kq1. rewrite kB2_val. set (a := zev kA v) in *. set (b := zev kB v) in *. set (w := zev kW v) in *. clearbody a b w.
  replace (2 * (w / (b * b)) - a / b / v) with ((v * (2 * w) - a * b) / (v * (b * b))) by (field; lra).
  assert (0 < b * b) by nra.
  assert (0 < v * (b * b)) by (apply Rmult_lt_0_compat; lra).
  apply abs_frac; [assumption| |]; replace (2 / v * (v * (b * b))) with (2 * (b * b)) by (field; lra); lra.
Qed.

(** Hence K0 and K1 through the rational function. *)
Lemma tail_small x T : 3 <= x -> 1 <= T -> exp (- (x * T)) * (sqrt (1 + T * T) / T) <= 1 / T.
Proof.
  intros Hx HT. assert (E : exp (- (x * T)) <= / (x * T)) by (apply exp_inv; nra).
  assert (S : sqrt (1 + T * T) <= 2 * T).
  { rewrite <- (sqrt_Rsqr (2 * T)) by lra. apply sqrt_le_1_alt. unfold Rsqr. nra. }
  assert (Q : sqrt (1 + T * T) / T <= 2).
  { apply (Rmult_le_reg_r T); [lra|]. replace (sqrt (1 + T * T) / T * T) with (sqrt (1 + T * T)) by (field; lra). exact S. }
  assert (Q0 : 0 <= sqrt (1 + T * T) / T) by (apply Rmult_le_pos; [left; apply s1_sqrt|left; apply Rinv_0_lt_compat; lra]).
  assert (P := exp_pos (- (x * T))).
  apply Rle_trans with (/ (x * T) * 2).
  - apply Rmult_le_compat; lra.
  - rewrite Rinv_mult. unfold Rdiv. assert (0 < / T) by (apply Rinv_0_lt_compat; lra).
    assert (/ x <= / 3) by (apply Rinv_le_contravar; lra). assert (0 < / x) by (apply Rinv_0_lt_compat; lra). nra.
Qed.
Lemma K_close x : 3 <= x ->
  Rabs (kq (x * x) / x - KL 0 x) <= 56 / 1000000000 / (x * x) /\
  Rabs (- (2 * kq1 (x * x) - kq (x * x) / (x * x)) - KL 1 x) <= 56 / 1000000000 / (x * x).
Proof.
  intros Hx.
  assert (B : forall T, 1 <= T ->
    (56 / 1000000000 / x + exp (- (x * T)) * (sqrt (1 + T * T) / T)) / x <= 56 / 1000000000 / (x * x) + 1 / T).
  { intros T HT. assert (S := tail_small x T Hx HT).
    replace (56 / 1000000000 / (x * x)) with (56 / 1000000000 / x / x) by (field; lra).
    set (t := exp (- (x * T)) * (sqrt (1 + T * T) / T)) in *. unfold Rdiv at 1. rewrite Rmult_plus_distr_r.
    apply Rplus_le_compat; [unfold Rdiv; lra|].
    assert (0 <= t).
    { unfold t. apply Rmult_le_pos; [left; apply exp_pos|]. apply Rmult_le_pos; [left; apply s1_sqrt|left; apply Rinv_0_lt_compat; lra]. }
    assert (/ x <= 1) by (rewrite <- Rinv_1; apply Rinv_le_contravar; lra). assert (0 < / x) by (apply Rinv_0_lt_compat; lra).
    apply Rle_trans with (t * 1); [apply Rmult_le_compat_l; lra|lra]. }
  assert (En := fun T HT => energy kq kq1 kq2 (56 / 1000000000) kq_derive kq1_derive ltac:(lra) kq_res kq_inf kq_inf1 T HT x Hx).
  split.
  - apply (lim_close (fun T => mom 0 T x) _ _ _ 1); [apply mom0_lim; lra|].
    intros T HT. destruct (En T ltac:(lra)) as [A _]. eapply Rle_trans; [exact A|apply B, HT].
  - apply (lim_close (fun T => mom 1 T x) _ _ _ 1); [apply mom1_lim; lra|].
    intros T HT. destruct (En T ltac:(lra)) as [_ A].
    replace (- (2 * kq1 (x * x) - kq (x * x) / (x * x)) - mom 1 T x) with (- (2 * kq1 (x * x) - kq (x * x) / (x * x) + mom 1 T x)) by ring.
    rewrite Rabs_Ropp. eapply Rle_trans; [exact A|apply B, HT].
Qed.

(** The quotients of the code. *)
Lemma s0_close x : 3 <= x -> Rabs (zev s0n (x * x) / zev s0d (x * x) - kq (x * x)) <= 129 / 10000000000 * x.
Proof.
  intros Hx. assert (V : 9 <= x * x) by nra. assert (P := kB_pos _ V). assert (P1 := s0d_pos _ V).
  assert (C : 0 < zev cS0 (x * x)) by (apply pall_val; [exact cS0_chk|exact V]).
  unfold cS0, s0D, s0E in C. rewrite zev_sub, zev_cons, !zev_scale, !zev_mul, zev_sub, !zev_mul in C.
  unfold kq. unfold e9 in C. rewrite ?mult_IZR in C.
  set (a := zev kA (x * x)) in *. set (b := zev kB (x * x)) in *. set (n := zev s0n (x * x)) in *. set (d := zev s0d (x * x)) in *.
  clearbody a b n d.
  assert (Db : 0 < d * b) by (apply Rmult_lt_0_compat; assumption).
  replace (n / d - a / b) with ((n * b - a * d) / (d * b)) by (field; lra).
  set (N := n * b - a * d) in *. set (D := d * b) in *. clearbody N D.
  unfold Rdiv. rewrite Rabs_mult, (Rabs_pos_eq (/ D)) by (left; apply Rinv_0_lt_compat; exact Db).
  apply (Rmult_le_reg_r D); [exact Db|]. rewrite Rmult_assoc, Rinv_l, Rmult_1_r by lra.
  rewrite <- (Rabs_pos_eq (129 * / 10000000000 * x * D)).
  2:{ apply Rmult_le_pos; [|lra]. lra. }
  apply Rsqr_le_abs_0. unfold Rsqr. nra.
Qed.
Lemma s1_close x : 3 <= x ->
  Rabs (zev s1n (x * x) / zev s1d (x * x) - (1 - 2 * kq1 (x * x) + kq (x * x) / (x * x))) <= 4 / 100000000.
Proof.
  intros Hx. assert (V : 9 <= x * x) by nra. set (v := x * x) in *. clearbody v. assert (P := kB_pos _ V). assert (P1 := s1d_pos _ V).
  assert (C1 : 0 < zev (cS1 1) v) by (apply pall_val; [exact cS1p_chk|exact V]).
  assert (C2 : 0 < zev (cS1 (-1)) v) by (apply pall_val; [exact cS1n_chk|exact V]).
  unfold cS1, s1D, s1E, e9 in C1, C2.
  rewrite !zev_sub, !zev_scale, zev_sub, !zev_mul, zev_add, !zev_cons, zev_sub, zev_scale, zev_mul, mult_IZR, kB2_val in C1, C2.
  unfold kq, kq1. rewrite kB2_val.
  set (a := zev kA v) in *. set (b := zev kB v) in *. set (n := zev s1n v) in *. set (d := zev s1d v) in *. set (w := zev kW v) in *.
  clearbody a b n d w.
  assert (Bb : 0 < b * b) by nra. assert (Vb : 0 < v * (b * b)) by (apply Rmult_lt_0_compat; lra).
  assert (Db : 0 < d * (v * (b * b))) by (apply Rmult_lt_0_compat; assumption).
  replace (n / d - (1 - 2 * (w / (b * b)) + a / b / v))
    with ((n * (v * (b * b)) - d * (v * (b * b - 2 * w) + a * b)) / (d * (v * (b * b)))) by (field; lra).
  apply abs_frac; [exact Db| |]; lra.
Qed.
