(** The Struve approximations on [0,3]. *)
From Coq Require Import ZArith Reals Lra Lia Bool List.
From Coquelicot Require Import Coquelicot.
From Verif Require Import Outcome Num NumFun M_Special S_Special S_Struve L_Poly L_PolyWin L_Special L_Basics2 L_Bessel L_StruveK L_StruveY.
Import ListNotations.
Open Scope R_scope.

(** ** Wallis integrals *)
Fixpoint wal (k : nat) : R := match k with O => 1 | S k' => wal k' * (2 * INR k' + 2) / (2 * INR k' + 3) end.
Lemma ex_cosp k a b : ex_RInt (fun t => cos t ^ k) a b.
Proof. apply cont_ex_RInt. intros t. dcont. Qed.
Lemma wal_step k : (2 * INR k + 3) * RInt (fun t => cos t ^ (2 * k + 3)) 0 (PI / 2) = (2 * INR k + 2) * RInt (fun t => cos t ^ (2 * k + 1)) 0 (PI / 2).
Proof.
  assert (D : is_RInt (fun t => (2 * INR k + 3) * cos t ^ (2 * k + 3) - (2 * INR k + 2) * cos t ^ (2 * k + 1)) 0 (PI / 2)
     (minus (sin (PI / 2) * cos (PI / 2) ^ (2 * k + 2)) (sin 0 * cos 0 ^ (2 * k + 2)))).
  { apply (is_RInt_derive (fun t => sin t * cos t ^ (2 * k + 2))).
    - intros t _. auto_derive; [exact I|].
      replace (k + (k + 0) + 2)%nat with (S (2 * k + 1)) by lia.
      replace (2 * k + 3)%nat with (S (S (2 * k + 1))) by lia.
      cbn [Init.Nat.pred]. rewrite S_INR, plus_INR, mult_INR. rewrite <- !tech_pow_Rmult. set (c := cos t ^ (2 * k + 1)). cbn [INR].
      assert (E := sin2_cos2 t). unfold Rsqr in E.
      transitivity (cos t * cos t * c - (2 * INR k + 2) * c * (sin t * sin t)); [ring|].
      replace (sin t * sin t) with (1 - cos t * cos t) by lra. ring.
    - intros t _. dcont. }
  apply (is_RInt_unique (V := R_CompleteNormedModule)) in D.
  rewrite RI_minus in D by (apply ex_scal, ex_cosp). rewrite !RI_scal in D by apply ex_cosp.
  rewrite (minusR (sin (PI / 2) * cos (PI / 2) ^ (2 * k + 2))), cos_PI2, sin_0, pow_i in D by lia. lra.
Qed.
Lemma wal_val k : RInt (fun t => cos t ^ (2 * k + 1)) 0 (PI / 2) = wal k.
Proof.
  induction k as [|k IH].
  - assert (D : is_RInt (fun t => cos t ^ (2 * 0 + 1)) 0 (PI / 2) (minus (sin (PI / 2)) (sin 0))).
    { apply (is_RInt_derive sin).
      - intros t _. auto_derive; [exact I|]. cbn. ring.
      - intros t _. dcont. }
    apply (is_RInt_unique (V := R_CompleteNormedModule)) in D. rewrite D, minusR, sin_PI2, sin_0. cbn. rq. ring.
  - cbn [wal]. rewrite <- IH. assert (W := wal_step k). replace (2 * S k + 1)%nat with (2 * k + 3)%nat by lia.
    assert (P := pos_INR k). apply (Rmult_eq_reg_l (2 * INR k + 3)); [|lra]. rewrite W. rq. field. lra.
Qed.
(** Coefficients of the power series. *)
Fixpoint sc (k : nat) : R := match k with O => 1 | S k' => sc k' / (2 * INR k' + 3) ^ 2 end.
Lemma sc_val k : wal k / INR (fact (2 * k + 1)) = sc k.
Proof.
  induction k as [|k IH]; [cbn; field|]. cbn [sc]. rewrite <- IH. cbn [wal].
  replace (2 * S k + 1)%nat with (S (S (2 * k + 1))) by lia.
  rewrite !fact_simpl, !mult_INR, !S_INR, plus_INR, mult_INR. cbn [INR].
  assert (F := INR_fact_neq_0 (2 * k + 1)). assert (P := pos_INR k). field. repeat split; lra || exact F.
Qed.

(** ** Integrated Taylor polynomials of the sine *)
Fixpoint t0 (x : R) (n : nat) : R := match n with O => x * sc 0 | S n' => t0 x n' + (-1) ^ n * x ^ (2 * n + 1) * sc n end.
Fixpoint t1 (x : R) (n : nat) : R := match n with O => x * sc 0 / 3 | S n' => t1 x n' + (-1) ^ n * x ^ (2 * n + 1) * sc n / (2 * INR n + 3) end.
Lemma ex_sa x n a b : ex_RInt (fun t => sin_approx (x * cos t) n) a b.
Proof.
  apply cont_ex_RInt. intros t. unfold sin_approx. induction n as [|n IH].
  - apply (continuous_ext (fun t => sin_term (x * cos t) 0)); [reflexivity|]. unfold sin_term. dcont.
  - apply (continuous_ext (fun t => plus (sum_f_R0 (sin_term (x * cos t)) n) (sin_term (x * cos t) (S n)))); [reflexivity|].
    apply (continuous_plus (K := R_AbsRing) (V := R_NormedModule)); [exact IH|]. unfold sin_term. dcont.
Qed.
Lemma ex_sa2 x n a b : ex_RInt (fun t => sin_approx (x * cos t) n * sin t ^ 2) a b.
Proof.
  apply cont_ex_RInt. intros t. unfold sin_approx.
  apply (continuous_mult (K := R_AbsRing) (fun t => sum_f_R0 (sin_term (x * cos t)) n) (fun t => sin t ^ 2)); [|dcont].
  induction n as [|n IH].
  - apply (continuous_ext (fun t => sin_term (x * cos t) 0)); [reflexivity|]. unfold sin_term. dcont.
  - apply (continuous_ext (fun t => plus (sum_f_R0 (sin_term (x * cos t)) n) (sin_term (x * cos t) (S n)))); [reflexivity|].
    apply (continuous_plus (K := R_AbsRing) (V := R_NormedModule)); [exact IH|]. unfold sin_term. dcont.
Qed.
Lemma term_int x n : RInt (fun t => sin_term (x * cos t) n) 0 (PI / 2) = (-1) ^ n * x ^ (2 * n + 1) * sc n.
Proof.
  rewrite (RI_ext _ (fun t => ((-1) ^ n * x ^ (2 * n + 1) / INR (fact (2 * n + 1))) * cos t ^ (2 * n + 1))).
  - rewrite RI_scal by apply ex_cosp. rewrite wal_val, <- sc_val. rq. field. apply INR_fact_neq_0.
  - intros t. unfold sin_term. rewrite Rpow_mult_distr. field. apply INR_fact_neq_0.
Qed.
Lemma term_int2 x n : RInt (fun t => sin_term (x * cos t) n * sin t ^ 2) 0 (PI / 2) = (-1) ^ n * x ^ (2 * n + 1) * sc n / (2 * INR n + 3).
Proof.
  rewrite (RI_ext _ (fun t => ((-1) ^ n * x ^ (2 * n + 1) / INR (fact (2 * n + 1))) * (cos t ^ (2 * n + 1) - cos t ^ (2 * n + 3)))).
  - rewrite RI_scal by (apply (ex_minus (fun t => cos t ^ (2 * n + 1)) (fun t => cos t ^ (2 * n + 3))); apply ex_cosp).
    rewrite RI_minus by apply ex_cosp. replace (2 * n + 3)%nat with (2 * S n + 1)%nat by lia. rewrite !wal_val, <- sc_val. cbn [wal].
    rq. assert (F := INR_fact_neq_0 (2 * n + 1)). assert (P := pos_INR n). field. split; (exact F || lra).
  - intros t. unfold sin_term. rewrite Rpow_mult_distr. replace (2 * n + 3)%nat with (S (S (2 * n + 1))) by lia.
    rewrite <- !tech_pow_Rmult. assert (E := sin2_cos2 t). unfold Rsqr in E.
    replace (sin t * (sin t * sin t ^ 0)) with (1 - cos t * cos t) by (cbn; lra). assert (F := INR_fact_neq_0 (2 * n + 1)).
    set (f := INR _) in *. set (c := cos t ^ (2 * n + 1)). set (y := x ^ (2 * n + 1)). clearbody f c y.
    field. exact F.
Qed.
Lemma ex_term x n a b : ex_RInt (fun t => sin_term (x * cos t) n) a b.
Proof. apply cont_ex_RInt. intros t. unfold sin_term. dcont. Qed.
Lemma ex_term2 x n a b : ex_RInt (fun t => sin_term (x * cos t) n * sin t ^ 2) a b.
Proof. apply cont_ex_RInt. intros t. unfold sin_term. dcont. Qed.
Lemma t0_val x n : RInt (fun t => sin_approx (x * cos t) n) 0 (PI / 2) = t0 x n.
Proof.
  induction n as [|n IH].
  - rewrite (RI_ext _ (fun t => sin_term (x * cos t) 0)) by reflexivity. rewrite term_int. cbn. rq. ring.
  - rewrite (RI_ext _ (fun t => sin_approx (x * cos t) n + sin_term (x * cos t) (S n))) by reflexivity.
    rewrite RI_plus; [|apply ex_sa|apply ex_term]. rewrite IH, term_int. reflexivity.
Qed.
Lemma t1_val x n : RInt (fun t => sin_approx (x * cos t) n * sin t ^ 2) 0 (PI / 2) = t1 x n.
Proof.
  induction n as [|n IH].
  - rewrite (RI_ext _ (fun t => sin_term (x * cos t) 0 * sin t ^ 2)) by reflexivity. rewrite term_int2. cbn [t1 sc INR pow Nat.mul Nat.add]. rq. field.
  - rewrite (RI_ext _ (fun t => sin_approx (x * cos t) n * sin t ^ 2 + sin_term (x * cos t) (S n) * sin t ^ 2)).
    + rewrite RI_plus; [|apply ex_sa2|apply ex_term2]. rewrite IH, term_int2. reflexivity.
    + intros t. unfold sin_approx. cbn [sum_f_R0]. ring.
Qed.

Definition h0 (x : R) : R := RInt (fun t => sin (x * cos t)) 0 (PI / 2).
Lemma arg_range x t : 0 <= x <= 3 -> 0 < t < PI / 2 -> 0 <= x * cos t <= PI.
Proof.
  intros Hx Ht. assert (P := PI2_3_2). assert (C : 0 <= cos t) by (apply cos_ge_0; lra). assert (C1 := COS_bound t). split; nra.
Qed.
Lemma h0_bounds x : 0 <= x <= 3 -> t0 x 11 <= h0 x <= t0 x 12 /\ 0 <= h0 x.
Proof.
  intros Hx. assert (P := PI_RGT_0). unfold h0. rewrite <- !t0_val.
  assert (Es : ex_RInt (fun t => sin (x * cos t)) 0 (PI / 2)) by (apply cont_ex_RInt; intros; dcont).
  repeat split.
  - apply RInt_le; [lra|apply ex_sa|exact Es|]. intros t Ht. destruct (arg_range x t Hx Ht) as [A B]. apply (sin_bound (x * cos t) 5 A B).
  - apply RInt_le; [lra|exact Es|apply ex_sa|]. intros t Ht. destruct (arg_range x t Hx Ht) as [A B]. apply (sin_bound (x * cos t) 5 A B).
  - apply RInt_ge_0; [lra|exact Es|]. intros t Ht. destruct (arg_range x t Hx Ht) as [A B]. apply sin_ge_0; assumption.
Qed.
Lemma ss_bounds x : 0 <= x <= 3 -> t1 x 11 <= ss x <= t1 x 12 /\ 0 <= ss x.
Proof.
  intros Hx. assert (P := PI_RGT_0). unfold ss. rewrite <- !t1_val. assert (Es := ex_ss x 0 (PI / 2)).
  repeat split.
  - apply RInt_le; [lra|apply ex_sa2|exact Es|]. intros t Ht. destruct (arg_range x t Hx Ht) as [A B].
    apply Rmult_le_compat_r; [apply pow2_ge_0|]. apply (sin_bound (x * cos t) 5 A B).
  - apply RInt_le; [lra|exact Es|apply ex_sa2|]. intros t Ht. destruct (arg_range x t Hx Ht) as [A B].
    apply Rmult_le_compat_r; [apply pow2_ge_0|]. apply (sin_bound (x * cos t) 5 A B).
  - apply RInt_ge_0; [lra|exact Es|]. intros t Ht. destruct (arg_range x t Hx Ht) as [A B].
    apply Rmult_le_pos; [apply sin_ge_0; assumption|apply pow2_ge_0].
Qed.

(** ** Integer polynomials *)
Definition t0lo : list Z := [0; 62502520838281133375390625; 0; (-6944724537586792597265625); 0; 277788981503471703890625; 0; (-5669162887825953140625); 0; 69989665281801890625; 0; (-578426985800015625); 0; 3422644886390625; 0; (-15211755050625); 0; 52635830625; 0; (-145805625); 0; 330625; 0; (-625)]%Z.
Definition t0hi : list Z := [0; 62502520838281133375390625; 0; (-6944724537586792597265625); 0; 277788981503471703890625; 0; (-5669162887825953140625); 0; 69989665281801890625; 0; (-578426985800015625); 0; 3422644886390625; 0; (-15211755050625); 0; 52635830625; 0; (-145805625); 0; 330625; 0; (-625); 0; 1]%Z.
Definition t0den : Z := 62502520838281133375390625%Z.
Definition t1lo : list Z := [0; 0; 104579000670352079336765114267578125; 0; (-6971933378023471955784340951171875); 0; 199198096514956341593838312890625; 0; (-3161874547856449866568862109375); 0; 31938126746024746126958203125; 0; (-223343543678494728160546875); 0; 1145351506043562708515625; 0; (-4491574533504167484375); 0; 13905803509300828125; 0; (-34851637867921875); 0; 72156600140625; 0; (-125489739375)]%Z.
Definition t1hi : list Z := [0; 0; 104579000670352079336765114267578125; 0; (-6971933378023471955784340951171875); 0; 199198096514956341593838312890625; 0; (-3161874547856449866568862109375); 0; 31938126746024746126958203125; 0; (-223343543678494728160546875); 0; 1145351506043562708515625; 0; (-4491574533504167484375); 0; 13905803509300828125; 0; (-34851637867921875); 0; 72156600140625; 0; (-125489739375); 0; 185910725]%Z.
Definition t1den : Z := 313737002011056238010295342802734375%Z.
(** The polynomials of the code, times 3^12 10^9. *)
Definition c0 : list Z := [0; 338325821325108; 0; (-37591675984683); 0; 1503594511119; 0; (-30657987351); 0; 373377951; 0; (-2630754)]%Z.
Definition c1 : list Z := [0; 0; 112775280979014; 0; (-7518346431993); 0; 214804922382; 0; (-3407711148); 0; 34071543; 0; (-207183)]%Z.

(** ** 2/pi *)
Lemma two_pi_bounds : 63661977236 / 100000000000 <= 2 / PI <= 63661977237 / 100000000000.
Proof.
  assert (H := PI_2_3_7_ineq 6). unfold tg_alt, PI_2_3_7_tg, Ratan_seq in H.
  cbn [Nat.mul Nat.add sum_f_R0] in H. rewrite !INR_IZR_INZ in H. cbn [Z.of_nat Pos.of_succ_nat Pos.succ pow] in H.
  assert (P := PI_RGT_0).
  assert (B2 : 3141592653588 / 1000000000000 <= PI <= 3141592653591 / 1000000000000) by lra. clear H.
  split; apply (Rmult_le_reg_r PI); try lra; replace (2 / PI * PI) with 2 by (field; lra); lra.
Qed.

Ltac ser := cbn [t0 t1 sc INR Nat.mul Nat.add]; cbn [zev]; cbn [pow];
  match goal with |- ?a = ?b => field end.
Lemma t0lo_val x : t0 x 11 = zev t0lo x / IZR t0den.
Proof. unfold t0lo, t0den. ser. Qed.
Lemma t0hi_val x : t0 x 12 = zev t0hi x / IZR t0den.
Proof. unfold t0hi, t0den. ser. Qed.
Lemma t1lo_val x : x * t1 x 11 = zev t1lo x / IZR t1den.
Proof. unfold t1lo, t1den. ser. Qed.
Lemma t1hi_val x : x * t1 x 12 = zev t1hi x / IZR t1den.
Proof. unfold t1hi, t1den. ser. Qed.

Definition u9 : Z := 531441000000000%Z.
Definition e11 : Z := 100000000000%Z.
(** Error at most e/10^11. *)
Definition up (e : Z) (hi : list Z) (den : Z) (c : list Z) : list Z :=
  zadd (zscale (den * u9) [e]) (zsub (zscale (den * e11) c) (zscale (63661977237 * u9) hi)).
Definition dn (e : Z) (lo : list Z) (den : Z) (c : list Z) : list Z :=
  zadd (zscale (den * u9) [e]) (zsub (zscale (63661977236 * u9) lo) (zscale (den * e11) c)).
Definition on3 (c : list Z) : bool := zwins 130 110 0 1 (map Z.of_nat (seq 2 35)) 12 c.
Lemma on3_val c x : on3 c = true -> 0 <= x <= 3 -> 0 < zev c x.
Proof. intros H Hx. apply (zwins_val _ _ _ _ _ _ _ x H). cbn [last map seq Z.of_nat Pos.of_succ_nat Pos.succ]. lra. Qed.
Lemma small_checks : on3 (up 1250 t0hi t0den c0) = true /\ on3 (dn 1250 t0lo t0den c0) = true /\
  on3 (up 250 t1hi t1den c1) = true /\ on3 (dn 250 t1lo t1den c1) = true.
Proof. vm_compute. repeat split. Qed.

Lemma abs_mid p A B S L H e : 0 <= S -> A <= 2 / PI <= B -> L <= S <= H -> 0 <= A -> p - A * L < e -> B * H - p < e -> Rabs (p - 2 / PI * S) <= e.
Proof.
  intros HS HA HL A0 H1 H2.
  assert (A * L <= 2 / PI * S).
  { apply Rle_trans with (A * S); [apply Rmult_le_compat_l; lra|apply Rmult_le_compat_r; lra]. }
  assert (2 / PI * S <= B * H) by (apply Rmult_le_compat; lra).
  apply Rabs_le. lra.
Qed.
Lemma small0 x : 0 <= x <= 3 -> Rabs (zev c0 x / IZR u9 - StruveH0 x) <= 125 / 10000000000.
Proof.
  intros Hx. unfold StruveH0. fold (h0 x). destruct (h0_bounds x Hx) as [[HL HU] H0]. rewrite t0lo_val in HL. rewrite t0hi_val in HU. assert (HB := conj HL HU).
  destruct small_checks as [K1 [K2 _]]. assert (C1 := on3_val _ x K1 Hx). assert (C2 := on3_val _ x K2 Hx). clear K1 K2.
  unfold up in C1. unfold dn in C2. rewrite zev_add, zev_sub, !zev_scale, !mult_IZR in C1, C2.
  set (p := zev c0 x) in *. set (lo := zev t0lo x) in *. set (hi := zev t0hi x) in *. clearbody p lo hi. cbn [zev] in C1, C2.
  apply (abs_mid _ _ _ _ (lo / IZR t0den) (hi / IZR t0den) _ H0 two_pi_bounds HB); unfold u9, t0den, e11 in *; lra.
Qed.
Lemma small1 x : 0 <= x <= 3 -> Rabs (zev c1 x / IZR u9 - StruveH1 x) <= 25 / 10000000000.
Proof.
  intros Hx. unfold StruveH1. fold (ss x). destruct (ss_bounds x Hx) as [HB H0].
  replace (2 * x / PI * ss x) with (2 / PI * (x * ss x)) by (unfold Rdiv; ring).
  assert (HB' : zev t1lo x / IZR t1den <= x * ss x <= zev t1hi x / IZR t1den).
  { destruct HB as [HL HU]. split; [rewrite <- t1lo_val|rewrite <- t1hi_val]; (apply Rmult_le_compat_l; [lra|assumption]). }
  assert (H0' : 0 <= x * ss x) by (apply Rmult_le_pos; lra).
  destruct small_checks as [_ [_ [K1 K2]]]. assert (C1 := on3_val _ x K1 Hx). assert (C2 := on3_val _ x K2 Hx). clear K1 K2.
  unfold up in C1. unfold dn in C2. rewrite zev_add, zev_sub, !zev_scale, !mult_IZR in C1, C2.
  set (p := zev c1 x) in *. set (lo := zev t1lo x) in *. set (hi := zev t1hi x) in *. clearbody p lo hi. cbn [zev] in C1, C2.
  apply (abs_mid _ _ _ _ (lo / IZR t1den) (hi / IZR t1den) _ H0' two_pi_bounds HB'); unfold u9, t1den, e11 in *; lra.
Qed.
