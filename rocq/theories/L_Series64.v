(** Horner's scheme in binary64. *)
From Coq Require Import List Arith ZArith Reals Bool Lia Lra Psatz.
From Flocq Require Import Core.Core IEEE754.BinarySingleNaN.
From Verif Require Import Outcome Num NumFun F64 L_F64 L_Linspace64 L_F64Err M_Series S_Series L_Series S_Angles S_Double.
Import ListNotations.
Local Open Scope R_scope.

Lemma uround_u53 : uround = u53.
Proof. reflexivity. Qed.
Lemma uflow_eta : uflow = eta64.
Proof.
  unfold uflow, eta64. rewrite <- (bpow_powerRZ radix2). change (-1075)%Z with (-1 + -1074)%Z.
  rewrite bpow_plus. f_equal.
Qed.

(** The loop over an arbitrary supply of coefficients. *)
Fixpoint hloop (d : nat -> f64) (x : f64) (k : nat) (r : f64) : f64 :=
  match k with O => r | S k' => hloop d x k' (Bplus mode_NE (Bmult mode_NE r x) (d k')) end.

Lemma horner_loop_h c x k r : (k <= length c)%nat ->
  horner_loop c x k r = Ok (hloop (fun i => nth i c (f64_ofZ 0)) x k r).
Proof.
  revert r. induction k as [|k IH]; intros r H; cbn [horner_loop hloop]; auto.
  rewrite (vat_lt _ _ (f64_ofZ 0)) by lia. cbn [bind]. apply IH. lia.
Qed.
Lemma horner_deriv_loop_h c x k r : (k < length c)%nat ->
  horner_deriv_loop c x k r =
  Ok (hloop (fun i => Bmult mode_NE (f64_ofZ (Z.of_nat (S i))) (nth (S i) c (f64_ofZ 0))) x k r).
Proof.
  revert r. induction k as [|k IH]; intros r H; cbn [horner_deriv_loop hloop]; auto.
  rewrite (vat_lt _ _ (f64_ofZ 0)) by lia. cbn [bind]. apply IH. lia.
Qed.

Lemma hloop_finite d x k : forall r, is_finite (hloop d x k r) = true ->
  is_finite r = true /\ (forall i, (i < k)%nat -> is_finite (d i) = true) /\ ((0 < k)%nat -> is_finite x = true).
Proof.
  induction k as [|k IH]; intros r H; cbn [hloop] in H.
  - split; [auto|]. split; intros; lia.
  - destruct (IH _ H) as (H1 & H2 & H3). destruct (fin_plus _ _ H1) as (H4 & H5 & _).
    destruct (fin_mult _ _ H4) as (H6 & H7 & _). split; [auto|]. split; [|auto].
    intros i Hi. destruct (Nat.eq_dec i k) as [->|]; auto. apply H2. lia.
Qed.

Lemma pow_1u n : 1 <= (1 + u53) ^ n.
Proof. apply pow_R1_Rle. assert (H := u53_pos). lra. Qed.

Lemma bsum_nonneg n f : (forall i, (i < n)%nat -> 0 <= f i) -> 0 <= bsum n f.
Proof. induction n as [|n IH]; intros H; simpl; [lra|]. assert (0 <= bsum n f) by auto. assert (0 <= f n) by auto. lra. Qed.
Lemma bsum_le n f g : (forall i, (i < n)%nat -> f i <= g i) -> bsum n f <= bsum n g.
Proof. induction n as [|n IH]; intros H; simpl; [lra|]. assert (bsum n f <= bsum n g) by auto. assert (f n <= g n) by auto. lra. Qed.

(** One step. *)
Lemma step_err (r x c : f64) : is_finite (Bplus mode_NE (Bmult mode_NE r x) c) = true ->
  Rabs (val (Bplus mode_NE (Bmult mode_NE r x) c) - (val r * val x + val c)) <=
  ((1 + u53) ^ 2 - 1) * (Rabs (val r) * Rabs (val x) + Rabs (val c)) + (1 + u53) * eta64.
Proof.
  intros F. assert (E := plus_err _ _ F). destruct (fin_plus _ _ F) as (F1 & _ & _).
  assert (E1 := mult_err _ _ F1). rewrite Rabs_mult in E1.
  set (p := val (Bmult mode_NE r x)) in *. set (v := val (Bplus mode_NE (Bmult mode_NE r x) c)) in *.
  set (m := val r * val x) in *. set (a := Rabs (val r) * Rabs (val x)) in *.
  assert (Hm : Rabs m = a) by (unfold m, a; apply Rabs_mult).
  assert (U := u53_pos). assert (Q := eta64_pos).
  assert (T1 : Rabs (v - (m + val c)) <= Rabs (v - (p + val c)) + Rabs (p - m)).
  { replace (v - (m + val c)) with ((v - (p + val c)) + (p - m)) by ring. apply Rabs_triang. }
  assert (T2 : Rabs (p + val c) <= Rabs (p - m) + a + Rabs (val c)).
  { replace (p + val c) with ((p - m) + m + val c) by ring.
    eapply Rle_trans; [apply Rabs_triang|]. rewrite <- Hm. apply Rplus_le_compat_r, Rabs_triang. }
  assert (C := Rabs_pos (val c)).
  assert (u53 * Rabs (p + val c) <= u53 * (Rabs (p - m) + a + Rabs (val c))) by (apply Rmult_le_compat_l; lra).
  assert (u53 * Rabs (p - m) <= u53 * (u53 * a + eta64)) by (apply Rmult_le_compat_l; lra).
  assert (0 <= u53 * u53 * Rabs (val c)) by (apply Rmult_le_pos; [nra|auto]).
  assert (0 <= u53 * Rabs (val c)) by (apply Rmult_le_pos; lra).
  simpl. lra.
Qed.

Lemma hloop_err d x k : forall r, is_finite (hloop d x k r) = true ->
  Rabs (val (hloop d x k r) - (val r * val x ^ k + bsum k (fun i => val (d i) * val x ^ i))) <=
  ((1 + u53) ^ (2 * k) - 1) * (Rabs (val r) * Rabs (val x) ^ k + bsum k (fun i => Rabs (val (d i)) * Rabs (val x) ^ i)) +
  (1 + u53) ^ (2 * k) * eta64 * bsum k (fun i => Rabs (val x) ^ i).
Proof.
  induction k as [|k IH]; intros r H; cbn [hloop bsum] in *.
  - simpl. rewrite Rmult_1_r, Rminus_diag_eq by ring. rewrite Rabs_R0. lra.
  - set (r' := Bplus mode_NE (Bmult mode_NE r x) (d k)) in *.
    assert (E := IH r' H). destruct (hloop_finite _ _ _ _ H) as (F & _ & _).
    assert (S := step_err r x (d k) F). fold r' in S.
    set (v := val (hloop d x k r')) in *.
    set (B := bsum k (fun i => val (d i) * val x ^ i)) in *.
    set (Ba := bsum k (fun i => Rabs (val (d i)) * Rabs (val x) ^ i)) in *.
    set (Bx := bsum k (fun i => Rabs (val x) ^ i)) in *.
    replace (2 * Datatypes.S k)%nat with (2 * k + 2)%nat by lia. rewrite pow_add.
    set (G := (1 + u53) ^ (2 * k)) in *. assert (HG : 1 <= G) by apply pow_1u.
    set (g := (1 + u53) ^ 2 - 1) in *. assert (U := u53_pos). assert (Q := eta64_pos).
    assert (Hg : 0 <= g) by (unfold g; simpl; nra).
    replace ((1 + u53) ^ 2) with (1 + g) by (unfold g; ring).
    assert (X : 0 <= Rabs (val x) ^ k) by (apply pow_le, Rabs_pos).
    assert (HBa : 0 <= Ba) by (apply bsum_nonneg; intros; apply Rmult_le_pos; [apply Rabs_pos|apply pow_le, Rabs_pos]).
    assert (HBx : 0 <= Bx) by (apply bsum_nonneg; intros; apply pow_le, Rabs_pos).
    set (rx := Rabs (val r) * Rabs (val x)) in *.
    assert (Hrx : 0 <= rx) by (apply Rmult_le_pos; apply Rabs_pos).
    set (dl := Rabs (val r' - (val r * val x + val (d k)))) in *.
    set (Xk := Rabs (val x) ^ k) in *.
    assert (A0 : 0 <= Rabs (val (d k))) by apply Rabs_pos.
    (* the exact values *)
    assert (T1 : Rabs (v - (val r * val x ^ Datatypes.S k + (B + val (d k) * val x ^ k))) <=
      Rabs (v - (val r' * val x ^ k + B)) + dl * Xk).
    { replace (v - (val r * val x ^ Datatypes.S k + (B + val (d k) * val x ^ k))) with
        ((v - (val r' * val x ^ k + B)) + (val r' - (val r * val x + val (d k))) * val x ^ k) by (cbn [pow]; ring).
      eapply Rle_trans; [apply Rabs_triang|]. rewrite Rabs_mult, <- RPow_abs. apply Rle_refl. }
    assert (T2 : Rabs (val r') <= dl + rx + Rabs (val (d k))).
    { replace (val r') with ((val r' - (val r * val x + val (d k))) + val r * val x + val (d k)) by ring.
      eapply Rle_trans; [apply Rabs_triang|]. apply Rplus_le_compat_r.
      eapply Rle_trans; [apply Rabs_triang|]. apply Rplus_le_compat_l. rewrite Rabs_mult. apply Rle_refl. }
    set (s := rx + Rabs (val (d k))) in *.
    replace (Rabs (val r) * Rabs (val x) ^ Datatypes.S k + (Ba + Rabs (val (d k)) * Xk)) with (s * Xk + Ba)
      by (unfold s, rx, Xk; cbn [pow]; ring).
    assert (T3 : Rabs (val r') * Xk <= (dl + s) * Xk) by (apply Rmult_le_compat_r; unfold s; lra).
    assert (T4 : dl * Xk <= (g * s + (1 + u53) * eta64) * Xk) by (apply Rmult_le_compat_r; auto).
    assert (T5 : (G - 1) * (Rabs (val r') * Xk + Ba) <= (G - 1) * ((dl + s) * Xk + Ba)) by (apply Rmult_le_compat_l; lra).
    assert (T6 : G * (dl * Xk) <= G * ((g * s + (1 + u53) * eta64) * Xk)) by (apply Rmult_le_compat_l; lra).
    assert (T7 : G * ((1 + u53) * eta64 * Xk) <= G * ((1 + g) * eta64 * Xk)).
    { apply Rmult_le_compat_l; [lra|]. apply Rmult_le_compat_r; [auto|]. apply Rmult_le_compat_r; [lra|]. unfold g. simpl. nra. }
    assert (T8 : 0 <= G * g * Ba) by (apply Rmult_le_pos; [apply Rmult_le_pos; lra|auto]).
    assert (T9 : 0 <= G * g * (eta64 * Bx)) by (apply Rmult_le_pos; [apply Rmult_le_pos; lra|apply Rmult_le_pos; lra]).
    eapply Rle_trans; [exact T1|]. eapply Rle_trans; [apply Rplus_le_compat_r; exact E|]. lra.
Qed.

Lemma nth_map_val l i : nth i (dvalues l) 0 = val (nth i l (f64_ofZ 0)).
Proof. change 0 with (dvalue (f64_ofZ 0)). apply (map_nth dvalue). Qed.
Lemma nth_map_abs l i : nth i (map Rabs l) 0 = Rabs (nth i l 0).
Proof. rewrite <- Rabs_R0 at 1. apply map_nth. Qed.


Lemma horner_double_lemma : forall (c : list f64) (x : f64), c <> [] ->
  exists v, horner c x = Ok v /\
    (is_finite v = true -> all_finite c /\
     Rabs (dvalue v - poly (dvalues c) (dvalue x)) <=
       ((1 + uround) ^ (2 * (length c - 1)) - 1) * poly_abs (dvalues c) (dvalue x) +
       (1 + uround) ^ (2 * (length c - 1)) * uflow * bsum (length c - 1) (fun i => Rabs (dvalue x) ^ i)).
Proof.
  intros c x Hc. rewrite uround_u53, uflow_eta.
  destruct c as [|c0 c']; [congruence|]. set (c := c0 :: c') in *. set (n := length c').
  assert (Hn : (length c - 1)%nat = n) by (unfold c, n; simpl; lia).
  assert (Hl : length c = S n) by reflexivity.
  unfold horner. rewrite Hn, (vat_lt _ _ (f64_ofZ 0)) by lia. cbn [bind].
  rewrite horner_loop_h by lia. eexists. split; [reflexivity|]. intros F. split.
  - apply Forall_forall. intros a Ha. destruct (In_nth _ _ (f64_ofZ 0) Ha) as (i & Hi & <-).
    destruct (hloop_finite _ _ _ _ F) as (H1 & H2 & _). rewrite Hl in Hi.
    destruct (Nat.eq_dec i n) as [->|]; auto. apply H2. lia.
  - assert (E := hloop_err _ _ _ _ F). fold (dvalue x) in *.
    unfold poly_abs, poly. rewrite map_length. unfold dvalues at 1 3. rewrite !map_length, Hl. cbn [bsum].
    rewrite nth_map_abs, nth_map_val.
    rewrite (bsum_ext n (fun i => nth i (map Rabs (dvalues c)) 0 * _) (fun i => Rabs (val (nth i c (f64_ofZ 0))) * Rabs (dvalue x) ^ i))
      by (intros; rewrite nth_map_abs, nth_map_val; reflexivity).
    rewrite (bsum_ext n (fun i => nth i (dvalues c) 0 * _) (fun i => val (nth i c (f64_ofZ 0)) * (dvalue x) ^ i))
      by (intros; rewrite nth_map_val; reflexivity).
    unfold dvalue in *. rewrite (Rplus_comm (bsum n (fun i => Rabs _ * _))), (Rplus_comm (bsum n (fun i => val _ * _))). exact E.
Qed.

(** ** The derivative *)
Lemma pow_1u_mono a b : (a <= b)%nat -> (1 + u53) ^ a <= (1 + u53) ^ b.
Proof. intros H. apply Rle_pow; auto. assert (Hu := u53_pos). lra. Qed.

Lemma bsum_abs_diff n f g (w : R) x : (forall i, (i < n)%nat -> Rabs (f i - g i) <= w * Rabs (g i) + eta64) ->
  0 <= w ->
  Rabs (bsum n (fun i => f i * x ^ i) - bsum n (fun i => g i * x ^ i)) <=
  w * bsum n (fun i => Rabs (g i) * Rabs x ^ i) + eta64 * bsum n (fun i => Rabs x ^ i) /\
  bsum n (fun i => Rabs (f i) * Rabs x ^ i) <=
  (1 + w) * bsum n (fun i => Rabs (g i) * Rabs x ^ i) + eta64 * bsum n (fun i => Rabs x ^ i).
Proof.
  intros H Hw. induction n as [|n IH]; cbn [bsum].
  - rewrite Rminus_0_r, Rabs_R0. lra.
  - destruct IH as [I1 I2]; [intros; apply H; lia|]. assert (Hn := H n ltac:(lia)).
    assert (X : 0 <= Rabs x ^ n) by (apply pow_le, Rabs_pos).
    assert (M : Rabs (f n - g n) * Rabs x ^ n <= (w * Rabs (g n) + eta64) * Rabs x ^ n) by (apply Rmult_le_compat_r; auto).
    split.
    + match goal with |- Rabs (?a + ?b - (?c + ?d)) <= _ => replace (a + b - (c + d)) with ((a - c) + (f n - g n) * x ^ n) by ring end.
      eapply Rle_trans; [apply Rabs_triang|]. rewrite Rabs_mult, <- RPow_abs. lra.
    + assert (T : Rabs (f n) <= Rabs (f n - g n) + Rabs (g n)).
      { replace (f n) with ((f n - g n) + g n) at 1 by ring. apply Rabs_triang. }
      assert (T' : Rabs (f n) * Rabs x ^ n <= (Rabs (f n - g n) + Rabs (g n)) * Rabs x ^ n) by (apply Rmult_le_compat_r; auto).
      lra.
Qed.

Lemma poly_derivative_shift (c : list R) n x : length c = S n ->
  poly_derivative c x = bsum n (fun i => INR (S i) * nth (S i) c 0 * x ^ i).
Proof.
  intros H. unfold poly_derivative. rewrite H, bsum_shift. simpl (INR 0). rewrite Rmult_0_l, Rmult_0_r, Rplus_0_l.
  apply bsum_ext. intros i _. cbv beta. rewrite Nat.pred_succ. ring.
Qed.

Lemma horner_derivative_double_lemma : forall (c : list f64) (x : f64), c <> [] -> (Z.of_nat (length c) <= 2 ^ 53)%Z ->
  exists v, horner_derivative c x = Ok v /\
    (is_finite v = true ->
     Rabs (dvalue v - poly_derivative (dvalues c) (dvalue x)) <=
       ((1 + uround) ^ (2 * (length c - 1)) - 1) * poly_derivative_abs (dvalues c) (dvalue x) +
       2 * (1 + uround) ^ (2 * (length c - 1)) * uflow * bsum (length c - 1) (fun i => Rabs (dvalue x) ^ i)).
Proof.
  intros c x Hc HL. rewrite uround_u53, uflow_eta.
  destruct c as [|c0 c']; [congruence|]. set (c := c0 :: c') in *. set (n := length c').
  assert (Hn : (length c - 1)%nat = n) by (unfold c, n; simpl; lia).
  assert (Hl : length c = S n) by reflexivity.
  assert (U := u53_pos). assert (Q := eta64_pos).
  unfold horner_derivative. rewrite Hn, (vat_lt _ _ (f64_ofZ 0)) by lia. cbn [bind].
  rewrite horner_deriv_loop_h by lia. eexists. split; [reflexivity|]. intros F.
  unfold poly_derivative_abs.
  rewrite (poly_derivative_shift (dvalues c) n) by (unfold dvalues; rewrite map_length; auto).
  rewrite (poly_derivative_shift (map Rabs (dvalues c)) n) by (unfold dvalues; rewrite !map_length; auto).
  set (d := fun i => Bmult mode_NE (f64_ofZ (Z.of_nat (S i))) (nth (S i) c (f64_ofZ 0))) in *.
  destruct n as [|n].
  { replace (length c - 2)%nat with 0%nat in * by lia. cbn [hloop bsum] in *.
    destruct (fin_mult (f64_ofZ 0) (nth 0 c (f64_ofZ 0)) F) as (_ & _ & E).
    destruct (ofZ_ok 0) as [_ E0]; [lia|]. rewrite E0, Rmult_0_l, round_0 in E by auto with typeclass_instances.
    match goal with |- Rabs (?a - 0) <= _ => replace a with 0 by (symmetry; exact E) end.
    rewrite Rminus_0_r, Rabs_R0. lra. }
  replace (length c - 2)%nat with n in * by lia.
  change (nofZ (Z.of_nat (S n)) * nth (S n) c (f64_ofZ 0))%num with (d n) in *.
  assert (E := hloop_err _ _ _ _ F). destruct (hloop_finite _ _ _ _ F) as (F1 & F2 & _).
  assert (Fd : forall i, (i < S n)%nat -> is_finite (d i) = true).
  { intros i Hi. destruct (Nat.eq_dec i n) as [->|]; auto. apply F2. lia. }
  set (v := val (hloop d x n (d n))) in *. change (dvalue (hloop d x n (d n))) with v. fold (dvalue x) in *.
  assert (E' : Rabs (v - bsum (S n) (fun i => val (d i) * dvalue x ^ i)) <=
    ((1 + u53) ^ (2 * n) - 1) * bsum (S n) (fun i => Rabs (val (d i)) * Rabs (dvalue x) ^ i) +
    (1 + u53) ^ (2 * n) * eta64 * bsum (S n) (fun i => Rabs (dvalue x) ^ i)).
  { cbn [bsum]. rewrite (Rplus_comm (bsum n (fun i => val _ * _))), (Rplus_comm (bsum n (fun i => Rabs (val _) * _))).
    eapply Rle_trans; [exact E|]. apply Rplus_le_compat_l. apply Rmult_le_compat_l.
    - apply Rmult_le_pos; [|lra]. assert (H := pow_1u (2 * n)). lra.
    - assert (0 <= Rabs (dvalue x) ^ n) by (apply pow_le, Rabs_pos). lra. }
  clear E.
  destruct (bsum_abs_diff (S n) (fun i => val (d i)) (fun i => INR (S i) * nth (S i) (dvalues c) 0) u53 (dvalue x)) as [D1 D2].
  { intros i Hi. rewrite nth_map_val. unfold d. 
    assert (M := mult_err _ _ (Fd i Hi)). destruct (ofZ_ok (Z.of_nat (S i))) as [_ E0]; [lia|].
    rewrite E0, <- INR_IZR_INZ in M. exact M. }
  { lra. }
  assert (HA : bsum (S n) (fun i => INR (S i) * nth (S i) (map Rabs (dvalues c)) 0 * Rabs (dvalue x) ^ i) =
    bsum (S n) (fun i => Rabs (INR (S i) * nth (S i) (dvalues c) 0) * Rabs (dvalue x) ^ i)).
  { apply bsum_ext. intros i _. rewrite nth_map_abs, Rabs_mult, (Rabs_pos_eq (INR (S i))) by apply pos_INR. reflexivity. }
  rewrite HA. clear HA.
  set (P := bsum (S n) (fun i => Rabs (INR (S i) * nth (S i) (dvalues c) 0) * Rabs (dvalue x) ^ i)) in *.
  set (X := bsum (S n) (fun i => Rabs (dvalue x) ^ i)) in *.
  set (A := bsum (S n) (fun i => val (d i) * dvalue x ^ i)) in *.
  set (B := bsum (S n) (fun i => INR (S i) * nth (S i) (dvalues c) 0 * dvalue x ^ i)) in *.
  set (Aa := bsum (S n) (fun i => Rabs (val (d i)) * Rabs (dvalue x) ^ i)) in *.
  replace (2 * S n)%nat with (2 * n + 2)%nat by lia. rewrite pow_add.
  set (G := (1 + u53) ^ (2 * n)) in *. assert (HG : 1 <= G) by apply pow_1u.
  set (g := (1 + u53) ^ 2 - 1) in *. replace ((1 + u53) ^ 2) with (1 + g) by (unfold g; ring).
  assert (Hg : u53 <= g) by (unfold g; simpl; nra).
  assert (HP : 0 <= P) by (apply bsum_nonneg; intros; apply Rmult_le_pos; [apply Rabs_pos|apply pow_le, Rabs_pos]).
  assert (HX : 0 <= X) by (apply bsum_nonneg; intros; apply pow_le, Rabs_pos).
  assert (T1 : Rabs (v - B) <= Rabs (v - A) + Rabs (A - B)).
  { replace (v - B) with ((v - A) + (A - B)) by ring. apply Rabs_triang. }
  assert (T2 : (G - 1) * Aa <= (G - 1) * ((1 + u53) * P + eta64 * X)) by (apply Rmult_le_compat_l; lra).
  assert (T3 : 0 <= G * (g - u53) * P) by (apply Rmult_le_pos; [apply Rmult_le_pos; lra|auto]).
  assert (T4 : 0 <= G * g * (eta64 * X)) by (apply Rmult_le_pos; [apply Rmult_le_pos; lra|apply Rmult_le_pos; lra]).
  lra.
Qed.

(** ** Integers: no rounding at all *)
Lemma fmt64_int z : (Z.abs z <= 2 ^ 53)%Z -> fmt64 (IZR z).
Proof.
  intros H. destruct (Z.eq_dec (Z.abs z) (2 ^ 53)) as [E|E]; [|apply fmt64_IZR; lia].
  assert (P : fmt64 (IZR (2 ^ 53))).
  { change (2 ^ 53)%Z with (Zpower radix2 53). rewrite IZR_Zpower by lia. apply fmt64_bpow. lia. }
  destruct (Z.abs_eq_or_opp z) as [A|A]; rewrite A in E.
  - rewrite E. exact P.
  - replace z with (- 2 ^ 53)%Z by lia. rewrite opp_IZR. apply generic_format_opp, P.
Qed.
Lemma int_no_overflow z : (Z.abs z <= 2 ^ 53)%Z -> Rabs (IZR z) <= fmax64 + bpow radix2 969.
Proof.
  intros H. apply small_no_overflow. rewrite <- abs_IZR. apply Rle_trans with (bpow radix2 53).
  - change (bpow radix2 53) with (IZR (2 ^ 53)). apply IZR_le, H.
  - apply bpow_le. lia.
Qed.

(** Sum of |d_i| m^i. *)
Fixpoint zsum (k : nat) (f : nat -> Z) : Z := match k with O => 0%Z | S k' => (zsum k' f + f k')%Z end.
Lemma zsum_nonneg k f : (forall i, 0 <= f i)%Z -> (0 <= zsum k f)%Z.
Proof. intros H. induction k; simpl; [lia|]. specialize (H k). lia. Qed.

Lemma hloop_int d x (D : nat -> Z) X m : (Z.abs X <= m)%Z -> (1 <= m)%Z -> is_finite x = true -> val x = IZR X ->
  forall k r Rz, (forall i, (i < k)%nat -> is_finite (d i) = true /\ val (d i) = IZR (D i)) ->
  is_finite r = true -> val r = IZR Rz ->
  (Z.abs Rz * m ^ Z.of_nat k + zsum k (fun i => Z.abs (D i) * m ^ Z.of_nat i)%Z <= 2 ^ 53)%Z ->
  is_finite (hloop d x k r) = true /\
  val (hloop d x k r) = IZR (Rz * X ^ Z.of_nat k + zsum k (fun i => D i * X ^ Z.of_nat i)%Z).
Proof.
  intros HX Hm Fx Vx. induction k as [|k IH]; intros r Rz Hd Fr Vr HB; cbn [hloop zsum] in *.
  - split; auto. rewrite Vr. f_equal. simpl. lia.
  - destruct (Hd k ltac:(lia)) as [Fk Vk].
    rewrite Nat2Z.inj_succ, !Z.pow_succ_r in * by lia.
    set (mk := (m ^ Z.of_nat k)%Z) in *. assert (Hmk : (1 <= mk)%Z) by (unfold mk; assert (0 < m ^ Z.of_nat k)%Z by (apply Z.pow_pos_nonneg; lia); lia).
    set (Zs := zsum k (fun i => (Z.abs (D i) * m ^ Z.of_nat i)%Z)) in *.
    assert (HZ : (0 <= Zs)%Z) by (apply zsum_nonneg; intros; apply Z.mul_nonneg_nonneg; [lia|apply Z.pow_nonneg; lia]).
    assert (A0 : (Z.abs (Rz * X) <= Z.abs Rz * m)%Z) by (rewrite Z.abs_mul; apply Z.mul_le_mono_nonneg_l; lia).
    assert (A1 : (Z.abs Rz * m <= Z.abs Rz * m * mk)%Z).
    { rewrite <- (Z.mul_1_r (Z.abs Rz * m)) at 1. apply Z.mul_le_mono_nonneg_l; [|lia]. apply Z.mul_nonneg_nonneg; lia. }
    assert (A2 : (Z.abs (D k) <= Z.abs (D k) * mk)%Z).
    { rewrite <- (Z.mul_1_r (Z.abs (D k))) at 1. apply Z.mul_le_mono_nonneg_l; lia. }
    assert (A3 : (Z.abs Rz * (m * mk) = Z.abs Rz * m * mk)%Z) by ring.
    assert (A4 : (Z.abs (Rz * X + D k) <= Z.abs Rz * m + Z.abs (D k))%Z) by lia.
    assert (M : is_finite (Bmult mode_NE r x) = true /\ val (Bmult mode_NE r x) = IZR (Rz * X)).
    { destruct (mult_ok r x Fr Fx) as [M1 M2].
      - rewrite Vr, Vx, <- mult_IZR. apply int_no_overflow. lia.
      - split; auto. rewrite M2, Vr, Vx, <- mult_IZR. apply rnd64_id, fmt64_int. lia. }
    destruct M as [M1 M2].
    assert (P : is_finite (Bplus mode_NE (Bmult mode_NE r x) (d k)) = true /\
                val (Bplus mode_NE (Bmult mode_NE r x) (d k)) = IZR (Rz * X + D k)).
    { destruct (plus_ok (Bmult mode_NE r x) (d k) M1 Fk) as [P1 P2].
      - rewrite M2, Vk, <- plus_IZR. apply int_no_overflow. lia.
      - split; auto. rewrite P2, M2, Vk, <- plus_IZR. apply rnd64_id, fmt64_int. lia. }
    destruct P as [P1 P2].
    destruct (IH _ (Rz * X + D k)%Z (fun i Hi => Hd i (Nat.lt_lt_succ_r _ _ Hi)) P1 P2) as [I1 I2].
    + fold mk. fold Zs.
      assert (Z.abs (Rz * X + D k) * mk <= (Z.abs Rz * m + Z.abs (D k)) * mk)%Z by (apply Z.mul_le_mono_nonneg_r; lia).
      lia.
    + split; auto. rewrite I2. f_equal. ring.
Qed.

Lemma bsum_zsum k f g : (forall i, (i < k)%nat -> f i = IZR (g i)) -> bsum k f = IZR (zsum k g).
Proof. intros H. induction k as [|k IH]; simpl; auto. rewrite IH, H, plus_IZR by auto. reflexivity. Qed.

Lemma horner_integer_lemma : forall (c : list f64) (x : f64) (cz : list Z) (X m : Z), c <> [] ->
  all_finite c -> is_finite x = true -> dvalues c = map IZR cz -> dvalue x = IZR X ->
  (Z.abs X <= m)%Z -> (1 <= m)%Z ->
  poly (map (fun z => IZR (Z.abs z)) cz) (IZR m) <= 2 ^ 53 ->
  exists v, horner c x = Ok v /\ is_finite v = true /\ dvalue v = poly (dvalues c) (dvalue x).
Proof.
  intros c x cz X m Hc Fc Fx Vc Vx HX Hm HB.
  destruct c as [|c0 c']; [congruence|]. set (c := c0 :: c') in *. set (n := length c').
  assert (Hn : (length c - 1)%nat = n) by (unfold c, n; simpl; lia).
  assert (Hl : length c = S n) by reflexivity.
  assert (Hlz : length cz = S n).
  { rewrite <- (map_length IZR cz), <- Vc. unfold dvalues. rewrite map_length. exact Hl. }
  assert (Hd : forall i, (i < S n)%nat -> is_finite (nth i c (f64_ofZ 0)) = true /\ val (nth i c (f64_ofZ 0)) = IZR (nth i cz 0%Z)).
  { intros i Hi. split.
    - apply (proj1 (Forall_forall _ _) Fc). apply nth_In. lia.
    - rewrite <- nth_map_val, Vc. change 0 with (IZR 0%Z). apply map_nth. }
  assert (HB' : (Z.abs (nth n cz 0) * m ^ Z.of_nat n + zsum n (fun i => Z.abs (nth i cz 0%Z) * m ^ Z.of_nat i)%Z <= 2 ^ 53)%Z).
  { apply le_IZR. replace (IZR (2 ^ 53)) with (2 ^ 53) by (simpl; lra).
    eapply Rle_trans; [|exact HB]. right. unfold poly. rewrite map_length, Hlz. cbn [bsum].
    rewrite (bsum_zsum n _ (fun i => (Z.abs (nth i cz 0%Z) * m ^ Z.of_nat i)%Z)).
    - replace (nth n (map (fun z => IZR (Z.abs z)) cz) 0) with (IZR (Z.abs (nth n cz 0%Z))).
      + rewrite plus_IZR, mult_IZR, <- pow_IZR. ring.
      + symmetry. apply (map_nth (fun z => IZR (Z.abs z)) cz 0%Z).
    - intros i _. replace (nth i (map (fun z => IZR (Z.abs z)) cz) 0) with (IZR (Z.abs (nth i cz 0%Z))).
      + rewrite mult_IZR, <- pow_IZR. ring.
      + symmetry. apply (map_nth (fun z => IZR (Z.abs z)) cz 0%Z). }
  unfold horner. rewrite Hn, (vat_lt _ _ (f64_ofZ 0)) by lia. cbn [bind].
  rewrite horner_loop_h by lia. eexists. split; [reflexivity|].
  destruct (hloop_int (fun i => nth i c (f64_ofZ 0)) x (fun i => nth i cz 0%Z) X m HX Hm Fx Vx n (nth n c (f64_ofZ 0)) (nth n cz 0%Z)) as [I1 I2]; auto.
  - apply Hd. lia.
  - apply Hd. lia.
  - split; auto. unfold dvalue at 1. rewrite I2. unfold poly. unfold dvalues at 1. rewrite map_length, Hl. cbn [bsum].
    rewrite (bsum_zsum n _ (fun i => (nth i cz 0%Z * X ^ Z.of_nat i)%Z)).
    + rewrite nth_map_val, (proj2 (Hd n ltac:(lia))), Vx, pow_IZR, plus_IZR, mult_IZR. ring.
    + intros i Hi. rewrite nth_map_val, (proj2 (Hd i ltac:(lia))), Vx, pow_IZR, mult_IZR. reflexivity.
Qed.
