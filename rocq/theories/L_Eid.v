(** Lemmas on the continued fractions of Ei in double. *)
From Coq Require Import List Arith ZArith Reals Bool Lia Lra Psatz.
From Flocq Require Import Core.Core IEEE754.BinarySingleNaN.
From Verif Require Import Outcome Num NumFun F64 M_Series M_Basics M_Special S_Special L_Poly L_F64 L_Linspace64 L_F64Err L_Interp64 L_Apx
  L_Special64 L_Special L_Cf L_EiTab L_EiVal S_Angles S_Double S_Rot64 S_E1d L_E1d.
Import ListNotations.
Local Open Scope R_scope.

Lemma abs_le_sum a b c : Rabs (a - b) <= c -> Rabs a <= Rabs b + c.
Proof. intros H. replace a with (b + (a - b)) by ring. eapply Rle_trans; [apply Rabs_triang|]. lra. Qed.

(** The sum [a + x + f] of one step. *)
Lemma cf_sum (a x f : f64) (al fr F e : R) : rel a al 4 -> is_finite x = true -> 1 <= val x <= 10 ^ 290 ->
  is_finite f = true -> Rabs fr <= F -> Rabs (val f - fr) <= e * u53 -> 0 <= e <= 10 ^ 9 -> F <= 10 ^ 9 -> Rabs al <= 10 ^ 9 ->
  is_finite (a +! x +! f) = true /\
  Rabs (val (a +! x +! f) - (al + val x + fr)) <= (7 * Rabs al + 3 * val x + 2 * F + e + 1) * u53.
Proof.
  intros (Fa & _ & Ea) Fx Hx Ff Hfr Ef He HF Hal. assert (U := u_tiny). assert (BL := big_large).
  assert (P9 : 10 ^ 9 <= 10 ^ 290) by (apply Rle_pow; [lra|lia]).
  assert (P300 : 10 ^ 290 * 10 <= 10 ^ 300).
  { replace (10 ^ 300) with (10 ^ 290 * 10 ^ 10) by (rewrite <- pow_add; reflexivity). apply Rmult_le_compat_l; [apply pow_le; lra|simpl; lra]. }
  assert (A0 := Rabs_pos al). assert (F0 : 0 <= F) by (eapply Rle_trans; [apply Rabs_pos|exact Hfr]).
  assert (Va : Rabs (val a) <= 1001 / 1000 * Rabs al).
  { apply abs_le_sum in Ea. assert (4 * u53 * Rabs al <= / 1000 * Rabs al) by (apply Rmult_le_compat_r; lra). lra. }
  assert (Xp : Rabs (val x) = val x) by (apply Rabs_pos_eq; lra).
  assert (eu : 0 <= e * u53 <= / 1000).
  { split; [apply Rmult_le_pos; lra|]. apply Rle_trans with (10 ^ 9 * / 1000000000000000); [apply Rmult_le_compat; lra|]. simpl. lra. }
  assert (S0 : Rabs (val a + val x) <= 1001 / 1000 * Rabs al + val x) by (eapply Rle_trans; [apply Rabs_triang|]; lra).
  destruct (plus_ok a x Fa Fx) as [F1 _]; [apply big_over; lra|].
  assert (E1 := plus_err a x F1). fold (a +! x) in *.
  assert (U1 : u53 * Rabs (val a + val x) <= u53 * (1001 / 1000 * Rabs al + val x)) by (apply Rmult_le_compat_l; lra).
  assert (U2 : u53 * (1001 / 1000 * Rabs al + val x) <= / 1000 * (1001 / 1000 * Rabs al + val x)) by (apply Rmult_le_compat_r; lra).
  assert (V1 : Rabs (val (a +! x)) <= 1002 / 1000 * (1001 / 1000 * Rabs al + val x)).
  { apply abs_le_sum in E1. lra. }
  assert (Vf : Rabs (val f) <= F + / 1000) by (apply abs_le_sum in Ef; lra).
  assert (S1 : Rabs (val (a +! x) + val f) <= 1002 / 1000 * (1001 / 1000 * Rabs al + val x) + F + / 1000) by (eapply Rle_trans; [apply Rabs_triang|]; lra).
  destruct (plus_ok (a +! x) f F1 Ff) as [F2 _]; [apply big_over; lra|].
  assert (E2 := plus_err (a +! x) f F2). fold (a +! x +! f) in *. split; [exact F2|].
  assert (U3 : u53 * Rabs (val (a +! x) + val f) <= u53 * (1002 / 1000 * (1001 / 1000 * Rabs al + val x) + F + / 1000)) by (apply Rmult_le_compat_l; lra).
  replace (val (a +! x +! f) - (al + val x + fr)) with
    ((val (a +! x +! f) - (val (a +! x) + val f)) + ((val (a +! x) - (val a + val x)) + ((val a - al) + (val f - fr)))) by ring.
  eapply Rle_trans; [apply Rabs_triang|].
  assert (T1 := Rabs_triang (val (a +! x) - (val a + val x)) ((val a - al) + (val f - fr))).
  assert (T2 := Rabs_triang (val a - al) (val f - fr)).
  assert (Q1 : 0 <= u53 * Rabs al) by (apply Rmult_le_pos; lra). assert (Q2 : 0 <= u53 * val x) by (apply Rmult_le_pos; lra).
  assert (Q3 : 0 <= u53 * F) by (apply Rmult_le_pos; lra). lra.
Qed.

(** One step of the fraction. *)
Lemma cf_step64 (a b x f : f64) (al be fr F e mu lo L F' : R) : rel a al 4 -> rel b be 4 -> is_finite x = true ->
  1 <= lo <= val x -> val x <= 10 ^ 290 -> is_finite f = true -> Rabs fr <= F -> Rabs (val f - fr) <= e * u53 ->
  0 <= e <= 10 ^ 9 -> F <= 10 ^ 9 -> Rabs al <= 10 ^ 9 -> / 10 ^ 9 <= Rabs be <= 10 ^ 9 -> 0 < mu ->
  mu * val x <= Rabs (al + val x + fr) -> (7 * Rabs al + 2 * F + e + 1) / (mu * lo) + 3 / mu <= L -> L <= 99999 ->
  Rabs be / (mu * lo) <= F' -> / 10 ^ 9 <= mu ->
  is_finite (b /! (a +! x +! f)) = true /\ Rabs (be / (al + val x + fr)) <= F' /\
  Rabs (val (b /! (a +! x +! f)) - be / (al + val x + fr)) <= F' * (L + 6) * u53.
Proof.
  intros Ha Hb Fx Hlo Hx Ff Hfr Ef He HF Hal Hbe Hmu Hd HL HL2 HF' Hmu9.
  destruct (cf_sum a x f al fr F e Ha Fx ltac:(lra) Ff Hfr Ef He HF Hal) as (FD & ED).
  set (D := a +! x +! f) in *. set (d := al + val x + fr) in *. assert (U := u_tiny).
  assert (A0 := Rabs_pos al). assert (F0 : 0 <= F) by (eapply Rle_trans; [apply Rabs_pos|exact Hfr]).
  assert (ML : 0 < mu * lo) by (apply Rmult_lt_0_compat; lra). assert (MX : mu * lo <= mu * val x) by (apply Rmult_le_compat_l; lra).
  assert (Dp : 0 < Rabs d) by lra.
  assert (NZ : d <> 0) by (intros Z; rewrite Z, Rabs_R0 in Dp; lra).
  set (G := 7 * Rabs al + 2 * F + e + 1) in *.
  assert (G1 : G + 3 * val x <= L * Rabs d).
  { assert (G0 : 0 <= G) by (unfold G; lra).
    assert (K1 : G <= G / (mu * lo) * (mu * val x)).
    { apply Rle_trans with (G / (mu * lo) * (mu * lo)); [right; field; lra|]. apply Rmult_le_compat_l; [|exact MX].
      apply Rmult_le_pos; [lra|left; apply Rinv_0_lt_compat; lra]. }
    assert (K2 : 3 * val x = 3 / mu * (mu * val x)) by (field; lra).
    assert (K3 : (G / (mu * lo) + 3 / mu) * (mu * val x) <= L * (mu * val x)) by (apply Rmult_le_compat_r; lra).
    assert (L0 : 0 <= L).
    { assert (0 <= G / (mu * lo)) by (apply Rmult_le_pos; [lra|left; apply Rinv_0_lt_compat; lra]).
      assert (0 < 3 / mu) by (apply Rmult_lt_0_compat; [lra|apply Rinv_0_lt_compat; lra]). lra. }
    assert (K4 : L * (mu * val x) <= L * Rabs d) by (apply Rmult_le_compat_l; lra). lra. }
  assert (L0 : 0 <= L).
  { destruct (Rle_or_lt 0 L) as [K|K]; [exact K|]. assert (L * Rabs d <= 0 * Rabs d) by (apply Rmult_le_compat_r; lra). unfold G in G1. lra. }
  assert (RD : rel D d L).
  { split; [exact FD|]. split; [lra|]. apply Rle_trans with (1 := ED).
    replace (L * u53 * Rabs d) with (L * Rabs d * u53) by ring. apply Rmult_le_compat_r; [lra|]. unfold G in G1. lra. }
  assert (DU : Rabs d <= 10 ^ 291).
  { assert (P9 : 10 ^ 9 <= 10 ^ 290) by (apply Rle_pow; [lra|lia]).
    assert (P300 : 10 ^ 290 * 10 = 10 ^ 291) by (change 291%nat with (290 + 1)%nat; rewrite pow_add; simpl (10 ^ 1); ring).
    unfold d. assert (T := Rabs_triang (al + val x) fr). assert (T2 := Rabs_triang al (val x)). rewrite (Rabs_pos_eq (val x)) in T2 by lra. lra. }
  assert (BQ : Rabs be / Rabs d <= F').
  { apply Rle_trans with (2 := HF'). apply Rmult_le_compat_l; [apply Rabs_pos|]. apply Rinv_le_contravar; lra. }
  assert (RNG : tau <= Rabs be / Rabs d <= big).
  { split.
    - apply Rle_trans with (1 := tau304). apply Rle_trans with (/ 10 ^ 9 * / 10 ^ 291).
      + rewrite <- Rinv_mult. apply Rinv_le_contravar; [apply Rmult_lt_0_compat; apply pow_lt; lra|]. rewrite <- pow_add. apply Rle_pow; [lra|lia].
      + apply Rmult_le_compat; [left; apply Rinv_0_lt_compat, pow_lt; lra|left; apply Rinv_0_lt_compat, pow_lt; lra|lra|]. apply Rinv_le_contravar; lra.
    - apply Rle_trans with (2 := big_large). apply Rle_trans with (10 ^ 9 * 10 ^ 9).
      + apply Rmult_le_compat; [apply Rabs_pos|left; apply Rinv_0_lt_compat; lra|lra|].
        rewrite <- (Rinv_inv (10 ^ 9)). apply Rinv_le_contravar; [apply Rinv_0_lt_compat, pow_lt; lra|].
        apply Rle_trans with (mu * 1); [lra|]. apply Rle_trans with (2 := Hd). apply Rmult_le_compat_l; lra.
      + rewrite <- pow_add. apply Rle_pow; [lra|lia]. }
  assert (RQ := rel_div b D be d 4 L Hb RD NZ ltac:(lra) ltac:(lra) RNG). destruct RQ as (FQ & _ & EQ).
  assert (AQ : Rabs (be / d) <= F') by (unfold Rdiv at 1; rewrite Rabs_mult, Rabs_inv; exact BQ).
  split; [exact FQ|]. split; [exact AQ|]. apply Rle_trans with (1 := EQ).
  assert (0 <= Rabs (be / d)) by apply Rabs_pos.
  replace (F' * (L + 6) * u53) with ((L + 6) * u53 * F') by ring.
  apply Rmult_le_compat; [apply Rmult_le_pos; lra|lra| |exact AQ]. apply Rmult_le_compat_r; lra.
Qed.

(** ** A checked run of the loop *)
Definition cdiv (a b : Z) : Z := ((a + b - 1) / b)%Z.
Lemma cdiv_le a b : (0 < b)%Z -> IZR a / IZR b <= IZR (cdiv a b).
Proof.
  intros H. apply (Rmult_le_reg_r (IZR b)); [apply IZR_lt; exact H|]. unfold Rdiv. rewrite Rmult_assoc, Rinv_l, Rmult_1_r by (apply not_0_IZR; lia).
  rewrite <- mult_IZR. apply IZR_le. unfold cdiv.
  assert (E := Z.div_mod (a + b - 1) b ltac:(lia)). assert (M := Z.mod_pos_bound (a + b - 1) b H). lia.
Qed.

Record cstate := mkC { c_j : nat; c_n : list Z; c_d : list Z; c_sg : Z; c_F : Z; c_e : Z }.

Section Run.
Variables (al be : list Z) (lo : Z) (pos : list Z -> bool).
Let s := unit25.

(** One step with the sign of the next denominator and mu (in thousandths). *)
Definition cstep (sm : Z * Z) (c : cstate) : option cstate :=
  match c_j c with
  | 0%nat => None
  | Datatypes.S k =>
    let sg := fst sm in let mu := snd sm in
    let n' := zscale (s * nth k be 0%Z) (c_d c) in
    let d' := zadd (zmul [nth (c_j c) al 0%Z; s] (c_d c)) (c_n c) in
    let a := cdiv (1000 * Z.abs (nth (c_j c) al 0%Z)) s in
    let F' := cdiv (1000 * 1000 * Z.abs (nth k be 0%Z)) (s * mu * lo) in
    let L := (cdiv (1000 * (7 * a + 2 * c_F c + c_e c + 1000)) (mu * lo) + cdiv 3000000 mu)%Z in
    let e' := cdiv (F' * (L + 6000)) 1000 in
    if pos (zsub (zscale (1000 * sg) d') (zscale (mu * c_sg c * s) (0%Z :: c_d c))) &&
       ((0 <? mu) && (L <=? 99999000) && (Z.abs sg =? 1) && (Z.abs (nth (c_j c) al 0) <=? s * 1000000000) &&
        (Z.abs (nth k be 0) <=? s * 1000000000) && (s <=? Z.abs (nth k be 0) * 1000000000) &&
        (c_F c <=? 1000000000000) && (c_e c <=? 1000000000000) && (0 <=? c_e c))%Z
    then Some (mkC k n' d' sg F' e') else None
  end.
Fixpoint crun (l : list (Z * Z)) (c : cstate) : option cstate :=
  match l with [] => Some c | sm :: l' => match cstep sm c with Some c' => crun l' c' | None => None end end.

Variables (x : f64) (A B : list f64).
Hypothesis Fx : is_finite x = true.
Hypothesis Hx : IZR lo <= val x <= 10 ^ 290.
Hypothesis Hlo : (1 <= lo)%Z.
Hypothesis HA : lits A (units s al).
Hypothesis HB : lits B (units s be).
Hypothesis Hpos : forall c, pos c = true -> 0 < zev c (val x).

Definition cval (c : cstate) : R := zev (c_n c) (val x) / (IZR s * zev (c_d c) (val x)).
Definition cinv (c : cstate) (f : f64) : Prop :=
  (Z.abs (c_sg c) = 1)%Z /\ 0 < IZR (c_sg c) * zev (c_d c) (val x) /\ is_finite f = true /\
  Rabs (cval c) <= IZR (c_F c) / 1000 /\ Rabs (val f - cval c) <= IZR (c_e c) / 1000 * u53.

Lemma lits_nth (P : list f64) (p : list Z) i f : lits P (units s p) -> nth_error P i = Some f -> 
  rel f (IZR (nth i p 0%Z) / IZR s) 4 /\ (i < length p)%nat.
Proof.
  unfold units. revert P i. induction p as [|z p IH]; intros P i H E.
  - inversion H; subst. destruct i; discriminate E.
  - inversion H as [|? ? ? ? H1 H2]; subst. destruct i as [|i].
    + cbn in E. assert (x0 = f) by congruence. subst x0. cbn. split; [exact H1|lia].
    + cbn in E. destruct (IH _ _ H2 E) as [R1 R2]. cbn [nth length]. split; [exact R1|lia].
Qed.
Lemma lits_some (P : list f64) (p : list Z) i : lits P (units s p) -> (i < length p)%nat -> exists f, nth_error P i = Some f.
Proof.
  intros H L. destruct (nth_error P i) as [f|] eqn:E; [eauto|]. apply nth_error_None in E.
  assert (length P = length (units s p)) by (clear -H; induction H; cbn; congruence). unfold units in *. rewrite map_length in *. lia.
Qed.

Lemma cstep_ok sm c c' f : cstep sm c = Some c' -> cinv c f -> (c_j c < length al)%nat -> (c_j c <= length be)%nat ->
  exists f', cinv c' f' /\ cf_loop A B x (c_j c) f = cf_loop A B x (c_j c') f' /\ (c_j c' < c_j c)%nat /\
    cf_loop (T := R) (units s al) (units s be) (val x) (c_j c) (cval c) = cf_loop (units s al) (units s be) (val x) (c_j c') (cval c').
Proof.
  intros H (S1 & D1 & Ff & HF & Ef) J1 J2. unfold cstep in H. destruct (c_j c) as [|k] eqn:EJ; [discriminate|].
  destruct sm as [sg mu]. cbn [fst snd] in H.
  set (n' := zscale (s * nth k be 0%Z) (c_d c)) in *.
  set (d' := zadd (zmul [nth (Datatypes.S k) al 0%Z; s] (c_d c)) (c_n c)) in *.
  set (a := cdiv (1000 * Z.abs (nth (Datatypes.S k) al 0%Z)) s) in *.
  set (F' := cdiv (1000 * 1000 * Z.abs (nth k be 0%Z)) (s * mu * lo)) in *.
  set (L1 := cdiv (1000 * (7 * a + 2 * c_F c + c_e c + 1000)) (mu * lo)) in *.
  set (L2 := cdiv 3000000 mu) in *. set (e' := cdiv (F' * (L1 + L2 + 6000)) 1000) in *.
  match type of H with (if ?b then _ else _) = _ => destruct b eqn:E; [|discriminate] end.
  injection H as H. apply andb_true_iff in E. destruct E as [EP E]. apply Hpos in EP.
  repeat (let K := fresh "K" in apply andb_true_iff in E; destruct E as [E K]).
  apply Z.ltb_lt in E. apply Z.leb_le in K, K0, K1, K2, K3, K4, K6. apply Z.eqb_eq in K5.
  rewrite zev_sub, !zev_scale in EP. cbn [zev] in EP. rewrite !mult_IZR in EP.
  set (D := zev (c_d c) (val x)) in *. set (D' := zev d' (val x)) in *.
  assert (SP : 0 < IZR s) by (apply IZR_lt; reflexivity).
  assert (LO : 1 <= IZR lo) by (apply IZR_le; exact Hlo). assert (MU : 0 < IZR mu) by (apply IZR_lt; exact E).
  assert (XP : 0 < val x) by lra.
  set (Q := IZR (c_sg c) * D) in *. assert (EP' : IZR mu * IZR s * val x * Q < 1000 * (IZR sg * D')) by (unfold Q; lra). clear EP.
  assert (QP : 0 < IZR mu * IZR s * val x * Q) by (apply Rmult_lt_0_compat; [apply Rmult_lt_0_compat; [apply Rmult_lt_0_compat|]|]; lra).
  assert (DP : 0 < IZR sg * D') by lra.
  assert (ND : D <> 0) by (intros Z; unfold Q in *; rewrite Z, Rmult_0_r in D1; lra).
  assert (ND' : D' <> 0) by (intros Z; rewrite Z, Rmult_0_r in DP; lra).
  assert (AB1 : Q = Rabs D).
  { rewrite <- (Rabs_pos_eq Q) by lra. unfold Q. rewrite Rabs_mult, <- abs_IZR, S1. ring. }
  assert (AB2 : IZR sg * D' = Rabs D').
  { rewrite <- (Rabs_pos_eq (IZR sg * D')) by lra. rewrite Rabs_mult, <- abs_IZR, K5. ring. }
  assert (SNZ : IZR s <> 0) by lra.
  destruct (cf_step s SNZ al be (val x) k (c_n c) (c_d c) ND ND') as [C1 C2].
  destruct (lits_some A al (Datatypes.S k) HA ltac:(lia)) as [fa Ea]. destruct (lits_nth A al _ fa HA Ea) as [Ra _].
  destruct (lits_some B be k HB ltac:(lia)) as [fb Eb]. destruct (lits_nth B be _ fb HB Eb) as [Rb _].
  set (al1 := IZR (nth (Datatypes.S k) al 0%Z) / IZR s) in *. set (be1 := IZR (nth k be 0%Z) / IZR s) in *.
  assert (CV : al1 + val x + zev (c_n c) (val x) / (IZR s * zev (c_d c) (val x)) = D' / (IZR s * D)).
  { unfold al1, D', d'. rewrite zev_add, zev_mul, lin_val. fold D. field. split; assumption. }
  fold D d' in C1, C2. fold D in CV. fold D' in C2. unfold cval in HF, Ef. fold D in HF, Ef.
  set (fr := zev (c_n c) (val x) / (IZR s * D)) in *.
  assert (AAL : Rabs al1 = IZR (Z.abs (nth (Datatypes.S k) al 0%Z)) / IZR s).
  { unfold al1, Rdiv. rewrite Rabs_mult, Rabs_inv, <- abs_IZR, (Rabs_pos_eq (IZR s)) by lra. reflexivity. }
  assert (ABE : Rabs be1 = IZR (Z.abs (nth k be 0%Z)) / IZR s).
  { unfold be1, Rdiv. rewrite Rabs_mult, Rabs_inv, <- abs_IZR, (Rabs_pos_eq (IZR s)) by lra. reflexivity. }
  assert (C9 : 10 ^ 9 = 1000000000) by (simpl; lra).
  assert (DIVS : forall z, (z <= s * 1000000000)%Z -> IZR z / IZR s <= 10 ^ 9).
  { intros z Hz. apply IZR_le in Hz. rewrite mult_IZR in Hz. apply (Rmult_le_reg_r (IZR s)); [lra|].
    unfold Rdiv. rewrite Rmult_assoc, Rinv_l, Rmult_1_r by lra. lra. }
  assert (a_ge : 1000 * Rabs al1 <= IZR a).
  { apply Rle_trans with (2 := cdiv_le _ _ (eq_refl : (0 < s)%Z)). rewrite mult_IZR, AAL. unfold Rdiv. lra. }
  assert (MLp : 0 < IZR mu * IZR lo) by (apply Rmult_lt_0_compat; lra).
  assert (F_ge : Rabs be1 / (IZR mu / 1000 * IZR lo) <= IZR F' / 1000).
  { assert (K7 := cdiv_le (1000 * 1000 * Z.abs (nth k be 0%Z)) (s * mu * lo) ltac:(assert (0 < s * mu)%Z by (apply Z.mul_pos_pos; [reflexivity|exact E]); apply Z.mul_pos_pos; lia)).
    fold F' in K7. rewrite !mult_IZR in K7. rewrite ABE. apply (Rmult_le_compat_r (/ 1000)) in K7; [|lra].
    apply Rle_trans with (2 := K7). right. field. lra. }
  assert (L1_ge : 1000 * (7 * IZR a + 2 * IZR (c_F c) + IZR (c_e c) + 1000) / (IZR mu * IZR lo) <= IZR L1).
  { assert (K7 := cdiv_le (1000 * (7 * a + 2 * c_F c + c_e c + 1000)) (mu * lo) ltac:(apply Z.mul_pos_pos; lia)). fold L1 in K7.
    rewrite mult_IZR, !plus_IZR, !mult_IZR in K7. exact K7. }
  assert (L2_ge : 3000000 / IZR mu <= IZR L2) by (apply (cdiv_le 3000000 mu); exact E).
  assert (L_ge : (7 * Rabs al1 + 2 * (IZR (c_F c) / 1000) + IZR (c_e c) / 1000 + 1) / (IZR mu / 1000 * IZR lo) + 3 / (IZR mu / 1000) <= IZR (L1 + L2) / 1000).
  { rewrite plus_IZR.
    assert (K7 : (7 * Rabs al1 + 2 * (IZR (c_F c) / 1000) + IZR (c_e c) / 1000 + 1) / (IZR mu / 1000 * IZR lo) <= IZR L1 / 1000).
    { apply Rle_trans with ((1000 * (7 * IZR a + 2 * IZR (c_F c) + IZR (c_e c) + 1000) / (IZR mu * IZR lo)) / 1000); [|lra].
      apply Rle_trans with ((7 * (IZR a / 1000) + 2 * (IZR (c_F c) / 1000) + IZR (c_e c) / 1000 + 1) / (IZR mu / 1000 * IZR lo)).
      - apply Rmult_le_compat_r; [left; apply Rinv_0_lt_compat, Rmult_lt_0_compat; lra|]. lra.
      - right. field. lra. }
    assert (K8 : 3 / (IZR mu / 1000) <= IZR L2 / 1000).
    { apply Rle_trans with (3000000 / IZR mu / 1000); [right; field; lra|lra]. }
    lra. }
  assert (DM : IZR mu / 1000 * val x <= Rabs (al1 + val x + fr)).
  { rewrite CV. unfold Rdiv at 2. rewrite Rabs_mult, Rabs_inv, Rabs_mult, (Rabs_pos_eq (IZR s)) by lra. rewrite <- AB1, <- AB2.
    apply (Rmult_le_reg_r (IZR s * Q)); [apply Rmult_lt_0_compat; lra|].
    rewrite Rmult_assoc, Rmult_assoc, Rinv_l, Rmult_1_r by (apply Rgt_not_eq, Rmult_lt_0_compat; lra). lra. }
  assert (ST := cf_step64 fa fb x f al1 be1 fr (IZR (c_F c) / 1000) (IZR (c_e c) / 1000) (IZR mu / 1000) (IZR lo) (IZR (L1 + L2) / 1000) (IZR F' / 1000)).
  specialize (ST Ra Rb Fx ltac:(lra) ltac:(lra) Ff HF Ef).
  assert (Z1 := IZR_le _ _ K). assert (Z2 := IZR_le _ _ K0). assert (Z3 := IZR_le _ _ K1). assert (Z6 := IZR_le _ _ K6).
  assert (M1 : 1 <= IZR mu) by (apply IZR_le; lia).
  specialize (ST ltac:(lra) ltac:(lra) ltac:(rewrite AAL; apply DIVS; exact K4)).
  assert (BE9 : / 10 ^ 9 <= Rabs be1 <= 10 ^ 9).
  { rewrite ABE. split; [|apply DIVS; exact K3]. rewrite C9. apply IZR_le in K2. rewrite mult_IZR in K2.
    apply (Rmult_le_reg_r (IZR s)); [lra|]. unfold Rdiv. rewrite Rmult_assoc, Rinv_l, Rmult_1_r by lra. lra. }
  specialize (ST BE9 ltac:(lra) DM L_ge ltac:(lra) F_ge ltac:(lra)).
  destruct ST as (T1 & T2 & T3). exists (fb /! (fa +! x +! f)). subst c'.
  split; [|split; [|split]].
  - unfold cinv, cval. cbn [c_j c_n c_d c_sg c_F c_e]. fold D'. unfold n'. unfold be1, al1 in C2. fold al1 be1 in C2. rewrite <- C2.
    split; [exact K5|]. split; [exact DP|]. split; [exact T1|]. split; [exact T2|].
    apply Rle_trans with (1 := T3). apply Rmult_le_compat_r; [assert (U := u_tiny); lra|].
    assert (K7 := cdiv_le (F' * (L1 + L2 + 6000)) 1000 eq_refl). fold e' in K7. rewrite mult_IZR, plus_IZR in K7. lra.
  - cbn [c_j]. cbn [cf_loop]. unfold vat. rewrite Ea, Eb. reflexivity.
  - cbn [c_j]. lia.
  - cbn [c_j]. cbn [cf_loop]. rewrite !vat_units by lia. cbn [bind nadd ndiv RNum RNum_at]. unfold cval. cbn [c_n c_d]. fold D'. unfold n'. 
    f_equal. exact C2.
Qed.

Lemma crun_ok l : forall c c' f, crun l c = Some c' -> cinv c f -> (c_j c < length al)%nat -> (c_j c <= length be)%nat ->
  exists f', cinv c' f' /\ cf_loop A B x (c_j c) f = cf_loop A B x (c_j c') f' /\ (c_j c' <= c_j c)%nat /\
    cf_loop (T := R) (units s al) (units s be) (val x) (c_j c) (cval c) = cf_loop (units s al) (units s be) (val x) (c_j c') (cval c').
Proof.
  induction l as [|sm l IH]; intros c c' f H I J1 J2; cbn [crun] in H.
  - injection H as H. subst c'. exists f. auto.
  - destruct (cstep sm c) as [c1|] eqn:E; [|discriminate].
    destruct (cstep_ok sm c c1 f E I J1 J2) as (f1 & I1 & R1 & L1 & Q1).
    destruct (IH c1 c' f1 H I1 ltac:(lia) ltac:(lia)) as (f2 & I2 & R2 & L2 & Q2).
    exists f2. split; [exact I2|]. split; [congruence|]. split; [lia|congruence].
Qed.

Definition cinit : cstate := mkC 9 [0%Z] [1%Z] 1 0 0.
Lemma cinit_ok : cinv cinit (nofZ 0) /\ cval cinit = 0.
Proof.
  assert (SP : IZR s <> 0) by (apply not_0_IZR; discriminate).
  assert (V : cval cinit = 0). { unfold cval. cbn. field. exact SP. }
  split; [|exact V]. unfold cinv. rewrite V. cbn [cinit c_sg c_d c_F c_e zev].
  split; [reflexivity|]. split; [lra|]. split; [reflexivity|]. change (val (nofZ 0)) with 0. rewrite Rminus_0_r, Rabs_R0. split; lra.
Qed.
End Run.

(** ** The step through a vanishing denominator *)
Lemma div_inf (b D : f64) : is_finite b = true -> val b <> 0 -> is_finite D = true -> is_finite (b /! D) = false ->
  exists sg, b /! D = B754_infinity sg.
Proof.
  intros Fb Nb FD H. destruct (Req_dec (val D) 0) as [Z|Z].
  - destruct D as [sd| | |sd m e0 h]; try discriminate FD.
    + destruct b as [sb| | |sb mb eb hb]; try discriminate Fb; [elim Nb; reflexivity|]. eexists. reflexivity.
    + exfalso. cbn [B2R] in Z. apply eq_0_F2R in Z. destruct sd; discriminate Z.
  - generalize (Bdiv_correct 53 1024 _ _ mode_NE b D Z). simpl round_mode.
    match goal with |- (if ?c then _ else _) -> _ => destruct c end.
    + intros (_ & K & _). rewrite Fb in K. exfalso. congruence.
    + intros K. change (Bdiv mode_NE b D) with (b /! D) in K. destruct (b /! D) as [|sg| |]; try discriminate H; [eauto|].
      exfalso. cbn in K. discriminate K.
Qed.
Lemma u_big : / 10 ^ 16 <= u53 <= 1.
Proof. assert (U := u_tiny). split; [|lra]. unfold u53. apply Rinv_le_contravar; [apply pow_lt; lra|]. simpl. lra. Qed.

Lemma sing_step (a x b b' D : f64) (al be be' d e : R) : rel a al 4 -> rel b be 4 -> rel b' be' 4 -> is_finite x = true ->
  Rabs al <= 1 -> 250 <= be <= 260 -> 1 <= be' <= 50 -> 1 <= val x <= 20 -> is_finite D = true -> Rabs (val D - d) <= e * u53 ->
  0 <= e <= 10 ^ 6 -> Rabs d <= 13 / 10 ->
  is_finite (b' /! (a +! x +! (b /! D))) = true /\
  Rabs (be' * d / ((al + val x) * d + be)) <= 3 / 10 /\
  Rabs (val (b' /! (a +! x +! (b /! D))) - be' * d / ((al + val x) * d + be)) <= (e + 5) * u53.
Proof.
  intros Ra Rb Rb' Fx Hal Hbe Hbe' Hx FD ED He Hd. assert (U := u_tiny). assert (UB := u_big).
  assert (eu : 0 <= e * u53 <= / 1000).
  { split; [apply Rmult_le_pos; lra|]. apply Rle_trans with (10 ^ 6 * / 1000000000000000); [apply Rmult_le_compat; lra|]. simpl. lra. }
  set (c := val D) in *. assert (Hc : Rabs c <= 131 / 100) by (apply abs_le_sum in ED; lra).
  set (p := al + val x). assert (Hp : Rabs p <= 21).
  { unfold p. eapply Rle_trans; [apply Rabs_triang|]. rewrite (Rabs_pos_eq (val x)) by lra. lra. }
  assert (DEN : forall z, Rabs z <= 131 / 100 -> 222 <= p * z + be).
  { intros z Hz. assert (K : Rabs (p * z) <= 21 * (131 / 100)) by (rewrite Rabs_mult; apply Rmult_le_compat; auto using Rabs_pos).
    apply Rabs_le_inv in K. lra. }
  assert (Dd := DEN d ltac:(lra)). assert (Dc := DEN c Hc).
  assert (INV : forall z, 222 <= z -> 0 < / z <= / 222) by (intros z Hz; split; [apply Rinv_0_lt_compat; lra|apply Rinv_le_contravar; lra]).
  assert (VB : forall z k, Rabs z <= k -> Rabs (be' * z / (p * d + be)) <= 50 * k / 222).
  { intros z k Hz. unfold Rdiv. rewrite !Rabs_mult, (Rabs_pos_eq be') by lra. assert (I := INV _ Dd). rewrite (Rabs_pos_eq (/ (p * d + be))) by lra.
    assert (K0 : 0 <= be' * Rabs z) by (apply Rmult_le_pos; [lra|apply Rabs_pos]).
    assert (be' * Rabs z <= 50 * k) by (apply Rmult_le_compat; auto using Rabs_pos; lra). apply Rmult_le_compat; lra. }
  assert (W0 : Rabs (be' * d / (p * d + be)) <= 3 / 10) by (apply Rle_trans with (1 := VB d _ Hd); lra).
  destruct Ra as (Fa & _ & Ea). assert (Rb0 := Rb). destruct Rb0 as (Fb & _ & Eb). rewrite (Rabs_pos_eq be) in Eb by lra.
  assert (eb : 4 * u53 * be <= / 1000) by (apply Rle_trans with (4 * / 1000000000000000 * 260); [apply Rmult_le_compat; lra|lra]).
  assert (Vb : 249 <= val b <= 261) by (apply Rabs_le_inv in Eb; lra).
  assert (ea : 4 * u53 * Rabs al <= 4 * u53 * 1) by (apply Rmult_le_compat_l; lra).
  assert (Va : Rabs (val a) <= 1001 / 1000) by (apply abs_le_sum in Ea; lra).
  assert (BL := big_large). assert (P300 : 10 ^ 20 <= 10 ^ 300) by (apply Rle_pow; [lra|lia]).
  assert (P20 : 10 ^ 20 = 100000000000000000000) by (simpl; lra).
  assert (Sx : Rabs (val a + val x) <= 22) by (eapply Rle_trans; [apply Rabs_triang|]; rewrite (Rabs_pos_eq (val x)) by lra; lra).
  destruct (plus_ok a x Fa Fx) as [F1 _]; [apply big_over; lra|].
  assert (E1 := plus_err a x F1). fold (a +! x) in *. set (h := a +! x) in *.
  assert (E1' : u53 * Rabs (val a + val x) <= u53 * 22) by (apply Rmult_le_compat_l; lra).
  assert (Eh : Rabs (val h - p) <= 26 * u53).
  { replace (val h - p) with ((val h - (val a + val x)) + (val a - al)) by (unfold p; ring). eapply Rle_trans; [apply Rabs_triang|]. lra. }
  assert (Vh : Rabs (val h) <= 22) by (apply abs_le_sum in Eh; lra).
  destruct (is_finite (b /! D)) eqn:FG.
  2:{ assert (Sc : Rabs c <= u53).
      { destruct (Req_dec c 0) as [Z|Z]; [rewrite Z, Rabs_R0; lra|].
        destruct (Rle_or_lt (Rabs (val b / c)) (8 * big)) as [K|K].
        - exfalso. destruct (div_ok b D Fb FD Z) as [K1 _]; [apply big_over; exact K|]. congruence.
        - assert (Pc := Rabs_pos_lt c Z). unfold Rdiv in K. rewrite Rabs_mult, Rabs_inv, (Rabs_pos_eq (val b)) in K by lra.
          apply (Rmult_lt_compat_r (Rabs c)) in K; [|exact Pc]. replace (val b * / Rabs c * Rabs c) with (val b) in K by (field; lra).
          assert (10 ^ 20 * Rabs c <= 8 * big * Rabs c) by (apply Rmult_le_compat_r; lra).
          assert (Rabs c <= 261 / 10 ^ 20) by lra. apply Rle_trans with (1 := H0). apply Rle_trans with (2 := proj1 UB).
          replace (10 ^ 16) with 10000000000000000 by (simpl; lra). lra. }
      destruct (div_inf b D Fb ltac:(lra) FD FG) as [sg EG]. rewrite EG.
      assert (EH : exists sg', h +! B754_infinity sg = B754_infinity sg').
      { destruct h; try discriminate F1; eexists; reflexivity. }
      destruct EH as [sg' EH]. rewrite EH. destruct Rb' as (Fb' & _ & _).
      assert (EQ : exists s3, b' /! B754_infinity sg' = B754_zero s3) by (destruct b'; try discriminate Fb'; eexists; reflexivity).
      destruct EQ as [s3 EQ]. rewrite EQ. split; [reflexivity|]. split; [exact W0|]. cbn [B2R].
      rewrite Rminus_0_l, Rabs_Ropp.
      assert (Rabs d <= (e + 1) * u53) by (replace d with (c - (c - d)) by ring; eapply Rle_trans; [apply Rabs_triang|]; rewrite Rabs_Ropp; lra).
      apply Rle_trans with (1 := VB d _ H). assert (0 <= (e + 1) * u53) by (apply Rmult_le_pos; lra). lra. }
  destruct (fin_div b D FD FG) as (_ & NZ & _). assert (EG := div_err b D FD FG). fold (b /! D) in *. fold c in NZ, EG. set (g := b /! D) in *.
  assert (Pc := Rabs_pos_lt c NZ). set (y := be / c).
  assert (Yabs : Rabs y = be * / Rabs c) by (unfold y, Rdiv; rewrite Rabs_mult, Rabs_inv, (Rabs_pos_eq be) by lra; reflexivity).
  assert (Yl : 190 <= Rabs y).
  { rewrite Yabs. assert (I : / (131 / 100) <= / Rabs c) by (apply Rinv_le_contravar; lra).
    apply Rle_trans with (250 * / (131 / 100)); [lra|]. apply Rmult_le_compat; lra. }
  assert (eta : eta64 <= / 1000 * u53).
  { assert (K := eta_tau). assert (T := tau304). assert (T1 : / 10 ^ 304 <= 1) by (rewrite <- Rinv_1; apply Rinv_le_contravar; [lra|apply pow_R1_Rle; lra]).
    assert (/ 1000 * u53 * tau <= / 1000 * u53 * 1) by (apply Rmult_le_compat_l; lra). lra. }
  assert (Ebc : Rabs (val b / c - y) <= 4 * u53 * Rabs y).
  { replace (val b / c - y) with ((val b - be) * / c) by (unfold y; field; exact NZ). rewrite Rabs_mult, Rabs_inv, Yabs.
    replace (4 * u53 * (be * / Rabs c)) with (4 * u53 * be * / Rabs c) by ring. apply Rmult_le_compat_r; [left; apply Rinv_0_lt_compat; lra|exact Eb]. }
  assert (uy : 0 < u53 * Rabs y <= / 1000 * Rabs y) by (split; [apply Rmult_lt_0_compat; lra|apply Rmult_le_compat_r; lra]).
  assert (u190 : 190 * u53 <= u53 * Rabs y) by (rewrite (Rmult_comm u53); apply Rmult_le_compat_r; lra).
  assert (Vbc : Rabs (val b / c) <= 1001 / 1000 * Rabs y).
  { apply abs_le_sum in Ebc. assert (u53 * (4 * Rabs y) <= / 1000000000000000 * (4 * Rabs y)) by (apply Rmult_le_compat_r; lra). lra. }
  assert (EG' : u53 * Rabs (val b / c) <= u53 * (1001 / 1000 * Rabs y)) by (apply Rmult_le_compat_l; lra).
  assert (Eg : Rabs (val g - y) <= 502 / 100 * (u53 * Rabs y)).
  { replace (val g - y) with ((val g - val b / c) + (val b / c - y)) by ring. eapply Rle_trans; [apply Rabs_triang|]. lra. }
  assert (Vg : Rabs (val g) <= 1001 / 1000 * Rabs y).
  { apply abs_le_sum in Eg. assert (u53 * (10 * Rabs y) <= / 1000000000000000 * (10 * Rabs y)) by (apply Rmult_le_compat_r; lra). lra. }
  assert (B969 : 22 <= bpow radix2 969) by (apply Rle_trans with (bpow radix2 5); [simpl; lra|apply bpow_le; lia]).
  assert (GM := abs_val_fmax g).
  destruct (plus_ok h g F1 FG) as [F2 _]; [eapply Rle_trans; [apply Rabs_triang|]; lra|].
  assert (E2 := plus_err h g F2). fold (h +! g) in *. set (w := h +! g) in *.
  assert (E2' : u53 * Rabs (val h + val g) <= u53 * (22 + 1001 / 1000 * Rabs y)).
  { apply Rmult_le_compat_l; [lra|]. eapply Rle_trans; [apply Rabs_triang|]. lra. }
  assert (Ew : Rabs (val w - (p + y)) <= 64 / 10 * (u53 * Rabs y)).
  { replace (val w - (p + y)) with ((val w - (val h + val g)) + ((val h - p) + (val g - y))) by ring.
    eapply Rle_trans; [apply Rabs_triang|]. assert (T := Rabs_triang (val h - p) (val g - y)). lra. }
  assert (PY : 88 / 100 * Rabs y <= Rabs (p + y) <= 112 / 100 * Rabs y).
  { split.
    - assert (T := Rabs_triang (p + y) (- p)). rewrite Rabs_Ropp in T. replace (p + y + - p) with y in T by ring. lra.
    - assert (T := Rabs_triang p y). lra. }
  assert (RW : rel w (p + y) 8).
  { split; [exact F2|]. split; [lra|]. apply Rle_trans with (1 := Ew).
    replace (8 * u53 * Rabs (p + y)) with (u53 * (8 * Rabs (p + y))) by ring. replace (64 / 10 * (u53 * Rabs y)) with (u53 * (64 / 10 * Rabs y)) by ring.
    apply Rmult_le_compat_l; lra. }
  assert (NPY : p + y <> 0) by (intros Z; rewrite Z, Rabs_R0 in PY; lra).
  set (A := 50 + tau * Rabs (p + y)). assert (TP := tau_pos).
  assert (AP : 0 <= tau * Rabs (p + y)) by (apply Rmult_le_pos; [lra|apply Rabs_pos]).
  assert (RA : apx b' be' A 4).
  { apply apx_weaken with (1 := Rb'); [lra| |lra]. rewrite Rabs_pos_eq by lra. unfold A. lra. }
  assert (AQ : A / Rabs (p + y) = 50 / Rabs (p + y) + tau) by (unfold A; field; lra).
  assert (T304 := tau304). assert (T1 : / 10 ^ 304 <= / 10 ^ 3) by (apply Rinv_le_contravar; [apply pow_lt; lra|apply Rle_pow; [lra|lia]]).
  replace (10 ^ 3) with 1000 in T1 by (simpl; lra).
  assert (Q0 : 0 <= 50 / Rabs (p + y) <= 3 / 10).
  { assert (I : 0 < / Rabs (p + y) <= / 167) by (split; [apply Rinv_0_lt_compat; lra|apply Rinv_le_contravar; lra]). unfold Rdiv. lra. }
  assert (RF := apx_div b' w be' (p + y) A 4 8 RA RW NPY ltac:(lra) ltac:(lra)). rewrite AQ in RF. specialize (RF ltac:(lra)).
  destruct RF as (FF & _ & EF). split; [exact FF|]. split; [exact W0|].
  assert (EF' : (4 + 8 + 103 / 100) * u53 * (50 / Rabs (p + y) + tau) <= (4 + 8 + 103 / 100) * u53 * (301 / 1000)) by (apply Rmult_le_compat_l; lra).
  assert (V1 : be' / (p + y) = be' * c / (p * c + be)). { unfold y. field. repeat split; first [exact NZ|lra]. }
  assert (LIP : Rabs (be' * c / (p * c + be) - be' * d / (p * d + be)) <= 27 / 100 * (e * u53)).
  { replace (be' * c / (p * c + be) - be' * d / (p * d + be)) with (be' * be * (c - d) * (/ (p * c + be) * / (p * d + be))) by (field; lra).
    rewrite !Rabs_mult, (Rabs_pos_eq be'), (Rabs_pos_eq be) by lra. assert (I1 := INV _ Dc). assert (I2 := INV _ Dd).
    rewrite (Rabs_pos_eq (/ (p * c + be))), (Rabs_pos_eq (/ (p * d + be))) by lra.
    assert (J1 : / (p * c + be) * / (p * d + be) <= / 222 * / 222) by (apply Rmult_le_compat; lra).
    assert (J2 : be' * be <= 50 * 260) by (apply Rmult_le_compat; lra).
    assert (J3 : be' * be * Rabs (c - d) <= 50 * 260 * (e * u53)) by (apply Rmult_le_compat; auto using Rabs_pos; apply Rmult_le_pos; lra).
    assert (J4 : 0 <= be' * be * Rabs (c - d)) by (apply Rmult_le_pos; [apply Rmult_le_pos; lra|apply Rabs_pos]).
    assert (J5 : 0 <= / (p * c + be) * / (p * d + be)) by (apply Rmult_le_pos; lra).
    apply Rle_trans with (50 * 260 * (e * u53) * (/ 222 * / 222)); [apply Rmult_le_compat; auto|]. lra. }
  rewrite V1 in EF. 
  replace (val (b' /! w) - be' * d / (p * d + be)) with ((val (b' /! w) - be' * c / (p * c + be)) + (be' * c / (p * c + be) - be' * d / (p * d + be))) by ring.
  eapply Rle_trans; [apply Rabs_triang|]. lra.
Qed.

(** ** Whole fractions *)
Definition zleqb (a b : list Z) : bool := if list_eq_dec Z.eq_dec a b then true else false.
Definition cfin (al be : list Z) (E F : Z) (o : option cstate) : bool :=
  match o with
  | Some c => Nat.eqb (c_j c) 0 && (c_F c <=? F)%Z && (c_e c <=? E)%Z && (0 <=? c_e c)%Z && (F <=? 1000)%Z && (E <=? 100000000)%Z &&
      zleqb (zadd (c_n c) (zscale (nth 0 al 0%Z) (c_d c))) (cf_num unit25 al be) && zleqb (c_d c) (cf_den unit25 al be)
  | None => false
  end.
(** Steps 6 and 5 together. *)
Definition csing (al be : list Z) (sg : Z) (pos : list Z -> bool) (c : cstate) : option cstate :=
  match c_j c with
  | 6%nat =>
    let s := unit25 in
    let d' := zadd (zmul [nth 6 al 0%Z; s] (c_d c)) (c_n c) in
    let n' := zscale (s * nth 5 be 0%Z) (c_d c) in
    let d2 := zadd (zmul [nth 5 al 0%Z; s] d') n' in
    let n2 := zscale (s * nth 4 be 0%Z) d' in
    let a := cdiv (1000 * Z.abs (nth 6 al 0%Z)) s in
    let e := (7 * a + 60000 + 2 * c_F c + c_e c + 1000)%Z in
    if pos (zsub (zscale (13 * s * c_sg c) (c_d c)) (zscale 10 d')) && pos (zadd (zscale (13 * s * c_sg c) (c_d c)) (zscale 10 d')) && pos (zscale sg d2) &&
       ((Z.abs sg =? 1) && (Z.abs (nth 6 al 0) <=? s * 1000000000) && (c_F c <=? 1000000000000) && (c_e c <=? 1000000000) && (0 <=? c_e c) && (e <=? 1000000000) &&
        (Z.abs (nth 5 al 0) <=? s) && (s * 250 <=? nth 5 be 0) && (nth 5 be 0 <=? s * 260) && (s <=? nth 4 be 0) && (nth 4 be 0 <=? s * 50))%Z
    then Some (mkC 4 n2 d2 sg 300 (e + 5000)) else None
  | _ => None
  end.

Section Whole.
Variables (al be : list Z) (x : f64) (A B : list f64).
Let s := unit25.
Hypothesis Fx : is_finite x = true.
Hypothesis HA : lits A (units s al).
Hypothesis HB : lits B (units s be).
Hypothesis LA : length al = 10%nat.
Hypothesis LB : length be = 9%nat.

Lemma csing_ok sg pos c c' f : (forall p, pos p = true -> 0 < zev p (val x)) -> 1 <= val x <= 20 -> csing al be sg pos c = Some c' -> cinv x c f ->
  exists f', cinv x c' f' /\ cf_loop A B x (c_j c) f = cf_loop A B x (c_j c') f'.
Proof.
  intros Hpos Hx H (S1 & D1 & Ff & HF & Ef). unfold csing in H. fold s in H.
  destruct (c_j c) as [|[|[|[|[|[|[|k]]]]]]] eqn:EJ; try discriminate H.
  set (d' := zadd (zmul [nth 6 al 0%Z; s] (c_d c)) (c_n c)) in *. set (n' := zscale (s * nth 5 be 0%Z) (c_d c)) in *.
  set (d2 := zadd (zmul [nth 5 al 0%Z; s] d') n') in *. set (n2 := zscale (s * nth 4 be 0%Z) d') in *.
  set (a := cdiv (1000 * Z.abs (nth 6 al 0%Z)) s) in *. set (e := (7 * a + 60000 + 2 * c_F c + c_e c + 1000)%Z) in *.
  match type of H with (if ?b then _ else _) = _ => destruct b eqn:E; [|discriminate] end.
  injection H as H. apply andb_true_iff in E. destruct E as [EP E]. apply andb_true_iff in EP. destruct EP as [EP P3].
  apply andb_true_iff in EP. destruct EP as [P1 P2]. apply Hpos in P1, P2, P3.
  repeat (let K := fresh "K" in apply andb_true_iff in E; destruct E as [E K]).
  apply Z.leb_le in K, K0, K1, K2, K3, K4, K5, K6, K7, K8. apply Z.eqb_eq in E.
  rewrite zev_sub, !zev_scale, !mult_IZR in P1. rewrite zev_add, !zev_scale, !mult_IZR in P2. rewrite zev_scale in P3.
  set (D := zev (c_d c) (val x)) in *. set (D' := zev d' (val x)) in *.
  assert (SP : 0 < IZR s) by (apply IZR_lt; reflexivity).
  set (Q := IZR (c_sg c) * D) in *.
  assert (AB1 : Q = Rabs D).
  { rewrite <- (Rabs_pos_eq Q) by lra. unfold Q. rewrite Rabs_mult, <- abs_IZR, S1. ring. }
  assert (ND : D <> 0) by (intros Z; unfold Q in *; rewrite Z, Rmult_0_r in D1; lra).
  assert (PR1 : 10 * D' < 13 * IZR s * Q) by (unfold Q; lra). assert (PR2 : - (10 * D') < 13 * IZR s * Q) by (unfold Q; lra).
  destruct (lits_some A al 6 HA ltac:(lia)) as [a6 E6]. destruct (lits_nth A al _ a6 HA E6) as [R6 _].
  destruct (lits_some A al 5 HA ltac:(lia)) as [a5 E5]. destruct (lits_nth A al _ a5 HA E5) as [R5 _].
  destruct (lits_some B be 5 HB ltac:(lia)) as [b5 F5]. destruct (lits_nth B be _ b5 HB F5) as [T5 _].
  destruct (lits_some B be 4 HB ltac:(lia)) as [b4 F4]. destruct (lits_nth B be _ b4 HB F4) as [T4 _].
  fold s in R6, R5, T5, T4.
  set (z6 := nth 6 al 0%Z) in *. set (z5 := nth 5 al 0%Z) in *. set (y5 := nth 5 be 0%Z) in *. set (y4 := nth 4 be 0%Z) in *.
  assert (DIVS : forall z, Rabs (IZR z / IZR s) = IZR (Z.abs z) / IZR s).
  { intros z. unfold Rdiv. rewrite Rabs_mult, Rabs_inv, <- abs_IZR, (Rabs_pos_eq (IZR s)) by lra. reflexivity. }
  assert (LEB : forall z k, (z <= s * k)%Z -> IZR z / IZR s <= IZR k).
  { intros z k Hz. apply IZR_le in Hz. rewrite mult_IZR in Hz. apply (Rmult_le_reg_r (IZR s)); [lra|].
    unfold Rdiv. rewrite Rmult_assoc, Rinv_l, Rmult_1_r by lra. lra. }
  assert (GEB : forall z k, (s * k <= z)%Z -> IZR k <= IZR z / IZR s).
  { intros z k Hz. apply IZR_le in Hz. rewrite mult_IZR in Hz. apply (Rmult_le_reg_r (IZR s)); [lra|].
    unfold Rdiv. rewrite Rmult_assoc, Rinv_l, Rmult_1_r by lra. lra. }
  unfold cval in HF, Ef. fold D s in HF, Ef. set (fr := zev (c_n c) (val x) / (IZR s * D)) in *.
  assert (Z1 := IZR_le _ _ K7). assert (Z2 := IZR_le _ _ K6). assert (Z3 := IZR_le _ _ K5). assert (Z4 := IZR_le _ _ K4).
  assert (C9 : 10 ^ 9 = 1000000000) by (simpl; lra). assert (P290 : 10 ^ 9 <= 10 ^ 290) by (apply Rle_pow; [lra|lia]).
  assert (A6 : Rabs (IZR z6 / IZR s) <= 10 ^ 9) by (rewrite DIVS, C9; apply LEB; exact K8).
  destruct (cf_sum a6 x f (IZR z6 / IZR s) fr (IZR (c_F c) / 1000) (IZR (c_e c) / 1000) R6 Fx ltac:(lra) Ff HF Ef ltac:(lra) ltac:(lra) A6) as [FD ED].
  set (Dd := a6 +! x +! f) in *.
  assert (CV : IZR z6 / IZR s + val x + fr = D' / (IZR s * D)).
  { unfold fr, D', d'. rewrite zev_add, zev_mul, lin_val. fold D. field. split; [exact ND|lra]. }
  rewrite CV in ED. set (dd := D' / (IZR s * D)) in *.
  assert (a_ge : 1000 * Rabs (IZR z6 / IZR s) <= IZR a).
  { apply Rle_trans with (2 := cdiv_le _ _ (eq_refl : (0 < s)%Z)). rewrite mult_IZR, DIVS. unfold Rdiv. lra. }
  assert (EE : IZR e = 7 * IZR a + 60000 + 2 * IZR (c_F c) + IZR (c_e c) + 1000).
  { unfold e. rewrite !plus_IZR, !mult_IZR. reflexivity. }
  assert (U := u_tiny).
  assert (ED' : Rabs (val Dd - dd) <= IZR e / 1000 * u53).
  { apply Rle_trans with (1 := ED). apply Rmult_le_compat_r; lra. }
  assert (DD : Rabs dd <= 13 / 10).
  { unfold dd, Rdiv at 1. rewrite Rabs_mult, Rabs_inv, Rabs_mult, (Rabs_pos_eq (IZR s)) by lra. rewrite <- AB1.
    apply (Rmult_le_reg_r (IZR s * Q)); [apply Rmult_lt_0_compat; lra|].
    rewrite Rmult_assoc, Rinv_l, Rmult_1_r by (apply Rgt_not_eq, Rmult_lt_0_compat; lra). apply Rabs_le. lra. }
  assert (E0 : 0 <= IZR e).
  { assert (P := Rabs_pos (IZR z6 / IZR s)). assert (P2' := Rabs_pos fr). lra. }
  assert (ST := sing_step a5 x b5 b4 Dd (IZR z5 / IZR s) (IZR y5 / IZR s) (IZR y4 / IZR s) dd (IZR e / 1000) R5 T5 T4 Fx).
  specialize (ST ltac:(rewrite DIVS; apply (LEB _ 1%Z); lia) ltac:(split; [apply GEB|apply LEB]; assumption) ltac:(split; [apply (GEB _ 1%Z); lia|apply LEB; assumption])).
  replace (10 ^ 6) with 1000000 in ST by (simpl; lra).
  specialize (ST Hx FD ED' ltac:(lra) DD). destruct ST as (T1 & T2 & T3).
  exists (b4 /! (a5 +! x +! (b5 /! Dd))). subst c'.
  assert (D2E : zev d2 (val x) = (IZR z5 + val x * IZR s) * D' + IZR s * IZR y5 * D).
  { unfold d2, n'. rewrite zev_add, zev_mul, lin_val, zev_scale, mult_IZR. reflexivity. }
  assert (N2E : zev n2 (val x) = IZR s * IZR y4 * D') by (unfold n2; rewrite zev_scale, mult_IZR; reflexivity).
  assert (ND2 : zev d2 (val x) <> 0) by (intros Z; rewrite Z, Rmult_0_r in P3; lra).
  assert (VE : zev n2 (val x) / (IZR s * zev d2 (val x)) = IZR y4 / IZR s * dd / ((IZR z5 / IZR s + val x) * dd + IZR y5 / IZR s)).
  { rewrite N2E. rewrite D2E in ND2 |- *. unfold dd.
    replace ((IZR z5 / IZR s + val x) * (D' / (IZR s * D)) + IZR y5 / IZR s) with (((IZR z5 + val x * IZR s) * D' + IZR s * IZR y5 * D) / (IZR s * IZR s * D)) by (field; repeat split; first [exact ND|lra]).
    field. repeat split; first [exact ND|exact ND2|lra]. }
  split.
  - unfold cinv, cval. cbn [c_j c_n c_d c_sg c_F c_e]. fold s. rewrite VE.
    split; [exact E|]. split; [exact P3|]. split; [exact T1|]. split; [lra|].
    apply Rle_trans with (1 := T3). apply Rmult_le_compat_r; [lra|]. rewrite plus_IZR. lra.
  - cbn [c_j]. cbn [cf_loop]. unfold vat. rewrite E6, E5, F5, F4. reflexivity.
Qed.

Lemma cfin_ok E F o c f : cfin al be E F o = true -> o = Some c -> cinv x c f -> cf_loop A B x 9 (nofZ 0) = cf_loop A B x (c_j c) f ->
  Rabs (IZR (nth 0 al 0%Z) / IZR s) <= 11 / 10 ->
  let r := zev (cf_num s al be) (val x) / (IZR s * zev (cf_den s al be) (val x)) in
  exists v, cf A B x = Ok v /\ is_finite v = true /\ zev (cf_den s al be) (val x) <> 0 /\
    Rabs (r - IZR (nth 0 al 0%Z) / IZR s) <= IZR F / 1000 /\ Rabs (val v - r) <= (IZR E / 1000 + 8) * u53.
Proof.
  intros H HO (S1 & D1 & Ff & HF & Ef) HL HA0. subst o. unfold cfin in H.
  repeat (let K := fresh "K" in apply andb_true_iff in H; destruct H as [H K]).
  apply Nat.eqb_eq in H. apply Z.leb_le in K1, K2, K3, K4, K5. rewrite H in HL. change (cf_loop A B x 0 f) with (Ok f) in HL.
  unfold zleqb in K, K0. destruct (list_eq_dec _ _ _) as [EQ1|] in K; [|discriminate]. destruct (list_eq_dec _ _ _) as [EQ2|] in K0; [|discriminate].
  fold s in EQ1, EQ2.
  destruct (lits_some A al 0 HA ltac:(lia)) as [a0 E0]. destruct (lits_nth A al _ a0 HA E0) as [R0 _]. fold s in R0.
  set (z0 := nth 0 al 0%Z) in *. assert (SP : 0 < IZR s) by (apply IZR_lt; reflexivity).
  assert (ND : zev (c_d c) (val x) <> 0) by (intros Z; rewrite Z, Rmult_0_r in D1; lra).
  intros r. assert (RE : r = cval x c + IZR z0 / IZR s).
  { unfold r, cval. fold s. rewrite <- EQ1, <- EQ2, zev_add, zev_scale. field. split; first [exact ND|lra]. }
  unfold cf. rewrite HL. cbn [bind]. unfold vat. rewrite E0. cbn [bind]. eexists. split; [reflexivity|]. change (f + a0)%num with (f +! a0).
  destruct R0 as (F0 & _ & Ea). assert (U := u_tiny).
  assert (Z1 := IZR_le _ _ K1). assert (Z2 := IZR_le _ _ K2). assert (Z3 := IZR_le _ _ K3). assert (Z4 := IZR_le _ _ K4). assert (Z5 := IZR_le _ _ K5).
  assert (eu : 0 <= IZR (c_e c) / 1000 * u53 <= IZR E / 1000 * u53) by (split; [apply Rmult_le_pos; lra|apply Rmult_le_compat_r; lra]).
  assert (eE : IZR E / 1000 * u53 <= / 1000).
  { apply Rle_trans with (100000 * / 1000000000000000); [apply Rmult_le_compat; lra|lra]. }
  assert (ea : 4 * u53 * Rabs (IZR z0 / IZR s) <= 4 * u53 * (11 / 10)) by (apply Rmult_le_compat_l; lra).
  assert (Va : Rabs (val a0) <= 12 / 10) by (apply abs_le_sum in Ea; lra).
  assert (Vf : Rabs (val f) <= 11 / 10) by (apply abs_le_sum in Ef; lra).
  assert (SB : Rabs (val f + val a0) <= 23 / 10) by (eapply Rle_trans; [apply Rabs_triang|]; lra).
  assert (BL := big_large). assert (P300 : 10 ^ 1 <= 10 ^ 300) by (apply Rle_pow; [lra|lia]). rewrite pow_1 in P300.
  destruct (plus_ok f a0 Ff F0) as [FV _]; [apply big_over; lra|]. assert (EV := plus_err f a0 FV). fold (f +! a0) in *.
  split; [exact FV|]. split; [rewrite <- EQ1; exact ND|].
  assert (EV' : u53 * Rabs (val f + val a0) <= u53 * (23 / 10)) by (apply Rmult_le_compat_l; lra).
  split.
  - rewrite RE. replace (cval x c + IZR z0 / IZR s - IZR z0 / IZR s) with (cval x c) by ring. lra.
  - rewrite RE. replace (val (f +! a0) - (cval x c + IZR z0 / IZR s)) with ((val (f +! a0) - (val f + val a0)) + ((val f - cval x c) + (val a0 - IZR z0 / IZR s))) by ring.
    eapply Rle_trans; [apply Rabs_triang|]. assert (T := Rabs_triang (val f - cval x c) (val a0 - IZR z0 / IZR s)). lra.
Qed.

Lemma cf64_regular lo pos data E F : (forall p, pos p = true -> 0 < zev p (val x)) -> (1 <= lo)%Z -> IZR lo <= val x <= 10 ^ 290 ->
  cfin al be E F (crun al be lo pos data cinit) = true -> Rabs (IZR (nth 0 al 0%Z) / IZR s) <= 11 / 10 ->
  let r := zev (cf_num s al be) (val x) / (IZR s * zev (cf_den s al be) (val x)) in
  exists v, cf A B x = Ok v /\ is_finite v = true /\ zev (cf_den s al be) (val x) <> 0 /\
    Rabs (r - IZR (nth 0 al 0%Z) / IZR s) <= IZR F / 1000 /\ Rabs (val v - r) <= (IZR E / 1000 + 8) * u53.
Proof.
  intros Hpos Hlo Hx HC HA0. destruct (cinit_ok x) as [I0 _].
  destruct (crun al be lo pos data cinit) as [c|] eqn:ER; [|discriminate HC].
  destruct (crun_ok al be lo pos x A B Fx Hx Hlo HA HB Hpos data cinit c (nofZ 0) ER I0 ltac:(rewrite LA; cbn; lia) ltac:(rewrite LB; cbn; lia)) as (f & I1 & R1 & _).
  apply (cfin_ok E F (Some c) c f HC eq_refl I1 R1 HA0).
Qed.
Lemma cf64_singular lo sg pos data1 data2 E F : (forall p, pos p = true -> 0 < zev p (val x)) -> (1 <= lo)%Z -> IZR lo <= val x <= 20 ->
  cfin al be E F (match crun al be lo pos data1 cinit with Some c => match csing al be sg pos c with Some c1 => crun al be lo pos data2 c1 | None => None end | None => None end) = true ->
  Rabs (IZR (nth 0 al 0%Z) / IZR s) <= 11 / 10 ->
  let r := zev (cf_num s al be) (val x) / (IZR s * zev (cf_den s al be) (val x)) in
  exists v, cf A B x = Ok v /\ is_finite v = true /\ zev (cf_den s al be) (val x) <> 0 /\
    Rabs (r - IZR (nth 0 al 0%Z) / IZR s) <= IZR F / 1000 /\ Rabs (val v - r) <= (IZR E / 1000 + 8) * u53.
Proof.
  intros Hpos Hlo Hx HC HA0. destruct (cinit_ok x) as [I0 _]. assert (LO : 1 <= IZR lo) by (apply IZR_le; exact Hlo).
  assert (HX : IZR lo <= val x <= 10 ^ 290).
  { split; [lra|]. apply Rle_trans with (10 ^ 2); [simpl; lra|]. apply Rle_pow; [lra|lia]. }
  destruct (crun al be lo pos data1 cinit) as [c|] eqn:ER; [|discriminate HC].
  destruct (crun_ok al be lo pos x A B Fx HX Hlo HA HB Hpos data1 cinit c (nofZ 0) ER I0 ltac:(rewrite LA; cbn; lia) ltac:(rewrite LB; cbn; lia)) as (f & I1 & R1 & _).
  destruct (csing al be sg pos c) as [c1|] eqn:ES; [|discriminate HC].
  destruct (csing_ok sg pos c c1 f Hpos ltac:(lra) ES I1) as (f1 & I2 & R2).
  destruct (crun al be lo pos data2 c1) as [c2|] eqn:ER2; [|discriminate HC].
  assert (J4 : c_j c1 = 4%nat).
  { clear - ES. unfold csing in ES. destruct (c_j c) as [|[|[|[|[|[|[|k]]]]]]]; try discriminate ES.
    match type of ES with (if ?b then _ else _) = _ => destruct b; [|discriminate] end. injection ES as ES. subst c1. reflexivity. }
  destruct (crun_ok al be lo pos x A B Fx HX Hlo HA HB Hpos data2 c1 c2 f1 ER2 I2 ltac:(rewrite LA, J4; lia) ltac:(rewrite LB, J4; lia)) as (f2 & I3 & R3 & _).
  apply (cfin_ok E F (Some c2) c2 f2 HC eq_refl I3); [|exact HA0]. change (c_j cinit) with 9%nat in R1. congruence.
Qed.
End Whole.
