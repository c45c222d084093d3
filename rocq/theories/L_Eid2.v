(** Lemmas on Ei_approximation and expEi in double, from 6 on; the function. *)
From Coq Require Import List Arith ZArith Reals Bool Lia Lra Psatz.
From Flocq Require Import Core.Core IEEE754.BinarySingleNaN.
From Verif Require Import Outcome Num NumFun F64 M_Series M_Basics M_Cheb M_Special S_Special L_Poly L_F64 L_Linspace64 L_F64Err L_Interp64 L_Apx
  L_Special64 L_Special L_Cf L_EiTab L_EiVal S_Ei L_EiSpec L_Ei0 L_Ei6 L_Ei L_EiAcc S_Cheb L_Cheb L_Ser64 S_Angles S_Double S_Rot64 S_E1d L_E1d L_Eid L_Eid6.
Import ListNotations.
Local Open Scope R_scope.

(** ** The four tables *)
Lemma lits12_a : lits (ei12_alpha (T := f64)) (units unit25 z12_a).
Proof. rewrite <- z12_a_eq. unfold lits, ei12_alpha. lits. Qed.
Lemma lits12_b : lits (ei12_beta (T := f64)) (units unit25 z12_b).
Proof. rewrite <- z12_b_eq. unfold lits, ei12_beta. lits. Qed.
Lemma lits24_a : lits (ei24_alpha (T := f64)) (units unit25 z24_a).
Proof. rewrite <- z24_a_eq. unfold lits, ei24_alpha. lits. Qed.
Lemma lits24_b : lits (ei24_beta (T := f64)) (units unit25 z24_b).
Proof. rewrite <- z24_b_eq. unfold lits, ei24_beta. lits. Qed.
Lemma litsL_a : lits (eiL_alpha (T := f64)) (units unit25 zL_a).
Proof. rewrite <- zL_a_eq. unfold lits, eiL_alpha. lits. Qed.
Lemma litsL_b : lits (eiL_beta (T := f64)) (units unit25 zL_b).
Proof. rewrite <- zL_b_eq. unfold lits, eiL_beta. lits. Qed.
Lemma litsE_a : lits (expei_alpha (T := f64)) (units unit25 zL_a).
Proof. rewrite <- expei_alpha_eq. unfold lits, expei_alpha. lits. Qed.
Lemma litsE_b : lits (expei_beta (T := f64)) (units unit25 zL_b).
Proof. rewrite <- expei_beta_eq. unfold lits, expei_beta. lits. Qed.

(** ** The continued fractions *)
Definition frac_of (al be : list Z) (x : R) : R := zev (cf_num unit25 al be) x / (IZR unit25 * zev (cf_den unit25 al be) x).
Definition a0_ok (al : list Z) : bool := (99 * unit25 <=? 100 * nth 0 al 0)%Z && (10 * nth 0 al 0 <=? 11 * unit25)%Z.
Lemma a0_val al : a0_ok al = true -> 99 / 100 <= IZR (nth 0 al 0%Z) / IZR unit25 <= 11 / 10.
Proof.
  intros H. apply andb_true_iff in H. destruct H as [A B]. apply Z.leb_le in A, B. apply IZR_le in A, B. rewrite !mult_IZR in A, B.
  assert (SP : 0 < IZR unit25) by (apply IZR_lt; reflexivity). set (z := IZR (nth 0 al 0%Z)) in *. set (s := IZR unit25) in *.
  assert (E : z / s * s = z) by (field; lra). split; apply (Rmult_le_reg_r s); lra.
Qed.
(** A relative bound [K] on the computed fraction, and its size. *)
Definition frac_ok (A B : list f64) (al be : list Z) (x : f64) (K : R) : Prop :=
  exists v, cf A B x = Ok v /\ rel v (frac_of al be (val x)) K /\ 7 / 10 <= frac_of al be (val x) <= 14 / 10.
Lemma to_rel (al : list Z) r (v : f64) E F K : a0_ok al = true -> is_finite v = true -> 0 <= E -> 0 <= F <= 289 ->
  Rabs (r - IZR (nth 0 al 0%Z) / IZR unit25) <= F / 1000 -> Rabs (val v - r) <= (E / 1000 + 8) * u53 -> E + 8000 <= K * (990 - F) -> rel v r K /\ 7 / 10 <= r <= 14 / 10.
Proof.
  intros HA Fv HE HF H1 H2 HK. apply a0_val in HA. apply Rabs_le_inv in H1. assert (U := u_tiny).
  assert (RB : (990 - F) / 1000 <= r <= 14 / 10) by lra. split; [|lra]. split; [exact Fv|]. split.
  - lra.
  - rewrite (Rabs_pos_eq r) by lra. apply Rle_trans with (1 := H2). assert (0 <= K) by (apply (Rmult_le_reg_r (990 - F)); lra).
    assert (K * ((990 - F) / 1000) <= K * r) by (apply Rmult_le_compat_l; lra).
    replace (K * u53 * r) with (K * r * u53) by ring. apply Rmult_le_compat_r; lra.
Qed.

Definition pL (c : list Z) : bool := (zpos_cuts 32 [36;40;48;64;100;1000] 1 c && zpos_from 1000 c)%bool%Z.
Lemma run12a : cfin z12_a z12_b 430924 286 (crun z12_a z12_b 6 (zpos_on 6 8 1) [(1,550);(1,594);(-1,1894);(1,677);(1,3577);(1,496);(1,3235);(1,2710);(1,730)]%Z cinit) = true.
Proof. vm_compute. reflexivity. Qed.
Lemma run12b : cfin z12_a z12_b 163180 187 (crun z12_a z12_b 8 (zpos_cuts 8 [9;10;11;12]%Z 1) [(1,659);(1,692);(-1,962);(1,649);(1,2662);(1,435);(1,2346);(1,2016);(1,837)]%Z cinit) = true.
Proof. vm_compute. reflexivity. Qed.
Lemma run24a : cfin z24_a z24_b 44313 105 (crun z24_a z24_b 12 (zpos_cuts 12 [13;14;15;16;17]%Z 1) [(1,849);(1,229);(1,1181);(-1,64);(1,2247);(-1,952);(1,1250);(1,2089);(1,798)]%Z cinit) = true.
Proof. vm_compute. reflexivity. Qed.
Definition s24a : list (Z * Z) := [(1,889);(1,276);(1,1015)]%Z.
Definition s24b : list (Z * Z) := [(-1,729);(1,1771);(1,2107);(1,860)]%Z.
Lemma run24b : cfin z24_a z24_b 803 69 (match crun z24_a z24_b 17 (zpos_on 17 19 1) s24a cinit with
  | Some c => match csing z24_a z24_b 1 (zpos_on 17 19 1) c with Some c1 => crun z24_a z24_b 17 (zpos_on 17 19 1) s24b c1 | None => None end | None => None end) = true.
Proof. vm_compute. reflexivity. Qed.
Lemma run24c : cfin z24_a z24_b 846 61 (crun z24_a z24_b 19 (zpos_on 19 24 1) [(1,899);(1,313);(1,843);(1,51);(1,2725);(-1,351);(1,2115);(1,1983);(1,875)]%Z cinit) = true.
Proof. vm_compute. reflexivity. Qed.
Lemma runLa : cfin zL_a zL_b 1056 98 (crun zL_a zL_b 24 (zpos_cuts 24 [25;26;27;28;29;30;32]%Z 1) [(1,6382);(1,17);(1,587);(1,225);(1,1070);(1,434);(1,648);(1,759);(1,855)]%Z cinit) = true.
Proof. vm_compute. reflexivity. Qed.
Lemma runLb : cfin zL_a zL_b 725 71 (crun zL_a zL_b 32 pL [(1,985);(1,23);(1,582);(1,346);(1,913);(1,576);(1,747);(1,820);(1,889)]%Z cinit) = true.
Proof. vm_compute. reflexivity. Qed.

Ltac a0 H := let K := fresh in assert (K := a0_val _ H); rewrite Rabs_pos_eq; lra.
Lemma p290 : 1000 <= 10 ^ 290.
Proof. apply Rle_trans with (10 ^ 3); [simpl; lra|apply Rle_pow; [lra|lia]]. Qed.

Lemma frac12 A B (x : f64) : is_finite x = true -> lits A (units unit25 z12_a) -> lits B (units unit25 z12_b) -> 6 <= val x < 12 -> frac_ok A B z12_a z12_b x 624.
Proof.
  intros Fx HA HB Hx. assert (A0 : a0_ok z12_a = true) by reflexivity. assert (P := p290). destruct (Rlt_le_dec (val x) 8) as [L|L].
  - destruct (cf64_regular z12_a z12_b x A B Fx HA HB eq_refl eq_refl 6 (zpos_on 6 8 1) _ 430924 286 (fun p Hp => zpos_on_val 6 8 1 p (val x) Hp ltac:(lra)) ltac:(lia) ltac:(lra) run12a ltac:(a0 A0)) as (v & E1 & E2 & _ & E3 & E4).
    exists v. split; [exact E1|]. refine (to_rel _ _ _ _ _ _ A0 E2 _ _ E3 E4 _); lra.
  - destruct (cf64_regular z12_a z12_b x A B Fx HA HB eq_refl eq_refl 8 (zpos_cuts 8 [9;10;11;12]%Z 1) _ 163180 187 (fun p Hp => zpos_cuts_val p 1 [9;10;11;12]%Z 8 (val x) Hp ltac:(change (last [9;10;11;12]%Z 8%Z) with 12%Z; lra)) ltac:(lia) ltac:(lra) run12b ltac:(a0 A0)) as (v & E1 & E2 & _ & E3 & E4).
    exists v. split; [exact E1|]. refine (to_rel _ _ _ _ _ _ A0 E2 _ _ E3 E4 _); lra.
Qed.
Lemma frac24 A B (x : f64) : is_finite x = true -> lits A (units unit25 z24_a) -> lits B (units unit25 z24_b) -> 12 <= val x < 24 -> frac_ok A B z24_a z24_b x 60.
Proof.
  intros Fx HA HB Hx. assert (A0 : a0_ok z24_a = true) by reflexivity. assert (P := p290). destruct (Rlt_le_dec (val x) 17) as [L|L]; [|destruct (Rlt_le_dec (val x) 19) as [L'|L']].
  - destruct (cf64_regular z24_a z24_b x A B Fx HA HB eq_refl eq_refl 12 (zpos_cuts 12 [13;14;15;16;17]%Z 1) _ 44313 105 (fun p Hp => zpos_cuts_val p 1 [13;14;15;16;17]%Z 12 (val x) Hp ltac:(change (last [13;14;15;16;17]%Z 12%Z) with 17%Z; lra)) ltac:(lia) ltac:(lra) run24a ltac:(a0 A0)) as (v & E1 & E2 & _ & E3 & E4).
    exists v. split; [exact E1|]. refine (to_rel _ _ _ _ _ _ A0 E2 _ _ E3 E4 _); lra.
  - destruct (cf64_singular z24_a z24_b x A B Fx HA HB eq_refl eq_refl 17 1 (zpos_on 17 19 1) s24a s24b 803 69 (fun p Hp => zpos_on_val 17 19 1 p (val x) Hp ltac:(lra)) ltac:(lia) ltac:(lra) run24b ltac:(a0 A0)) as (v & E1 & E2 & _ & E3 & E4).
    exists v. split; [exact E1|]. refine (to_rel _ _ _ _ _ _ A0 E2 _ _ E3 E4 _); lra.
  - destruct (cf64_regular z24_a z24_b x A B Fx HA HB eq_refl eq_refl 19 (zpos_on 19 24 1) _ 846 61 (fun p Hp => zpos_on_val 19 24 1 p (val x) Hp ltac:(lra)) ltac:(lia) ltac:(lra) run24c ltac:(a0 A0)) as (v & E1 & E2 & _ & E3 & E4).
    exists v. split; [exact E1|]. refine (to_rel _ _ _ _ _ _ A0 E2 _ _ E3 E4 _); lra.
Qed.
Lemma fracL A B (x : f64) : is_finite x = true -> lits A (units unit25 zL_a) -> lits B (units unit25 zL_b) -> 24 <= val x <= 10 ^ 290 -> frac_ok A B zL_a zL_b x 11.
Proof.
  intros Fx HA HB Hx. assert (A0 : a0_ok zL_a = true) by reflexivity. assert (P := p290). destruct (Rlt_le_dec (val x) 32) as [L|L].
  - destruct (cf64_regular zL_a zL_b x A B Fx HA HB eq_refl eq_refl 24 (zpos_cuts 24 [25;26;27;28;29;30;32]%Z 1) _ 1056 98 (fun p Hp => zpos_cuts_val p 1 [25;26;27;28;29;30;32]%Z 24 (val x) Hp ltac:(change (last [25;26;27;28;29;30;32]%Z 24%Z) with 32%Z; lra)) ltac:(lia) ltac:(lra) runLa ltac:(a0 A0)) as (v & E1 & E2 & _ & E3 & E4).
    exists v. split; [exact E1|]. refine (to_rel _ _ _ _ _ _ A0 E2 _ _ E3 E4 _); lra.
  - assert (HP : forall p, pL p = true -> 0 < zev p (val x)).
    { intros p Hp. apply andb_true_iff in Hp. destruct Hp as [Q1 Q2].
      apply (zpos_all_val 32 [36;40;48;64;100;1000]%Z 1 1000 p (val x) Q1 Q2); [change (last [36;40;48;64;100;1000]%Z 32%Z) with 1000%Z|]; lra. }
    destruct (cf64_regular zL_a zL_b x A B Fx HA HB eq_refl eq_refl 32 pL _ 725 71 HP ltac:(lia) ltac:(lra) runLb ltac:(a0 A0)) as (v & E1 & E2 & _ & E3 & E4).
    exists v. split; [exact E1|]. refine (to_rel _ _ _ _ _ _ A0 E2 _ _ E3 E4 _); lra.
Qed.

(** ** Assembly *)
Lemma exp_high x : 6 <= x <= 690 -> 7 <= exp x <= 10 ^ 300.
Proof.
  intros H. split; [assert (K := exp_ineq1_le x); lra|]. destruct (exp_low x ltac:(lra)) as [A _]. rewrite exp_Ropp in A.
  assert (P := exp_pos x). assert (P3 : 0 < 10 ^ 300) by (apply pow_lt; lra). apply Rinv_le_contravar in A; [rewrite !Rinv_inv in A; exact A|apply Rinv_0_lt_compat, P3].
Qed.
Lemma tau_1 : tau <= / 10 ^ 293.
Proof. assert (T := tau304). assert (/ 10 ^ 304 <= / 10 ^ 293); [|lra]. apply Rinv_le_contravar; [apply pow_lt; lra|apply Rle_pow; [lra|lia]]. Qed.
Lemma big_2 z : z <= 2 * 10 ^ 300 -> z <= big.
Proof.
  intros H. apply Rle_trans with (1 := H). unfold big. replace (bpow radix2 1000) with (IZR (2 ^ 1000)) by reflexivity. rewrite pow_IZR, <- mult_IZR. apply IZR_le. vm_compute. discriminate.
Qed.
Lemma inv293 : / 10 ^ 293 <= / 1000.
Proof. apply Rinv_le_contravar; [lra|]. apply Rle_trans with (10 ^ 3); [simpl; lra|apply Rle_pow; [lra|lia]]. Qed.

Section High.
Context (kappa : R) (TT : NumTr f64) (HK : 0 <= kappa <= 4) (HE : libm_exp kappa TT).

Lemma lead (x : f64) : is_finite x = true -> 6 <= val x <= 690 -> rel (nexp x /! x) (exp (val x) / val x) (kappa + 103 / 100) /\ / 1000 <= exp (val x) / val x <= 10 ^ 300.
Proof.
  intros Fx Hx. assert (EX := exp_high _ Hx). assert (RE := exp_rel kappa TT HE x Fx ltac:(rewrite Rabs_pos_eq; lra)).
  assert (IX : / 690 <= / val x <= 1) by (split; [apply Rinv_le_contravar; lra|rewrite <- Rinv_1; apply Rinv_le_contravar; lra]).
  assert (B : / 1000 <= exp (val x) / val x <= 10 ^ 300).
  { unfold Rdiv. split; [apply Rle_trans with (7 * / 690); [lra|apply Rmult_le_compat; lra]|]. rewrite <- (Rmult_1_r (10 ^ 300)). apply Rmult_le_compat; lra. }
  split; [|exact B]. apply (rel_weaken _ _ (kappa + 0 + 103 / 100)); [|lra|lra]. apply rel_div; [exact RE|apply rel_fin, Fx|lra|lra|lra|].
  rewrite !Rabs_pos_eq by lra. assert (T := tau_1). assert (I := inv293). split; [lra|apply big_2; lra].
Qed.
Lemma high64 (x v : f64) r k : is_finite x = true -> 6 <= val x <= 690 -> rel v r k -> 0 <= k <= 1000 -> 7 / 10 <= r <= 14 / 10 ->
  rel ((nexp x /! x) *! v) (exp (val x) / val x * r) (kappa + k + 205 / 100).
Proof.
  intros Fx Hx Hv Hk Hr. destruct (lead x Fx Hx) as [L B]. assert (T := tau_1). assert (I := inv293).
  apply (rel_weaken _ _ (kappa + 103 / 100 + k + 102 / 100)); [|lra|lra]. apply rel_mult; [exact L|exact Hv|lra|lra|].
  rewrite !Rabs_pos_eq by lra. split.
  - apply Rle_trans with (/ 1000 * (7 / 10)); [|apply Rmult_le_compat; lra]. assert (I2 : / 10 ^ 293 <= / 10000) by (apply Rinv_le_contravar; [lra|]; apply Rle_trans with (10 ^ 4); [simpl; lra|apply Rle_pow; [lra|lia]]). lra.
  - apply big_2. apply Rle_trans with (10 ^ 300 * (14 / 10)); [apply Rmult_le_compat; lra|]. assert (0 < 10 ^ 300) by (apply pow_lt; lra). lra.
Qed.
End High.

(** One plus the fraction over [x]. *)
Lemma tail64 (x v : f64) r : is_finite x = true -> 24 <= val x <= 10 ^ 290 -> rel v r 11 -> 7 / 10 <= r <= 14 / 10 ->
  rel (nofZ 1 /! x) (1 / val x) (103 / 100) /\ / 10 ^ 290 <= 1 / val x <= 1 /\
  rel (nofZ 1 +! (nofZ 1 /! x) *! v) (1 + 1 / val x * r) (1407 / 100) /\ 1 <= 1 + 1 / val x * r <= 12 / 10.
Proof.
  intros Fx Hx Hv Hr. assert (V1 : val (nofZ 1 : f64) = 1) by (apply (ofZ_ok 1); reflexivity). assert (R1 := rel_fin (nofZ 1 : f64) eq_refl). rewrite V1 in R1.
  assert (T := tau_1). assert (I := inv293). set (one := nofZ 1 : f64) in *. clearbody one.
  assert (P0 : 0 < 10 ^ 290) by (apply pow_lt; lra).
  assert (IX : / 10 ^ 290 <= 1 / val x <= / 24).
  { unfold Rdiv. rewrite Rmult_1_l. split; apply Rinv_le_contravar; lra. }
  assert (P9 : / 10 ^ 293 = / 10 ^ 290 * / 1000) by (rewrite <- Rinv_mult; f_equal; replace 293%nat with (290 + 3)%nat by reflexivity; rewrite pow_add; f_equal; simpl; lra).
  assert (RI : rel (one /! x) (1 / val x) (103 / 100)).
  { apply (rel_weaken _ _ (0 + 0 + 103 / 100)); [|lra|lra]. apply rel_div; [exact R1|apply rel_fin, Fx|lra|lra|lra|]. rewrite !Rabs_pos_eq by lra. split; [lra|apply big_2].
    assert (1 <= 10 ^ 300) by (apply pow_R1_Rle; lra). lra. }
  set (i := 1 / val x) in *.
  assert (PR : / 10 ^ 290 * (7 / 10) <= i * r <= / 24 * (14 / 10)) by (assert (0 < / 10 ^ 290) by (apply Rinv_0_lt_compat; lra); split; apply Rmult_le_compat; lra).
  assert (P3 : 1 <= 10 ^ 300) by (apply pow_R1_Rle; lra). assert (0 < / 10 ^ 290) by (apply Rinv_0_lt_compat; lra).
  assert (RM : rel ((one /! x) *! v) (i * r) (103 / 100 + 11 + 102 / 100)).
  { apply rel_mult; [exact RI|exact Hv|lra|lra|]. rewrite !Rabs_pos_eq by lra. split; [lra|apply big_2; lra]. }
  split; [exact RI|]. split; [lra|]. split; [|lra].
  apply (rel_weaken _ _ (103 / 100 + 11 + 102 / 100 + 101 / 100)); [|lra|lra]. apply rel_plus with (k := 0) (l := 103 / 100 + 11 + 102 / 100); [exact R1|exact RM|lra|lra|lra|lra|].
  rewrite !Rabs_pos_eq by lra. apply big_2. lra.
Qed.

(** From a relative bound in roundings to the exact value. *)
Lemma u_dec : u53 <= 111023 / 1000000000000000000000.
Proof. unfold u53. simpl. lra. Qed.

Lemma guardsI (TT : NumTr f64) (x : f64) : is_finite x = true -> val fl8 < val x ->
  Ei_approximation (T := f64) x =
    if Rlt_bool (val x) 6 then
      let t := (x / nofZ 6)%num in
      let* p0 := vat ei6_p 0 in
      let* q0 := vat ei6_q 0 in
      let* nd := cheb_frac ei6_p ei6_q t 1 9 (nlit 1 2 * p0 * chebyshev_shifted 0 t)%num (nlit 1 2 * q0 * chebyshev_shifted 0 t)%num in
      Ok (nofZ 0 + nlog (x / ei_x0) + (x - ei_x0) * (fst nd / snd nd))%num
    else if Rlt_bool (val x) 12 then let* fraction := cf ei12_alpha ei12_beta x in Ok ((nexp x / x) * fraction)%num
    else if Rlt_bool (val x) 24 then let* fraction := cf ei24_alpha ei24_beta x in Ok ((nexp x / x) * fraction)%num
    else let* fraction := cf eiL_alpha eiL_beta x in Ok ((nexp x / x) * (nofZ 1 + (nofZ 1 / x) * fraction))%num.
Proof.
  intros F H. destruct fl8_val as [_ V8]. unfold Ei_approximation. rewrite rejected64 by exact F. rewrite Rle_bool_false by exact H.
  destruct (ofZ_ok 0 eq_refl) as (F0 & V0). destruct (ofZ_ok 6 eq_refl) as (F6 & V6). destruct (ofZ_ok 12 eq_refl) as (F12 & V12). destruct (ofZ_ok 24 eq_refl) as (F24 & V24).
  assert (N0 := nlt_fin (f64_ofZ 0) x F0 F). assert (N6 := nlt_fin x (f64_ofZ 6) F F6). assert (M6 := nle_fin (f64_ofZ 6) x F6 F).
  assert (N12 := nlt_fin x (f64_ofZ 12) F F12). assert (M12 := nle_fin (f64_ofZ 12) x F12 F). assert (N24 := nlt_fin x (f64_ofZ 24) F F24).
  rewrite V0 in N0. rewrite V6 in N6, M6. rewrite V12 in N12, M12. rewrite V24 in N24.
  change (@nofZ f64 F64Num) with f64_ofZ in *. rewrite (proj2 N0) by lra. cbn [andb].
  destruct (Rlt_bool_spec (val x) 6) as [L|L]; [rewrite (proj2 N6 L); reflexivity|].
  replace (nlt x (f64_ofZ 6)) with false by (symmetry; apply not_true_is_false; rewrite N6; lra). rewrite (proj2 M6 L). cbn [andb].
  destruct (Rlt_bool_spec (val x) 12) as [L2|L2]; [rewrite (proj2 N12 L2); reflexivity|].
  replace (nlt x (f64_ofZ 12)) with false by (symmetry; apply not_true_is_false; rewrite N12; lra). rewrite (proj2 M12 L2). cbn [andb].
  destruct (Rlt_bool_spec (val x) 24) as [L3|L3]; [rewrite (proj2 N24 L3); reflexivity|].
  replace (nlt x (f64_ofZ 24)) with false by (symmetry; apply not_true_is_false; rewrite N24; lra). reflexivity.
Qed.

Lemma vat_some {A} (l : list A) k : (k < length l)%nat -> exists a, vat l k = Ok a.
Proof. intros H. unfold vat. destruct (nth_error l k) eqn:E; [eexists; reflexivity|]. apply nth_error_None in E. lia. Qed.
Lemma cf_total (A B : list f64) x : length A = 10%nat -> length B = 9%nat -> exists v, cf A B x = Ok v.
Proof.
  intros LA LB. assert (G : forall j f, (j <= 9)%nat -> exists v, cf_loop A B x j f = Ok v).
  { induction j as [|j IH]; intros f H; [eexists; reflexivity|]. cbn [cf_loop]. destruct (vat_some B j ltac:(lia)) as [b ->]. destruct (vat_some A (Datatypes.S j) ltac:(lia)) as [a ->]. cbn [bind]. apply IH. lia. }
  unfold cf. destruct (G 9%nat (nofZ 0) ltac:(lia)) as [v ->]. destruct (vat_some A 0 ltac:(lia)) as [a ->]. eexists. reflexivity.
Qed.
Lemma cheb_frac_total (P Q : list f64) t : length P = 10%nat -> length Q = 10%nat -> forall n j a b, (j + n <= 10)%nat -> exists v, cheb_frac P Q t j n a b = Ok v.
Proof.
  intros LP LQ. induction n as [|n IH]; intros j a b H; [eexists; reflexivity|]. cbn [cheb_frac].
  destruct (vat_some P j ltac:(lia)) as [p ->]. destruct (vat_some Q j ltac:(lia)) as [q ->]. cbn [bind]. apply IH. lia.
Qed.
Lemma Eid_exit (TT : NumTr f64) (x : f64) : is_finite x = true ->
  (val x <= val fl8 -> Ei_approximation (T := f64) x = Exit 0) /\ (val fl8 < val x -> exists v, Ei_approximation (T := f64) x = Ok v).
Proof.
  intros F. split; intros H.
  - unfold Ei_approximation. rewrite rejected64 by exact F. rewrite Rle_bool_true by exact H. reflexivity.
  - rewrite guardsI by auto. cbv zeta.
    destruct (Rlt_bool (val x) 6); [|destruct (Rlt_bool (val x) 12); [|destruct (Rlt_bool (val x) 24)]].
    + destruct (vat_some (ei6_p (T := f64)) 0 ltac:(cbn; lia)) as [p ->]. destruct (vat_some (ei6_q (T := f64)) 0 ltac:(cbn; lia)) as [q ->]. cbn [bind].
      match goal with |- context [cheb_frac ?P ?Q ?t 1 9 ?a ?b] => destruct (cheb_frac_total P Q t eq_refl eq_refl 9 1 a b ltac:(lia)) as [nd ->] end. eexists. reflexivity.
    + destruct (cf_total (ei12_alpha (T := f64)) ei12_beta x eq_refl eq_refl) as [v ->]. eexists. reflexivity.
    + destruct (cf_total (ei24_alpha (T := f64)) ei24_beta x eq_refl eq_refl) as [v ->]. eexists. reflexivity.
    + destruct (cf_total (eiL_alpha (T := f64)) eiL_beta x eq_refl eq_refl) as [v ->]. eexists. reflexivity.
Qed.

(** ** Against the specification *)
Lemma rel_to (v : f64) c k e lo hi D : rel v c k -> 0 <= k <= 1000 -> 0 < e -> e * lo <= c <= e * hi -> 0 <= lo -> hi <= 11 / 10 -> k * (111023 * (11 / 10)) <= D * 1000000000000000000000 ->
  is_finite v = true /\ e * (lo - D) <= val v <= e * (hi + D).
Proof.
  intros (Fv & _ & E) Hk He Hc Hlo Hhi HD. split; [exact Fv|]. assert (C0 : 0 <= c) by (apply Rle_trans with (2 := proj1 Hc); apply Rmult_le_pos; lra).
  rewrite (Rabs_pos_eq c) in E by lra. assert (U := u_tiny). assert (UD := u_dec).
  assert (KU : k * u53 * (11 / 10) <= D).
  { apply Rle_trans with (k * (111023 / 1000000000000000000000) * (11 / 10)); [|lra]. apply Rmult_le_compat_r; [lra|]. apply Rmult_le_compat_l; lra. }
  assert (CE : k * u53 * c <= e * D).
  { apply Rle_trans with (k * u53 * (e * (11 / 10))).
    - apply Rmult_le_compat_l; [apply Rmult_le_pos; lra|]. apply Rle_trans with (1 := proj2 Hc). apply Rmult_le_compat_l; lra.
    - replace (k * u53 * (e * (11 / 10))) with (e * (k * u53 * (11 / 10))) by ring. apply Rmult_le_compat_l; lra. }
  apply Rabs_le_inv in E. replace (e * (lo - D)) with (e * lo - e * D) by ring. replace (e * (hi + D)) with (e * hi + e * D) by ring. lra.
Qed.

Lemma Ei_at_6' : 0 < EI 6 /\ EI 6 * (1 + 236 / 10000000000000) <= cfF N12 D12 6.
Proof.
  split; [apply EI_pos; lra|]. destruct (close12k 6 ltac:(lra)) as [_ [P1 _]]. destruct (close12 6 ltac:(lra)) as [_ [P2 [_ R]]].
  assert (J := at_ok_val _ _ _ _ _ _ _ def6_check).
  apply cfF_le in J; [|lra..]. destruct EI_6 as [V K]. unfold d18 in K. unfold k21 in R. apply Rabs_le_inv in K. lra.
Qed.
Section Final.
Context (kappa : R) (TT : NumTr f64) (HK : 0 <= kappa <= 4).

Lemma low_valI (HL : libm_log kappa TT) (x : f64) P Q : is_finite x = true -> / 1000000000 <= val x < 6 -> lits P (units unit25 z6_p) -> lits Q (units unit25 z6_q) ->
  exists p0 q0 nd, vat P 0 = Ok p0 /\ vat Q 0 = Ok q0 /\
    cheb_frac P Q (x / nofZ 6)%num 1 9 (nlit 1 2 * p0 * chebyshev_shifted 0 (x / nofZ 6))%num (nlit 1 2 * q0 * chebyshev_shifted 0 (x / nofZ 6))%num = Ok nd /\
    within (8 / 100000000000000 * (1 + Rabs (ln (val x)) + Rabs (EI (val x)))) (nofZ 0 +! nlog (x /! ei_x0) +! (x -! ei_x0) *! (fst nd /! snd nd)) (EI (val x)).
Proof.
  intros Fx Hx HP HQ. destruct (ratio64 x P Q Fx ltac:(lra) HP HQ) as (p0 & q0 & n & d & V0 & V1 & C & RR & RB).
  exists p0, q0, (n, d). split; [exact V0|]. split; [exact V1|]. split; [exact C|]. cbn [fst snd].
  assert (L := low64 kappa TT HK HL x _ Fx Hx RR RB). cbv zeta in L. destruct L as [FV EV].
  split; [exact FV|]. unfold dvalue. assert (E6 := F6_error (val x) ltac:(lra)). unfold F6 in E6.
  set (fv := ln (val x / x0) + (val x - x0) * (zev P6 (val x / 6) / zev Q6 (val x / 6))) in *.
  set (v := nofZ 0 +! nlog (x /! ei_x0) +! (x -! ei_x0) *! (n /! d)) in *. clearbody v fv. assert (U := u_tiny). assert (UD := u_dec).
  assert (AL := Rabs_pos (ln (val x))). assert (AE := Rabs_pos (EI (val x))). assert (AF := E6). apply abs_le_sum in AF.
  replace (val v - EI (val x)) with ((val v - fv) + (fv - EI (val x))) by ring. eapply Rle_trans; [apply Rabs_triang|].
  set (l := Rabs (ln (val x))) in *. set (e := Rabs (EI (val x))) in *.
  assert (Q1 : (633 + 537 * l + 533 * Rabs fv) * u53 <= (634 + 537 * l + 533 * e) * (111023 / 1000000000000000000000)) by (apply Rmult_le_compat; try lra; assert (0 <= Rabs fv) by apply Rabs_pos; lra).
  lra.
Qed.
Lemma val12 (HE : libm_exp kappa TT) (x : f64) A B : is_finite x = true -> 6 <= val x < 12 -> lits A (units unit25 z12_a) -> lits B (units unit25 z12_b) ->
  exists f, cf A B x = Ok f /\ rel ((nexp x /! x) *! f) (cfF N12 D12 (val x)) 631.
Proof.
  intros Fx Hx HA HB. destruct (frac12 A B x Fx HA HB Hx) as (f & C & Rf & Bf). exists f. split; [exact C|].
  apply (rel_weaken _ _ (kappa + 624 + 205 / 100)); [|lra|lra]. apply (high64 kappa TT HK HE x f _ 624 Fx ltac:(lra) Rf ltac:(lra) Bf).
Qed.
Lemma val24 (HE : libm_exp kappa TT) (x : f64) A B : is_finite x = true -> 12 <= val x < 24 -> lits A (units unit25 z24_a) -> lits B (units unit25 z24_b) ->
  exists f, cf A B x = Ok f /\ rel ((nexp x /! x) *! f) (cfF N24 D24 (val x)) 67.
Proof.
  intros Fx Hx HA HB. destruct (frac24 A B x Fx HA HB Hx) as (f & C & Rf & Bf). exists f. split; [exact C|].
  apply (rel_weaken _ _ (kappa + 60 + 205 / 100)); [|lra|lra]. apply (high64 kappa TT HK HE x f _ 60 Fx ltac:(lra) Rf ltac:(lra) Bf).
Qed.
Lemma valL (HE : libm_exp kappa TT) (x : f64) A B : is_finite x = true -> 24 <= val x <= 690 -> lits A (units unit25 zL_a) -> lits B (units unit25 zL_b) ->
  exists f, cf A B x = Ok f /\ rel ((nexp x /! x) *! (nofZ 1 +! (nofZ 1 /! x) *! f)) (cfF AL BL (val x)) 21.
Proof.
  intros Fx Hx HA HB. assert (P := p290). destruct (fracL A B x Fx HA HB ltac:(lra)) as (f & C & Rf & Bf). exists f. split; [exact C|].
  destruct (tail64 x f _ Fx ltac:(lra) Rf Bf) as (_ & _ & RT & BT). rewrite cfL by lra.
  apply (rel_weaken _ _ (kappa + 1407 / 100 + 205 / 100)); [|lra|lra]. apply (high64 kappa TT HK HE x _ _ (1407 / 100) Fx ltac:(lra) RT ltac:(lra)). assert (BT' : 7 / 10 <= 1 + 1 / val x * frac_of zL_a zL_b (val x) <= 14 / 10) by lra. exact BT'.
Qed.

Lemma acc12 (HE : libm_exp kappa TT) (x : f64) A B e : is_finite x = true -> 6 <= val x < 12 -> lits A (units unit25 z12_a) -> lits B (units unit25 z12_b) -> is_Ei (val x) e ->
  exists f, cf A B x = Ok f /\ let v := (nexp x /! x) *! f in is_finite v = true /\ 0 < e /\ e * (1 - 8 / 100000000000000) <= val v <= e * (1 + 242 / 10000000000000) /\
    (val x = 6 -> e * (1 + 235 / 10000000000000) <= val v).
Proof.
  intros Fx Hx HA HB E. apply is_Ei_EI in E; [|lra]. subst e. destruct (val12 HE x A B Fx Hx HA HB) as (f & C & RV). exists f. split; [exact C|].
  assert (EP := EI_pos (val x) ltac:(lra)). assert (CD := code12 (val x) ltac:(lra)). cbv zeta.
  destruct (rel_to _ _ _ (EI (val x)) _ _ (79 / 1000000000000000) RV ltac:(lra) EP CD ltac:(lra) ltac:(lra) ltac:(lra)) as [Fv Bv]. split; [exact Fv|]. split; [exact EP|]. split.
  - set (ei := EI (val x)) in *. split; [apply Rle_trans with (2 := proj1 Bv)|apply Rle_trans with (1 := proj2 Bv)]; apply Rmult_le_compat_l; lra.
  - intros X6. rewrite X6 in *. destruct Ei_at_6' as [E6 D6].
    assert (CD' : EI 6 * (1 + 236 / 10000000000000) <= cfF N12 D12 6 <= EI 6 * (1 + 24 / 1000000000000)) by (split; [lra|apply CD]).
    destruct (rel_to _ _ _ (EI 6) _ _ (79 / 1000000000000000) RV ltac:(lra) EP CD' ltac:(lra) ltac:(lra) ltac:(lra)) as [_ Bv'].
    apply Rle_trans with (2 := proj1 Bv'). apply Rmult_le_compat_l; lra.
Qed.
Lemma acc24 (HE : libm_exp kappa TT) (x : f64) A B e : is_finite x = true -> 12 <= val x < 24 -> lits A (units unit25 z24_a) -> lits B (units unit25 z24_b) -> is_Ei (val x) e ->
  exists f, cf A B x = Ok f /\ 0 < e /\ within (9 / 1000000000000000 * e) ((nexp x /! x) *! f) e.
Proof.
  intros Fx Hx HA HB E. apply is_Ei_EI in E; [|lra]. subst e. destruct (val24 HE x A B Fx Hx HA HB) as (f & C & RV). exists f. split; [exact C|].
  assert (EP := EI_pos (val x) ltac:(lra)). split; [exact EP|]. assert (CD := ok24 (val x) ltac:(lra)). unfold d18 in CD. apply Rabs_le_inv in CD.
  destruct (rel_to _ _ _ (EI (val x)) (1 - 32 / 1000000000000000000) (1 + 32 / 1000000000000000000) (85 / 10000000000000000) RV ltac:(lra) EP ltac:(split; lra) ltac:(lra) ltac:(lra) ltac:(lra)) as [Fv Bv].
  split; [exact Fv|]. unfold dvalue. apply Rabs_le. lra.
Qed.
Lemma accL (HE : libm_exp kappa TT) (x : f64) A B e : is_finite x = true -> 24 <= val x <= 690 -> lits A (units unit25 zL_a) -> lits B (units unit25 zL_b) -> is_Ei (val x) e ->
  exists f, cf A B x = Ok f /\ 0 < e /\ within (3 / 1000000000000000 * e) ((nexp x /! x) *! (nofZ 1 +! (nofZ 1 /! x) *! f)) e.
Proof.
  intros Fx Hx HA HB E. apply is_Ei_EI in E; [|lra]. subst e. destruct (valL HE x A B Fx Hx HA HB) as (f & C & RV). exists f. split; [exact C|].
  assert (EP := EI_pos (val x) ltac:(lra)). split; [exact EP|]. assert (CD := okL (val x) ltac:(lra)). unfold d18 in CD. apply Rabs_le_inv in CD.
  destruct (rel_to _ _ _ (EI (val x)) (1 - 40 / 1000000000000000000) (1 + 40 / 1000000000000000000) (28 / 10000000000000000) RV ltac:(lra) EP ltac:(split; lra) ltac:(lra) ltac:(lra) ltac:(lra)) as [Fv Bv].
  split; [exact Fv|]. unfold dvalue. apply Rabs_le. lra.
Qed.
End Final.

Section Function.
Context (kappa : R) (TT : NumTr f64) (HK : 0 <= kappa <= 4).

Lemma Eid_low (HL : libm_log kappa TT) (x : f64) e : is_finite x = true -> val fl8 < val x < 6 -> is_Ei (val x) e ->
  exists v, Ei_approximation (T := f64) x = Ok v /\ within (8 / 100000000000000 * (1 + Rabs (ln (val x)) + Rabs e)) v e.
Proof.
  intros Fx Hx E. destruct fl8_val as [_ V8]. apply is_Ei_EI in E; [|lra]. subst e.
  destruct (low_valI kappa TT HK HL x _ _ Fx ltac:(lra) lits6_p lits6_q) as (p0 & q0 & nd & V0 & V1 & C & W).
  rewrite guardsI by (auto; lra). rewrite Rlt_bool_true by lra. cbv zeta. rewrite V0, V1. cbn [bind]. rewrite C. cbn [bind]. eexists. split; [reflexivity|exact W].
Qed.
Lemma Eid_12 (HE : libm_exp kappa TT) (x : f64) e : is_finite x = true -> 6 <= val x < 12 -> is_Ei (val x) e ->
  exists v, Ei_approximation (T := f64) x = Ok v /\ is_finite v = true /\ 0 < e /\ e * (1 - 8 / 100000000000000) <= val v <= e * (1 + 242 / 10000000000000) /\
    (val x = 6 -> e * (1 + 235 / 10000000000000) <= val v).
Proof.
  intros Fx Hx E. destruct fl8_val as [_ V8]. destruct (acc12 kappa TT HK HE x _ _ e Fx Hx lits12_a lits12_b E) as (f & C & G).
  rewrite guardsI by (auto; lra). rewrite Rlt_bool_false by lra. rewrite Rlt_bool_true by lra. rewrite C. cbn [bind]. eexists. split; [reflexivity|exact G].
Qed.
Lemma Eid_24 (HE : libm_exp kappa TT) (x : f64) e : is_finite x = true -> 12 <= val x < 24 -> is_Ei (val x) e ->
  exists v, Ei_approximation (T := f64) x = Ok v /\ 0 < e /\ within (9 / 1000000000000000 * e) v e.
Proof.
  intros Fx Hx E. destruct fl8_val as [_ V8]. destruct (acc24 kappa TT HK HE x _ _ e Fx Hx lits24_a lits24_b E) as (f & C & G).
  rewrite guardsI by (auto; lra). rewrite !Rlt_bool_false by lra. rewrite Rlt_bool_true by lra. rewrite C. cbn [bind]. eexists. split; [reflexivity|exact G].
Qed.
Lemma Eid_L (HE : libm_exp kappa TT) (x : f64) e : is_finite x = true -> 24 <= val x <= 690 -> is_Ei (val x) e ->
  exists v, Ei_approximation (T := f64) x = Ok v /\ 0 < e /\ within (3 / 1000000000000000 * e) v e.
Proof.
  intros Fx Hx E. destruct fl8_val as [_ V8]. destruct (accL kappa TT HK HE x _ _ e Fx Hx litsL_a litsL_b E) as (f & C & G).
  rewrite guardsI by (auto; lra). rewrite !Rlt_bool_false by lra. rewrite C. cbn [bind]. eexists. split; [reflexivity|exact G].
Qed.
End Function.

(** ** The scaled function *)
Lemma accE (x : f64) A B e : is_finite x = true -> 24 <= val x <= 10 ^ 290 -> lits A (units unit25 zL_a) -> lits B (units unit25 zL_b) -> is_Ei (val x) e ->
  exists f, cf A B x = Ok f /\ 0 < exp (- val x) * e /\ within (3 / 1000000000000000 * (exp (- val x) * e)) ((nofZ 1 /! x) *! (nofZ 1 +! (nofZ 1 /! x) *! f)) (exp (- val x) * e).
Proof.
  intros Fx Hx HA HB E. destruct (fracL A B x Fx HA HB Hx) as (f & C & Rf & Bf). exists f. split; [exact C|].
  destruct (tail64 x f _ Fx Hx Rf Bf) as (RI & BI & RT & BT).
  destruct (expEi_accuracy (fun y => y) (val x) e ltac:(lra) E) as (w & W1 & W2). rewrite (expEi_L _ (val x) ltac:(lra)) in W1. apply ok_inj in W1.
  change (1 / val x * (1 + 1 / val x * frac_of zL_a zL_b (val x)) = w) in W1. set (i := 1 / val x) in *. set (g := 1 + i * frac_of zL_a zL_b (val x)) in *.
  assert (EP : 0 < e) by (apply is_Ei_EI in E; [subst e; apply EI_pos; lra|lra]). assert (XP := exp_pos (- val x)).
  assert (SP : 0 < exp (- val x) * e) by (apply Rmult_lt_0_compat; lra). split; [exact SP|]. set (se := exp (- val x) * e) in *. clearbody se.
  assert (P9 : / 10 ^ 293 = / 10 ^ 290 * / 1000) by (rewrite <- Rinv_mult; f_equal; replace 293%nat with (290 + 3)%nat by reflexivity; rewrite pow_add; f_equal; simpl; lra).
  assert (I0 : 0 < / 10 ^ 290) by (apply Rinv_0_lt_compat, pow_lt; lra). assert (T := tau_1). assert (P3 : 1 <= 10 ^ 300) by (apply pow_R1_Rle; lra).
  assert (RV : rel ((nofZ 1 /! x) *! (nofZ 1 +! (nofZ 1 /! x) *! f)) (i * g) (103 / 100 + 1407 / 100 + 102 / 100)).
  { apply rel_mult; [exact RI|exact RT|lra|lra|]. rewrite !Rabs_pos_eq by lra. split.
    - apply Rle_trans with (/ 10 ^ 290 * 1); [lra|apply Rmult_le_compat; lra].
    - apply big_2. apply Rle_trans with (1 * (12 / 10)); [apply Rmult_le_compat; lra|lra]. }
  rewrite W1 in RV. apply Rabs_le_inv in W2.
  destruct (rel_to _ _ _ se (1 - 4 / 100000000000000000) (1 + 4 / 100000000000000000) (28 / 10000000000000000) RV ltac:(lra) SP ltac:(split; lra) ltac:(lra) ltac:(lra) ltac:(lra)) as [Fv Bv].
  split; [exact Fv|]. unfold dvalue. apply Rabs_le. lra.
Qed.
Lemma expEid (TT : NumTr f64) (Ei0 : f64 -> f64) (x : f64) e : is_finite x = true -> 24 <= val x <= 10 ^ 290 -> is_Ei (val x) e ->
  exists v, expEi (T := f64) Ei0 x = Ok v /\ 0 < exp (- val x) * e /\ within (3 / 1000000000000000 * (exp (- val x) * e)) v (exp (- val x) * e).
Proof.
  intros Fx Hx E. destruct (accE x _ _ e Fx Hx litsE_a litsE_b E) as (f & C & G).
  destruct (ofZ_ok 24 eq_refl) as (F24 & V24). assert (N24 := nlt_fin x (f64_ofZ 24) Fx F24). rewrite V24 in N24.
  unfold expEi. change (@nofZ f64 F64Num 24) with (f64_ofZ 24). replace (nlt x (f64_ofZ 24)) with false by (symmetry; apply not_true_is_false; rewrite N24; lra).
  rewrite C. cbn [bind]. eexists. split; [reflexivity|exact G].
Qed.

Lemma Eid_example : (exists v, Ei_approximation (NR := exact_explog) (f64_ofZ 6) = Ok v /\ forall e, is_Ei 6 e -> 235 / 10000000000000 * e <= dvalue v - e) /\
  (exists v, Ei_approximation (NR := exact_explog) (nlit 1 2 : f64) = Ok v /\ forall e, is_Ei (1 / 2) e -> within (8 / 100000000000000 * (1 + Rabs (ln (1 / 2)) + Rabs e)) v e) /\
  (exists v, Ei_approximation (NR := exact_explog) (f64_ofZ 18) = Ok v /\ forall e, is_Ei 18 e -> within (9 / 1000000000000000 * e) v e) /\
  (exists v, Ei_approximation (NR := exact_explog) (f64_ofZ 100) = Ok v /\ forall e, is_Ei 100 e -> within (3 / 1000000000000000 * e) v e) /\
  (exists v, expEi (NR := exact_explog) (fun y => y) (f64_ofZ 100) = Ok v /\ forall e, is_Ei 100 e -> within (3 / 1000000000000000 * (exp (- 100) * e)) v (exp (- 100) * e)) /\
  Ei_approximation (NR := exact_explog) (f64_ofZ 0) = Exit 0.
Proof.
  destruct exact_explog_near as [HE HL]. destruct fl8_val as [_ V8].
  assert (U : forall x e e', 0 < x -> is_Ei x e -> is_Ei x e' -> e = e') by (intros x e e' H A B; rewrite (is_Ei_EI x e H A), (is_Ei_EI x e' H B); reflexivity).
  destruct (ofZ_ok 6 eq_refl) as (F6 & V6). destruct half_val as [FH VH]. destruct (ofZ_ok 18 eq_refl) as (F18 & V18). destruct (ofZ_ok 100 eq_refl) as (F100 & V100).
  assert (P := p290). split; [|split; [|split; [|split; [|split]]]].
  - destruct (Eid_12 1 exact_explog ltac:(lra) HE (f64_ofZ 6) (EI 6) F6 ltac:(lra) ltac:(rewrite V6; apply EI_is_Ei; lra)) as (v & E & _ & _ & _ & L).
    exists v. split; [exact E|]. intros e He. rewrite (is_Ei_EI 6 e ltac:(lra) He). specialize (L V6). unfold dvalue. lra.
  - destruct (Eid_low 1 exact_explog ltac:(lra) HL (nlit 1 2) (EI (1 / 2)) FH ltac:(rewrite VH; lra) ltac:(rewrite VH; apply EI_is_Ei; lra)) as (v & E & W).
    exists v. split; [exact E|]. intros e He. rewrite (is_Ei_EI (1 / 2) e ltac:(lra) He). rewrite VH in W. exact W.
  - destruct (Eid_24 1 exact_explog ltac:(lra) HE (f64_ofZ 18) (EI 18) F18 ltac:(lra) ltac:(rewrite V18; apply EI_is_Ei; lra)) as (v & E & _ & W).
    exists v. split; [exact E|]. intros e He. rewrite (is_Ei_EI 18 e ltac:(lra) He). exact W.
  - destruct (Eid_L 1 exact_explog ltac:(lra) HE (f64_ofZ 100) (EI 100) F100 ltac:(lra) ltac:(rewrite V100; apply EI_is_Ei; lra)) as (v & E & _ & W).
    exists v. split; [exact E|]. intros e He. rewrite (is_Ei_EI 100 e ltac:(lra) He). exact W.
  - destruct (expEid exact_explog (fun y => y) (f64_ofZ 100) (EI 100) F100 ltac:(lra) ltac:(rewrite V100; apply EI_is_Ei; lra)) as (v & E & _ & W).
    exists v. split; [exact E|]. intros e He. rewrite (is_Ei_EI 100 e ltac:(lra) He). rewrite V100 in W. exact W.
  - apply (Eid_exit exact_explog); [reflexivity|]. change (val (f64_ofZ 0)) with 0. lra.
Qed.

(** ** Any rounding of the literals *)
Lemma any12 kappa TT : 0 <= kappa <= 4 -> libm_exp kappa TT -> forall (x : f64) A B e, is_finite x = true -> 6 <= val x < 12 -> literals A ei12_alpha -> literals B ei12_beta -> is_Ei (val x) e ->
  exists f, cf A B x = Ok f /\ let v := nmul (ndiv (nexp x) x) f in is_finite v = true /\ 0 < e /\
    e * (1 - 8 / 100000000000000) <= val v <= e * (1 + 242 / 10000000000000) /\ (val x = 6 -> e * (1 + 235 / 10000000000000) <= val v).
Proof. intros HK HE x A B e F Hx HA HB. apply lits_of in HA, HB. rewrite z12_a_eq in HA. rewrite z12_b_eq in HB. apply (acc12 kappa TT HK HE x A B e F Hx HA HB). Qed.
Lemma any24 kappa TT : 0 <= kappa <= 4 -> libm_exp kappa TT -> forall (x : f64) A B e, is_finite x = true -> 12 <= val x < 24 -> literals A ei24_alpha -> literals B ei24_beta -> is_Ei (val x) e ->
  exists f, cf A B x = Ok f /\ 0 < e /\ within (9 / 1000000000000000 * e) (nmul (ndiv (nexp x) x) f) e.
Proof. intros HK HE x A B e F Hx HA HB. apply lits_of in HA, HB. rewrite z24_a_eq in HA. rewrite z24_b_eq in HB. apply (acc24 kappa TT HK HE x A B e F Hx HA HB). Qed.
Lemma anyL kappa TT : 0 <= kappa <= 4 -> libm_exp kappa TT -> forall (x : f64) A B e, is_finite x = true -> 24 <= val x <= 690 -> literals A eiL_alpha -> literals B eiL_beta -> is_Ei (val x) e ->
  exists f, cf A B x = Ok f /\ 0 < e /\ within (3 / 1000000000000000 * e) (nmul (ndiv (nexp x) x) (nadd (nofZ 1) (nmul (ndiv (nofZ 1) x) f))) e.
Proof. intros HK HE x A B e F Hx HA HB. apply lits_of in HA, HB. rewrite zL_a_eq in HA. rewrite zL_b_eq in HB. apply (accL kappa TT HK HE x A B e F Hx HA HB). Qed.
