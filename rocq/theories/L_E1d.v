(** Lemmas on the exponential integrals in double. *)
From Coq Require Import List Arith ZArith Reals Bool Lia Lra Psatz.
From Flocq Require Import Core.Core IEEE754.BinarySingleNaN.
From Verif Require Import Outcome Num NumFun F64 M_Series M_Basics M_Special S_Special L_F64 L_Linspace64 L_F64Err L_Interp64 L_Apx
  L_Special64 L_Special L_Expint L_E1 S_Angles S_Double S_Rot64 S_E1d.
Import ListNotations.
Local Open Scope R_scope.

(** Relative errors. *)
Definition rel (f : f64) (r k : R) : Prop := apx f r (Rabs r) k.

Lemma rel_weaken f r k k' : rel f r k -> 0 <= k -> k <= k' -> rel f r k'.
Proof. intros H K L. apply apx_weaken with (1 := H); auto. lra. Qed.
Lemma rel_fin f : is_finite f = true -> rel f (val f) 0.
Proof. intros F. apply apx_id; auto. lra. Qed.

Lemma rel_plus f g a b k l K : rel f a k -> rel g b l -> 0 <= k <= K -> 0 <= l <= K -> K <= 1000000 ->
  0 <= a * b -> Rabs a + Rabs b <= big -> rel (f +! g) (a + b) (K + 101 / 100).
Proof.
  intros Hf Hg Hk Hl HK S B. unfold rel. replace (Rabs (a + b)) with (Rabs a + Rabs b).
  - apply apx_plus with (k := k) (l := l); auto.
  - destruct (Rle_dec 0 a) as [A|A], (Rle_dec 0 b) as [C|C].
    + rewrite !Rabs_pos_eq; lra.
    + assert (a = 0 \/ a <> 0) as [->|Z] by lra; [rewrite Rabs_R0, !Rplus_0_l; reflexivity|nra].
    + assert (b = 0 \/ b <> 0) as [->|Z] by lra; [rewrite Rabs_R0, !Rplus_0_r; reflexivity|nra].
    + rewrite !Rabs_left; lra.
Qed.
Lemma rel_mult f g a b k l : rel f a k -> rel g b l -> 0 <= k <= 100000 -> 0 <= l <= 100000 ->
  tau <= Rabs a * Rabs b <= big -> rel (f *! g) (a * b) (k + l + 102 / 100).
Proof. intros. unfold rel. rewrite Rabs_mult. apply apx_mult; auto. Qed.
Lemma rel_div f g a b k l : rel f a k -> rel g b l -> b <> 0 -> 0 <= k <= 100000 -> 0 <= l <= 100000 ->
  tau <= Rabs a / Rabs b <= big -> rel (f /! g) (a / b) (k + l + 103 / 100).
Proof. intros. unfold rel, Rdiv. rewrite Rabs_mult, Rabs_inv. apply apx_div; auto. Qed.

(** Ordinary sizes are far from the limits. *)
Lemma tau_small : tau <= / 10 ^ 300.
Proof.
  unfold tau. replace (bpow radix2 (-1010)) with (/ IZR (2 ^ 1010)) by reflexivity.
  rewrite pow_IZR. apply Rinv_le_contravar; [apply IZR_lt; reflexivity|]. apply IZR_le. vm_compute. discriminate.
Qed.
Lemma big_large : 10 ^ 300 <= big.
Proof. unfold big. replace (bpow radix2 1000) with (IZR (2 ^ 1000)) by reflexivity. rewrite pow_IZR. apply IZR_le. vm_compute. discriminate. Qed.
Lemma p300 : 10 ^ 100 <= 10 ^ 300 /\ / 10 ^ 300 <= / 10 ^ 100.
Proof.
  assert (A : 10 ^ 100 <= 10 ^ 300) by (apply Rle_pow; [lra|lia]). split; auto. apply Rinv_le_contravar; auto. apply pow_lt. lra.
Qed.
Lemma mid_range z : / 10 ^ 100 <= z <= 10 ^ 100 -> tau <= z <= big.
Proof. intros H. assert (A := tau_small). assert (B := big_large). destruct p300. lra. Qed.

(** Literals. *)
Lemma ofZ_rel z : (0 < Z.abs z <= 2 ^ 200)%Z -> rel (f64_ofZ z) (IZR z) 1.
Proof.
  intros H. assert (O : Rabs (IZR z) <= bpow radix2 200).
  { rewrite <- abs_IZR. change (bpow radix2 200) with (IZR (2 ^ 200)). apply IZR_le. lia. }
  unfold f64_ofZ. generalize (binary_normalize_correct 53 1024 eq_refl eq_refl mode_NE z 0 false).
  cbv zeta. simpl round_mode. replace (F2R (Float radix2 z 0)) with (IZR z) by (unfold F2R; simpl; ring).
  rewrite Rlt_bool_true.
  2:{ apply no_overflow. apply small_no_overflow. apply Rle_trans with (1 := O). apply bpow_le. lia. }
  intros (E & F & _). split; [exact F|]. split; [lra|]. rewrite Rmult_1_l.
  apply Rle_trans with (Rabs (rnd64 (IZR z) - IZR z)); [right; do 2 f_equal; exact E|]. apply rel_err.
  apply Rle_trans with 1; [change 1 with (bpow radix2 0); apply bpow_le; lia|]. rewrite <- abs_IZR. apply IZR_le. lia.
Qed.
Lemma lit_rel p q : (0 < Z.abs p <= 2 ^ 200)%Z -> (0 < q <= 2 ^ 200)%Z -> rel (nlit (T := f64) p q) (IZR p / IZR q) 4.
Proof.
  intros P Q. assert (A := ofZ_rel p P). assert (B := ofZ_rel q ltac:(lia)).
  assert (P1 : 1 <= Rabs (IZR p) <= 2 ^ 200).
  { rewrite <- abs_IZR, pow_IZR. split; apply IZR_le; lia. }
  assert (Q1 : 1 <= IZR q <= 2 ^ 200) by (rewrite pow_IZR; split; apply IZR_le; lia).
  assert (C : 2 ^ 200 <= 10 ^ 100).
  { replace (2 ^ 200) with (4 ^ 100) by (rewrite !pow_IZR; apply f_equal; reflexivity). apply pow_incr. lra. }
  eapply rel_weaken; [apply (rel_div _ _ _ _ 1 1 A B); try lra|lra|lra].
  apply mid_range. rewrite (Rabs_pos_eq (IZR q)) by lra. assert (T := pow_lt 10 100 ltac:(lra)). split.
  - unfold Rdiv. rewrite <- (Rmult_1_l (/ 10 ^ 100)). assert (/ 10 ^ 100 <= / IZR q) by (apply Rinv_le_contravar; lra).
    assert (0 < / 10 ^ 100) by (apply Rinv_0_lt_compat; lra). apply Rmult_le_compat; lra.
  - apply Rmult_le_reg_r with (IZR q); [lra|]. unfold Rdiv. rewrite Rmult_assoc, Rinv_l by lra.
    assert (10 ^ 100 * 1 <= 10 ^ 100 * IZR q) by (apply Rmult_le_compat_l; lra). lra.
Qed.

Definition lits (P : list f64) (p : list R) : Prop := Forall2 (fun f r => rel f r 4) P p.
Lemma lits_of P p : literals P p -> lits P p.
Proof.
  intros H. induction H as [|f r P p (F & E) H IH]; constructor; auto. split; [exact F|]. split; [lra|exact E].
Qed.

(** The sums of lines 507-511 and 544-548 in double. *)
Definition sized (c : R) : Prop := / 10 ^ 9 <= Rabs c <= 10 ^ 7.
Lemma inv_frac_near (x : f64) (s : R) (P Q : list f64) (p q : list R) : is_finite x = true -> 1 <= val x <= 1000 -> s * s = 1 ->
  lits P p -> lits Q q -> Forall sized p -> Forall sized q -> Forall (fun c => 0 <= s * c) p -> Forall (fun c => 0 <= c) q ->
  length p = length q -> forall (P1 Q1 : list f64) (xn num den : f64) (xr a b : R) (j : nat),
  length P1 = j -> length Q1 = j -> (j + length p <= 10)%nat ->
  rel xn xr (2 * INR j) -> (/ 1000) ^ j <= xr <= 1 -> rel num a (30 + 2 * INR j) -> rel den b (30 + 2 * INR j) ->
  0 <= s * a -> Rabs a <= 10 ^ 7 * INR j -> 0 <= b -> b <= 10 ^ 7 * INR j ->
  exists n d, inv_frac (T := f64) (P1 ++ P) (Q1 ++ Q) x j (length P) xn num den = Ok (n, d) /\
    rel n (a + xr * pev p (/ val x)) (30 + 2 * INR (j + length p)) /\ rel d (b + xr * pev q (/ val x)) (30 + 2 * INR (j + length p)).
Proof.
  intros F Hx Hs LP LQ SP SQ GP GQ LE. revert Q q LQ SQ GQ LE.
  induction LP as [|f c P p Hf LP IH]; intros Q q LQ SQ GQ LE P1 Q1 xn num den xr a b j L1 L2 LJ HX BX HA HB Sa Ba Sb Bb.
  - destruct q; [|discriminate LE]. exists num, den. split; [reflexivity|]. cbn [length pev]. rewrite Nat.add_0_r, Rmult_0_r, !Rplus_0_r. split; assumption.
  - inversion LQ as [|g d Q' q' Hg LQ']; subst; [discriminate LE|].
    inversion SP as [|? ? Sc SP']; subst. inversion SQ as [|? ? Sd SQ']; subst.
    inversion GP as [|? ? Gc GP']; subst. inversion GQ as [|? ? Gd GQ']; subst.
    cbn [length] in *. set (j := length P1) in *.
    assert (J : 0 <= INR j) by apply pos_INR. assert (J9 : INR j <= 9) by (replace 9 with (INR 9) by (cbn; lra); apply le_INR; lia).
    assert (X0 : 0 < (/ 1000) ^ j) by (apply pow_lt; lra).
    assert (X27 : / 10 ^ 27 <= xr).
    { apply Rle_trans with ((/ 1000) ^ j); [|lra]. replace (/ 10 ^ 27) with ((/ 1000) ^ 9) by field.
      clear - LJ. assert (Hj : (j <= 9)%nat) by lia. revert Hj. generalize j. intros n Hn.
      do 10 (destruct n as [|n]; [lra|]). lia. }
    destruct Sc as [Sc1 Sc2]. destruct Sd as [Sd1 Sd2].
    assert (MUL : forall h e, rel h e 4 -> / 10 ^ 9 <= Rabs e <= 10 ^ 7 -> rel (h *! xn) (e * xr) (30 + 2 * INR j) /\ Rabs (e * xr) <= 10 ^ 7).
    { intros h e He Be. assert (B2 : Rabs e * Rabs xr <= 10 ^ 7 * 1) by (rewrite (Rabs_pos_eq xr) by lra; apply Rmult_le_compat; try lra; apply Rabs_pos).
      assert (B1 : / 10 ^ 9 * / 10 ^ 27 <= Rabs e * Rabs xr) by (rewrite (Rabs_pos_eq xr) by lra; apply Rmult_le_compat; lra).
      split.
      - eapply rel_weaken; [apply (rel_mult _ _ _ _ _ _ He HX); try lra|lra|lra].
        apply mid_range. split.
        + apply Rle_trans with (2 := B1). rewrite <- Rinv_mult. apply Rinv_le_contravar; [lra|]. rewrite <- pow_add. apply Rle_pow; [lra|lia].
        + apply Rle_trans with (1 := B2). rewrite Rmult_1_r. apply Rle_pow; [lra|lia].
      - rewrite Rabs_mult. lra. }
    destruct (MUL f c Hf (conj Sc1 Sc2)) as (M1 & N1). destruct (MUL g d Hg (conj Sd1 Sd2)) as (M2 & N2).
    assert (BG := mid_range 1 ltac:(split; [|]; [rewrite <- Rinv_1; apply Rinv_le_contravar; [lra|]; apply pow_R1_Rle; lra|apply pow_R1_Rle; lra])).
    assert (BG2 : 10 ^ 9 <= big) by (assert (G := big_large); assert (10 ^ 9 <= 10 ^ 300) by (apply Rle_pow; [lra|lia]); lra).
    assert (S1 : 0 <= a * (c * xr)).
    { replace (a * (c * xr)) with (((s * a) * (s * c)) * xr) by (replace ((s * a) * (s * c)) with ((s * s) * (a * c)) by ring; rewrite Hs; ring).
      apply Rmult_le_pos; [apply Rmult_le_pos; auto|lra]. }
    assert (S2 : 0 <= b * (d * xr)) by (apply Rmult_le_pos; auto; apply Rmult_le_pos; lra).
    assert (A1 := rel_plus _ _ _ _ _ _ (30 + 2 * INR j) HA M1 ltac:(lra) ltac:(lra) ltac:(lra) S1 ltac:(lra)).
    assert (A2 := rel_plus _ _ _ _ _ _ (30 + 2 * INR j) HB M2 ltac:(lra) ltac:(lra) ltac:(lra) S2 ltac:(rewrite (Rabs_pos_eq b) by auto; lra)).
    assert (D1 : rel (xn /! x) (xr / val x) (2 * INR j + 0 + 103 / 100)).
    { apply rel_div; [exact HX|apply rel_fin; exact F|lra|lra|lra|]. rewrite !Rabs_pos_eq by lra. apply mid_range.
      assert (IV : / 1000 <= / val x <= 1) by (split; [apply Rinv_le_contravar; lra|rewrite <- Rinv_1; apply Rinv_le_contravar; lra]).
      unfold Rdiv. split.
      - apply Rle_trans with (/ 10 ^ 27 * / 1000); [|apply Rmult_le_compat; lra].
        replace (/ 1000) with (/ 10 ^ 3) by field. rewrite <- Rinv_mult. apply Rinv_le_contravar; [lra|]. rewrite <- pow_add. apply Rle_pow; [lra|lia].
      - apply Rle_trans with (1 * 1); [apply Rmult_le_compat; lra|]. rewrite Rmult_1_l. apply pow_R1_Rle; lra. }
    assert (IV : / 1000 <= / val x <= 1) by (split; [apply Rinv_le_contravar; lra|rewrite <- Rinv_1; apply Rinv_le_contravar; lra]).
    destruct (IH SP' GP' Q' q' LQ' SQ' GQ' ltac:(lia) (P1 ++ [f]) (Q1 ++ [g]) (xn /! x) (num +! (f *! xn)) (den +! (g *! xn)) (xr / val x) (a + c * xr) (b + d * xr) (Datatypes.S j))
      as (n & e & E & R1 & R2).
    { rewrite app_length. cbn [length]. subst j. lia. }
    { rewrite app_length. cbn [length]. lia. }
    { lia. }
    { rewrite S_INR. eapply rel_weaken; [exact D1|lra|lra]. }
    { cbn [pow]. unfold Rdiv. split; [rewrite (Rmult_comm (/ 1000)); apply Rmult_le_compat; lra|].
      apply Rle_trans with (1 * 1); [apply Rmult_le_compat; lra|lra]. }
    { rewrite S_INR. eapply rel_weaken; [exact A1|lra|lra]. }
    { rewrite S_INR. eapply rel_weaken; [exact A2|lra|lra]. }
    { replace (s * (a + c * xr)) with (s * a + (s * c) * xr) by ring. assert (0 <= s * c * xr) by (apply Rmult_le_pos; lra). lra. }
    { rewrite S_INR. apply Rle_trans with (1 := Rabs_triang _ _). lra. }
    { assert (0 <= d * xr) by (apply Rmult_le_pos; lra). lra. }
    { rewrite S_INR. assert (d * xr <= Rabs (d * xr)) by apply Rle_abs. lra. }
    exists n, e. split; [|split].
    + cbn [inv_frac].
      replace (vat (P1 ++ f :: P) j) with (Ok f) by (symmetry; apply vat_app).
      replace (vat (Q1 ++ g :: Q') j) with (Ok g) by (rewrite <- L2; symmetry; apply vat_app).
      cbn [bind].
      replace (P1 ++ f :: P) with ((P1 ++ [f]) ++ P) by (rewrite <- app_assoc; reflexivity).
      replace (Q1 ++ g :: Q') with ((Q1 ++ [g]) ++ Q') by (rewrite <- app_assoc; reflexivity).
      exact E.
    + replace (j + Datatypes.S (length p))%nat with (Datatypes.S j + length p)%nat by lia.
      replace (a + xr * pev (c :: p) (/ val x)) with (a + c * xr + xr / val x * pev p (/ val x)) by (cbn [pev]; unfold Rdiv; ring). exact R1.
    + replace (j + Datatypes.S (length p))%nat with (Datatypes.S j + length p)%nat by lia.
      replace (b + xr * pev (d :: q') (/ val x)) with (b + d * xr + xr / val x * pev q' (/ val x)) by (cbn [pev]; unfold Rdiv; ring). exact R2.
Qed.

(** Horner's scheme on an argument of at most 1. *)
Fixpoint pabs (c : list R) (u : R) : R := match c with [] => 0 | a :: c' => Rabs a + u * pabs c' u end.
Lemma pabs_nonneg c u : 0 <= u -> 0 <= pabs c u.
Proof. intros H. induction c as [|a c IH]; cbn [pabs]; [lra|]. assert (A := Rabs_pos a). assert (0 <= u * pabs c u) by (apply Rmult_le_pos; auto). lra. Qed.
Lemma pabs_app c a u : pabs (c ++ [a]) u = pabs c u + u ^ length c * Rabs a.
Proof. induction c as [|b c IH]; cbn [app pabs length pow]; [ring|]. rewrite IH. ring. Qed.
Lemma pabs_le c u N : 0 <= u <= 1 -> Forall (fun a => Rabs a <= N) c -> pabs c u <= N * INR (length c).
Proof.
  intros Hu H. induction H as [|a c Ha H IH]; [cbn; lra|]. cbn [pabs length]. rewrite S_INR.
  assert (P := pabs_nonneg c u ltac:(lra)). assert (u * pabs c u <= 1 * pabs c u) by (apply Rmult_le_compat_r; lra). lra.
Qed.

Lemma horner_loop_near (x : f64) : is_finite x = true -> / 10 ^ 9 <= val x <= 1 -> forall (C1 C2 : list f64) (c1 : list R) (r : f64) (a A k : R),
  lits C1 c1 -> Forall (fun c => Rabs c <= 10 ^ 7) c1 -> (length c1 <= 100)%nat -> 
  apx r a A k -> 4 <= k -> k + 203 / 100 * INR (length c1) <= 1000 -> / 10 ^ 9 <= A <= 10 ^ 7 * (101 - INR (length c1)) -> Forall (fun c => / 10 ^ 9 <= Rabs c) c1 ->
  exists v, horner_loop (C1 ++ C2) x (length C1) r = Ok v /\
    apx v (pev c1 (val x) + val x ^ length c1 * a) (pabs c1 (val x) + val x ^ length c1 * A) (k + 203 / 100 * INR (length c1)).
Proof.
  intros F Hx C1. induction C1 as [|f C1 IH] using rev_ind; intros C2 c1 r a A k HC HB HL HR Hk Hk2 HA HS.
  - inversion HC; subst. exists r. split; [reflexivity|]. cbn [length pev pabs pow INR].
    replace (0 + 1 * a) with a by ring. replace (0 + 1 * A) with A by ring. replace (k + 203 / 100 * 0) with k by ring. exact HR.
  - apply Forall2_app_inv_l in HC. destruct HC as (l1 & l2 & H1 & H2 & ->). inversion H2 as [|? c ? ? Hc H3]; subst. inversion H3; subst. clear H2 H3.
    rewrite app_length in *. cbn [length] in *. rewrite Nat.add_1_r in *. rewrite S_INR in *. rewrite app_length. cbn [length]. rewrite Nat.add_1_r.
    apply Forall_app in HB. destruct HB as (HB1 & HB2). inversion HB2 as [|? ? Bc _]; subst.
    apply Forall_app in HS. destruct HS as (HS1 & HS2). inversion HS2 as [|? ? Sc _]; subst.
    assert (J := pos_INR (length l1)). assert (J2 : INR (length l1) <= 99) by (replace 99 with (INR 99) by (cbn; lra); apply le_INR; lia).
    assert (T0 : 10 ^ 18 <= 10 ^ 100) by (apply Rle_pow; [lra|lia]).
    assert (AX : / 10 ^ 9 * / 10 ^ 9 <= A * val x) by (apply Rmult_le_compat; lra).
    assert (AX2 : A * val x <= A * 1) by (apply Rmult_le_compat_l; lra).
    assert (TN : / 10 ^ 100 <= / 10 ^ 9 * / 10 ^ 9) by (rewrite <- Rinv_mult; apply Rinv_le_contravar; [lra|rewrite <- pow_add; apply Rle_pow; [lra|lia]]).
    assert (RM : tau <= A * val x <= big) by (apply mid_range; lra).
    assert (XP : Rabs (val x) <= val x) by (rewrite Rabs_pos_eq; lra).
    assert (M := apx_mult _ _ _ _ _ _ _ _ HR (apx_id x (val x) F XP) ltac:(lra) ltac:(lra) RM).
    assert (BG := big_large). assert (T1 : 10 ^ 100 <= 10 ^ 300) by (apply Rle_pow; [lra|lia]).
    assert (P := apx_plus _ _ _ _ _ _ _ _ (k + 0 + 102 / 100) M Hc ltac:(lra) ltac:(lra) ltac:(lra) ltac:(lra)).
    destruct (IH (f :: C2) l1 (r *! x +! f) (a * val x + c) (A * val x + Rabs c) (k + 203 / 100) H1 HB1 ltac:(lia)) as (v & E & V).
    + apply apx_weaken with (1 := P); lra.
    + lra.
    + lra.
    + split; lra.
    + exact HS1.
    + exists v. split.
      * cbn [horner_loop]. rewrite <- app_assoc. cbn [app]. rewrite vat_app. cbn [bind]. exact E.
      * assert (PE : forall l b, pev (l ++ [b]) (val x) = pev l (val x) + val x ^ length l * b).
        { induction l as [|h l IHl]; intros b; cbn; [ring|]. rewrite IHl. ring. }
        rewrite PE, pabs_app, S_INR. cbn [pow].
        replace (pev l1 (val x) + val x ^ length l1 * c + val x * val x ^ length l1 * a) with (pev l1 (val x) + val x ^ length l1 * (a * val x + c)) by ring.
        replace (pabs l1 (val x) + val x ^ length l1 * Rabs c + val x * val x ^ length l1 * A) with (pabs l1 (val x) + val x ^ length l1 * (A * val x + Rabs c)) by ring.
        replace (k + 203 / 100 * (INR (length l1) + 1)) with (k + 203 / 100 + 203 / 100 * INR (length l1)) by ring. exact V.
Qed.
Lemma horner_lit_near (x : f64) (C : list f64) (c : list R) : is_finite x = true -> / 10 ^ 9 <= val x <= 1 ->
  lits C c -> Forall (fun a => / 10 ^ 9 <= Rabs a <= 10 ^ 7) c -> (1 <= length c <= 100)%nat ->
  exists v, horner C x = Ok v /\ apx v (pev c (val x)) (pabs c (val x)) (4 + 203 / 100 * INR (length c)).
Proof.
  intros F Hx HC HS HL. destruct c as [|c0 c'] eqn:EC; [cbn in HL; lia|]. rewrite <- EC in *. assert (NE : c <> []) by (rewrite EC; discriminate). clear EC c0 c'.
  destruct (exists_last NE) as (l & a & ->). apply Forall2_app_inv_r in HC. destruct HC as (C1 & C2 & H1 & H2 & ->).
  inversion H2 as [|f ? ? ? Hf H3]; subst. inversion H3; subst. clear H2 H3.
  apply Forall_app in HS. destruct HS as (HS1 & HS2). inversion HS2 as [|? ? Sc _]; subst. rewrite app_length in HL. cbn [length] in HL.
  assert (LL : length C1 = length l) by (clear - H1; induction H1; cbn; congruence).
  assert (J := pos_INR (length l)). assert (J2 : INR (length l) <= 99) by (replace 99 with (INR 99) by (cbn; lra); apply le_INR; lia).
  destruct (horner_loop_near x F Hx C1 [f] l f a (Rabs a) 4 H1) as (v & E & V).
  - apply Forall_impl with (2 := HS1). intros; lra.
  - lia.
  - exact Hf.
  - lra.
  - lra.
  - assert (10 ^ 7 * 1 <= 10 ^ 7 * (101 - INR (length l))) by (apply Rmult_le_compat_l; lra). lra.
  - apply Forall_impl with (2 := HS1). intros; lra.
  - exists v. split.
    + unfold horner. rewrite app_length. cbn [length]. replace (length C1 + 1 - 1)%nat with (length C1) by lia. rewrite vat_app. exact E.
    + assert (PE : forall l b, pev (l ++ [b]) (val x) = pev l (val x) + val x ^ length l * b).
      { clear. induction l as [|h l IHl]; intros b; cbn; [ring|]. rewrite IHl. ring. }
      rewrite PE, pabs_app, app_length. cbn [length]. rewrite plus_INR. cbn [INR]. apply apx_weaken with (1 := V); lra.
Qed.

(** The arguments rejected at lines 236 and 449. *)
Definition fl8 : f64 := nlit 1 100000000.
Lemma fl8_val : is_finite fl8 = true /\ val fl8 = 6044629098073146 / 604462909807314587353088.
Proof.
  assert (V : B2SF fl8 = SpecFloat.S754_finite false 6044629098073146 (-79)) by (vm_compute; reflexivity).
  split; [rewrite <- is_finite_SF_B2SF, V; reflexivity|].
  rewrite <- SF2R_B2SF, V. cbn [SF2R]. unfold F2R. cbn [Fnum Fexp cond_Zopp]. change (bpow radix2 (-79)) with (/ IZR 604462909807314587353088). reflexivity.
Qed.
Lemma rejected64 (x : f64) : is_finite x = true -> rejected (T := f64) x = Rle_bool (val x) (val fl8).
Proof.
  intros F. destruct fl8_val as (F8 & V8). unfold rejected, IsClose. set (c := nlit 1 100000). fold fl8.
  assert (Fc : is_finite c = true) by reflexivity. clearbody c.
  assert (F0 : is_finite (nofZ 0 : f64) = true) by reflexivity. assert (V0 : val (nofZ 0 : f64) = 0) by reflexivity.
  assert (Z : forall y, Rabs y <= 0 -> Rabs y <= fmax64 + bpow radix2 969).
  { intros y Hy. assert (P := bpow_gt_0 radix2 969). assert (Q := big_over y). assert (B := big_pos). apply Q. lra. }
  destruct (minus_ok x (nofZ 0) F F0) as (Fm & Vm).
  { rewrite V0, Rminus_0_r. assert (Q := abs_val_fmax x). assert (P := bpow_gt_0 radix2 969). lra. }
  rewrite V0, Rminus_0_r, rnd64_id in Vm by apply fmt64_val.
  destruct (mult_ok c (nfabs (nofZ 0)) Fc) as (Fp & Vp); [reflexivity| |].
  { apply Z. change (val (nfabs (nofZ 0 : f64))) with 0. rewrite Rmult_0_r, Rabs_R0. lra. }
  change (val (nfabs (nofZ 0 : f64))) with 0 in Vp. rewrite Rmult_0_r, rnd64_id in Vp by apply generic_format_0.
  destruct (plus_ok fl8 (c *! nfabs (nofZ 0)) F8 Fp) as (Fs & Vs).
  { rewrite Vp, Rplus_0_r, V8. apply big_over. assert (B := big_large). assert (1 <= 10 ^ 300) by (apply pow_R1_Rle; lra). rewrite Rabs_pos_eq; lra. }
  rewrite Vp, Rplus_0_r, rnd64_id in Vs by apply fmt64_val.
  assert (N1 : nle (nfabs (x -! nofZ 0)) (fl8 +! (c *! nfabs (nofZ 0))) = true <-> Rabs (val x) <= val fl8).
  { rewrite nle_fin; [|change (is_finite (Babs (x -! nofZ 0)) = true); rewrite abs_fin; exact Fm|exact Fs].
    rewrite Vs. change (nfabs (x -! nofZ 0)) with (Babs (x -! nofZ 0)). rewrite abs_val, Vm. reflexivity. }
  assert (N2 := nlt_fin x (nofZ 0) F F0). rewrite V0 in N2.
  change (nle (nfabs (x -! nofZ 0)) (fl8 +! (c *! nfabs (nofZ 0))) || nlt x (nofZ 0) = Rle_bool (val x) (val fl8)).
  destruct (Rle_bool_spec (val x) (val fl8)) as [H|H].
  - apply orb_true_iff. destruct (Rlt_dec (val x) 0) as [L|L]; [right; apply N2; exact L|left; apply N1; rewrite Rabs_pos_eq; lra].
  - apply orb_false_iff. split; apply not_true_is_false; [rewrite N1|rewrite N2; lra]. rewrite Rabs_pos_eq; lra.
Qed.

(** The coefficients. *)
Ltac lits := repeat (first [apply Forall2_nil | apply Forall2_cons; [first [apply lit_rel; lia|eapply rel_weaken; [apply ofZ_rel; lia|lra|lra]]|]]).
Lemma lits_a_p : lits (e1a_p (T := f64)) (e1a_p (T := R)). Proof. unfold lits, e1a_p. lits. Qed.
Lemma lits_a_q : lits (e1a_q (T := f64)) (e1a_q (T := R)). Proof. unfold lits, e1a_q. lits. Qed.
Lemma lits_b_p : lits (e1b_p (T := f64)) (e1b_p (T := R)). Proof. unfold lits, e1b_p. lits. Qed.
Lemma lits_b_q : lits (e1b_q (T := f64)) (e1b_q (T := R)). Proof. unfold lits, e1b_q. lits. Qed.
Lemma lits_c_p : lits (e1c_p (T := f64)) (e1c_p (T := R)). Proof. unfold lits, e1c_p. lits. Qed.
Lemma lits_c_q : lits (e1c_q (T := f64)) (e1c_q (T := R)). Proof. unfold lits, e1c_q. lits. Qed.
Ltac unl := unfold nlit; cbn [ndiv nofZ RNum RNum_at].
Lemma sized_a_p : Forall sized (e1a_p (T := R)).
Proof. unfold e1a_p. repeat (constructor; [unfold sized; unl; first [rewrite Rabs_pos_eq; lra|rewrite Rabs_left; lra]|]). constructor. Qed.
Lemma sized_a_q : Forall sized (e1a_q (T := R)).
Proof. unfold e1a_q. repeat (constructor; [unfold sized; unl; rewrite Rabs_pos_eq; lra|]). constructor. Qed.
Lemma sized_b_p : Forall sized (e1b_p (T := R)).
Proof. unfold e1b_p. repeat (constructor; [unfold sized; unl; rewrite Rabs_pos_eq; lra|]). constructor. Qed.
Lemma sized_b_q : Forall sized (e1b_q (T := R)).
Proof. unfold e1b_q. repeat (constructor; [unfold sized; unl; rewrite Rabs_pos_eq; lra|]). constructor. Qed.
Lemma sized_c_p : Forall sized (e1c_p (T := R)).
Proof. unfold e1c_p. repeat (constructor; [unfold sized; unl; rewrite Rabs_left; lra|]). constructor. Qed.
Lemma sized_c_q : Forall sized (e1c_q (T := R)).
Proof. unfold e1c_q. repeat (constructor; [unfold sized; unl; rewrite Rabs_pos_eq; lra|]). constructor. Qed.
Lemma sign_b_p : Forall (fun c => 0 <= 1 * c) (e1b_p (T := R)).
Proof. unfold e1b_p. repeat (constructor; [unl; lra|]). constructor. Qed.
Lemma sign_b_q : Forall (fun c => 0 <= c) (e1b_q (T := R)).
Proof. unfold e1b_q. repeat (constructor; [unl; lra|]). constructor. Qed.
Lemma sign_c_p : Forall (fun c => 0 <= -1 * c) (e1c_p (T := R)).
Proof. unfold e1c_p. repeat (constructor; [unl; lra|]). constructor. Qed.
Lemma sign_c_q : Forall (fun c => 0 <= c) (e1c_q (T := R)).
Proof. unfold e1c_q. repeat (constructor; [unl; lra|]). constructor. Qed.

Lemma inv_frac_sums (x : f64) (s : R) (P Q : list f64) (p q : list R) : is_finite x = true -> 1 <= val x <= 1000 -> s * s = 1 ->
  lits P p -> lits Q q -> Forall sized p -> Forall sized q -> Forall (fun c => 0 <= s * c) p -> Forall (fun c => 0 <= c) q ->
  length p = length q -> (length p <= 10)%nat ->
  exists n d, inv_frac (T := f64) P Q x 0 (length p) (nofZ 1) (nofZ 0) (nofZ 0) = Ok (n, d) /\
    rel n (pev p (/ val x)) 50 /\ rel d (pev q (/ val x)) 50.
Proof.
  intros F Hx Hs LP LQ SP SQ GP GQ LE L10.
  assert (Z0 : rel (nofZ 0) 0 (30 + 2 * INR 0)).
  { split; [reflexivity|]. rewrite Rabs_R0. split; [lra|]. change (val (nofZ 0)) with 0. rewrite Rminus_0_r, Rabs_R0. lra. }
  assert (O1 : rel (nofZ 1) 1 (2 * INR 0)).
  { unfold rel. rewrite Rabs_R1. cbn [INR]. rewrite Rmult_0_r. exact apx_one. }
  destruct (inv_frac_near x s P Q p q F Hx Hs LP LQ SP SQ GP GQ LE [] [] (nofZ 1) (nofZ 0) (nofZ 0) 1 0 0 0 eq_refl eq_refl L10 O1
    ltac:(cbn; lra) Z0 Z0 ltac:(lra) ltac:(rewrite Rabs_R0; cbn; lra) ltac:(lra) ltac:(cbn; lra)) as (n & d & E & R1 & R2).
  assert (LL : length P = length p) by (clear - LP; induction LP; cbn; congruence).
  assert (J : INR (0 + length p) <= 10) by (replace 10 with (INR 10) by (cbn; lra); apply le_INR; lia). assert (J0 := pos_INR (0 + length p)).
  exists n, d. split; [rewrite <- LL; exact E|].
  rewrite Rplus_0_l, Rmult_1_l in R1, R2.
  split; [eapply rel_weaken; [exact R1|lra|lra]|eapply rel_weaken; [exact R2|lra|lra]].
Qed.

(** Sums of positive and negative coefficients. *)
Lemma pev_le (p q : list R) u : 0 <= u -> Forall2 (fun a b => Rabs a <= b) p q -> Rabs (pev p u) <= pev q u.
Proof.
  intros Hu H. induction H as [|a b p q Hab H IH]; cbn [pev]; [rewrite Rabs_R0; lra|].
  apply Rle_trans with (1 := Rabs_triang _ _). rewrite Rabs_mult, (Rabs_pos_eq u) by auto.
  assert (u * Rabs (pev p u) <= u * pev q u) by (apply Rmult_le_compat_l; auto). lra.
Qed.
Lemma pev_ub (q : list R) u N : 0 <= u <= 1 -> Forall (fun a => 0 <= a <= N) q -> 0 <= pev q u <= N * INR (length q).
Proof.
  intros Hu H. induction H as [|a q Ha H IH]; [cbn; lra|]. cbn [pev length]. rewrite S_INR.
  assert (0 <= u * pev q u) by (apply Rmult_le_pos; lra). assert (u * pev q u <= 1 * pev q u) by (apply Rmult_le_compat_r; lra). lra.
Qed.
Lemma pev_lb (q : list R) a u : 0 <= u -> Forall (fun a => 0 <= a) q -> a <= pev (a :: q) u.
Proof.
  intros Hu H. cbn [pev]. assert (0 <= pev q u); [|assert (0 <= u * pev q u) by (apply Rmult_le_pos; auto); lra].
  induction H as [|b q Hb H IH]; cbn [pev]; [lra|]. assert (0 <= u * pev q u) by (apply Rmult_le_pos; auto). lra.
Qed.

Section Libm.
Context (kappa : R) (TT : NumTr f64).
Hypothesis K4 : 0 <= kappa <= 4.
Hypothesis HE : libm_exp kappa TT.
Hypothesis HL : libm_log kappa TT.

Lemma exp_rel (x : f64) : is_finite x = true -> Rabs (val x) <= 700 -> rel (nexp x) (exp (val x)) kappa.
Proof.
  intros F H. destruct (HE x F H) as (A & B). split; [exact A|]. assert (P := exp_pos (val x)). rewrite Rabs_pos_eq by lra. split; [lra|exact B].
Qed.
Lemma log_rel (x : f64) : is_finite x = true -> 0 < val x -> rel (nlog x) (ln (val x)) kappa.
Proof. intros F H. destruct (HL x F H) as (A & B). split; [exact A|]. split; [lra|exact B]. Qed.
Lemma neg_exp_rel (x : f64) : is_finite x = true -> Rabs (val x) <= 700 -> rel (nexp (nneg x)) (exp (- val x)) kappa.
Proof.
  intros F H. change (nneg x) with (Bopp x). replace (- val x) with (val (Bopp x)) by apply B2R_Bopp. apply exp_rel; [rewrite is_finite_Bopp; exact F|rewrite B2R_Bopp, Rabs_Ropp; exact H].
Qed.

Lemma mid_rel (x : f64) P Q : is_finite x = true -> 1 <= val x <= 4 -> lits P (e1b_p (T := R)) -> lits Q (e1b_q (T := R)) ->
  exists nd, inv_frac P Q x 0 9 (nofZ 1) (nofZ 0) (nofZ 0) = Ok nd /\
    rel (nexp (nneg x) *! (fst nd /! snd nd)) (exp (- val x) * (pev e1b_p (/ val x) / pev e1b_q (/ val x))) 108.
Proof.
  intros F Hx HP HQ.
  destruct (inv_frac_sums x 1 P Q (e1b_p (T := R)) (e1b_q (T := R)) F ltac:(lra) ltac:(lra) HP HQ sized_b_p sized_b_q sign_b_p sign_b_q eq_refl ltac:(cbn; lia))
    as (n & d & E & R1 & R2).
  exists (n, d). split; [exact E|]. cbn [fst snd].
  assert (IV : / 4 <= / val x <= 1) by (split; [apply Rinv_le_contravar; lra|rewrite <- Rinv_1; apply Rinv_le_contravar; lra]).
  set (u := / val x) in *. set (N := pev e1b_p u) in *. set (D := pev e1b_q u) in *.
  assert (BN : / 10 ^ 9 <= N <= 10 ^ 9).
  { split.
    - apply Rle_trans with (2 := pev_lb _ _ u ltac:(lra) (Forall_inv_tail (Forall_impl _ (fun a (H : 0 <= 1 * a) => eq_ind _ (fun z => 0 <= z) H _ (Rmult_1_l a)) sign_b_p))).
      unl. lra.
    - assert (K : 0 <= N <= 10 ^ 7 * INR (length (e1b_p (T := R)))).
      { apply pev_ub; [lra|]. unfold e1b_p. repeat (constructor; [unl; lra|]). constructor. }
      cbn [length e1b_p INR] in K. lra. }
  assert (BD : 1 <= D <= 10 ^ 9).
  { split.
    - apply Rle_trans with (2 := pev_lb _ _ u ltac:(lra) (Forall_inv_tail sign_b_q)). unl. lra.
    - assert (K : 0 <= D <= 10 ^ 7 * INR (length (e1b_q (T := R)))).
      { apply pev_ub; [lra|]. unfold e1b_q. repeat (constructor; [unl; lra|]). constructor. }
      cbn [length e1b_q INR] in K. lra. }
  assert (BQ : / 10 ^ 18 <= N / D <= 10 ^ 9).
  { assert (ID : / 10 ^ 9 <= / D <= 1) by (split; [apply Rinv_le_contravar; lra|rewrite <- Rinv_1; apply Rinv_le_contravar; lra]).
    unfold Rdiv. split.
    - replace (/ 10 ^ 18) with (/ 10 ^ 9 * / 10 ^ 9) by field. apply Rmult_le_compat; lra.
    - rewrite <- (Rmult_1_r (10 ^ 9)). apply Rmult_le_compat; lra. }
  assert (P100 : 10 ^ 20 <= 10 ^ 100) by (apply Rle_pow; [lra|lia]).
  assert (PI100 : / 10 ^ 100 <= / 10 ^ 20) by (apply Rinv_le_contravar; lra).
  assert (DV : rel (n /! d) (N / D) (50 + 50 + 103 / 100)).
  { apply rel_div; [exact R1|exact R2|lra|lra|lra|]. rewrite !Rabs_pos_eq by lra. apply mid_range. lra. }
  assert (XE : / 81 <= exp (- val x) <= 1).
  { split; [|rewrite <- exp_0; destruct (Rle_lt_or_eq_dec 1 (val x) (proj1 Hx)); left; apply exp_increasing; lra].
    rewrite exp_Ropp. apply Rinv_le_contravar; [apply exp_pos|]. apply Rle_trans with (exp 4); [destruct (Rle_lt_or_eq_dec (val x) 4 (proj2 Hx)) as [L| ->]; [left; apply exp_increasing; lra|lra]|].
    replace 4 with (1 + 1 + (1 + 1)) by ring. rewrite !exp_plus. assert (E3 := exp_le_3). assert (E0 := exp_pos 1).
    assert (exp 1 * exp 1 <= 3 * 3) by (apply Rmult_le_compat; lra). assert (exp 1 * exp 1 * (exp 1 * exp 1) <= (3 * 3) * (3 * 3)) by (apply Rmult_le_compat; auto; apply Rmult_le_pos; lra). lra. }
  assert (RN := neg_exp_rel x F ltac:(rewrite Rabs_pos_eq; lra)).
  eapply rel_weaken; [apply (rel_mult _ _ _ _ _ _ RN DV); [lra|lra|]|lra|lra].
  rewrite !Rabs_pos_eq by lra. apply mid_range. split.
  - apply Rle_trans with (/ 81 * / 10 ^ 18); [lra|apply Rmult_le_compat; lra].
  - apply Rle_trans with (1 * 10 ^ 9); [apply Rmult_le_compat; lra|lra].
Qed.
End Libm.

Lemma tau304 : tau <= / 10 ^ 304.
Proof.
  unfold tau. replace (bpow radix2 (-1010)) with (/ IZR (2 ^ 1010)) by reflexivity.
  rewrite pow_IZR. apply Rinv_le_contravar; [apply IZR_lt; reflexivity|]. apply IZR_le. vm_compute. discriminate.
Qed.
Lemma exp_INR n x : exp (INR n * x) = exp x ^ n.
Proof. induction n as [|n IH]; [cbn [INR pow]; rewrite Rmult_0_l; apply exp_0|]. rewrite S_INR. cbn [pow]. rewrite <- IH, <- exp_plus. f_equal. ring. Qed.
Lemma pow_IZR_le a b n c d m : (0 < b)%Z -> (0 < d)%Z -> (a ^ Z.of_nat n * d ^ Z.of_nat m <= c ^ Z.of_nat m * b ^ Z.of_nat n)%Z ->
  (IZR a / IZR b) ^ n <= (IZR c / IZR d) ^ m.
Proof.
  intros B D H. apply IZR_le in H. rewrite !mult_IZR, <- !pow_IZR in H. apply IZR_lt in B, D.
  assert (PB := pow_lt _ n B). assert (PD := pow_lt _ m D). unfold Rdiv. rewrite !Rpow_mult_distr, !pow_inv.
  apply Rmult_le_reg_r with (IZR b ^ n * IZR d ^ m); [apply Rmult_lt_0_compat; auto|].
  replace (IZR a ^ n * / IZR b ^ n * (IZR b ^ n * IZR d ^ m)) with (IZR a ^ n * IZR d ^ m) by (field; lra).
  replace (IZR c ^ m * / IZR d ^ m * (IZR b ^ n * IZR d ^ m)) with (IZR c ^ m * IZR b ^ n) by (field; lra). exact H.
Qed.
Lemma exp_twice x a b : exp x <= a -> a * a <= b -> exp (2 * x) <= b.
Proof.
  intros H K. replace (2 * x) with (x + x) by ring. rewrite exp_plus. apply Rle_trans with (2 := K). assert (P := exp_pos x). apply Rmult_le_compat; lra.
Qed.
Lemma exp_1_le : exp 1 <= 272 / 100.
Proof.
  assert (Q : exp (/ 1024) <= 1024 / 1023).
  { assert (K := exp_ineq1_le (- / 1024)). rewrite exp_Ropp in K. assert (P := exp_pos (/ 1024)).
    rewrite <- (Rinv_inv (exp _)). replace (1024 / 1023) with (/ (1 + - / 1024)) by field. apply Rinv_le_contravar; lra. }
  apply exp_twice with (b := 1001955989753 / 1000000000000) in Q; [|lra].
  apply exp_twice with (b := 1003915805402 / 1000000000000) in Q; [|lra].
  apply exp_twice with (b := 1007846944336 / 1000000000000) in Q; [|lra].
  apply exp_twice with (b := 1015755463208 / 1000000000000) in Q; [|lra].
  apply exp_twice with (b := 1031759161037 / 1000000000000) in Q; [|lra].
  apply exp_twice with (b := 1064526966384 / 1000000000000) in Q; [|lra].
  apply exp_twice with (b := 1133217662159 / 1000000000000) in Q; [|lra].
  apply exp_twice with (b := 1284182269830 / 1000000000000) in Q; [|lra].
  apply exp_twice with (b := 1649124102146 / 1000000000000) in Q; [|lra].
  apply exp_twice with (b := 272 / 100) in Q; [|lra].
  replace 1 with (2 * (2 * (2 * (2 * (2 * (2 * (2 * (2 * (2 * (2 * / 1024)))))))))) at 1 by field. exact Q.
Qed.
Lemma exp_low x : 0 <= x <= 690 -> / 10 ^ 300 <= exp (- x) <= 1.
Proof.
  intros H. split; [|rewrite <- exp_0; destruct (Req_dec x 0) as [->|]; [rewrite Ropp_0; lra|left; apply exp_increasing; lra]].
  rewrite exp_Ropp. apply Rinv_le_contravar; [apply exp_pos|].
  apply Rle_trans with (exp 690); [destruct (Req_dec x 690) as [->|]; [lra|left; apply exp_increasing; lra]|].
  replace 690 with (INR 690 * 1) by (rewrite INR_IZR_INZ; change (Z.of_nat 690) with 690%Z; ring). rewrite exp_INR.
  apply Rle_trans with ((272 / 100) ^ 690); [apply pow_incr; split; [left; apply exp_pos|exact exp_1_le]|].
  replace 690%nat with (23 * 30)%nat by reflexivity. replace 300%nat with (10 * 30)%nat by reflexivity. rewrite !pow_mult. apply pow_incr. split; [apply pow_le; lra|].
  replace (10 ^ 10) with ((10 / 1) ^ 10) by (f_equal; field). apply pow_IZR_le; [lia|lia|vm_compute; discriminate].
Qed.

Section Libm2.
Context (kappa : R) (TT : NumTr f64).
Hypothesis K4 : 0 <= kappa <= 4.
Hypothesis HE : libm_exp kappa TT.
Hypothesis HL : libm_log kappa TT.

Lemma high_rel (x : f64) P Q : is_finite x = true -> 4 <= val x <= 690 -> lits P (e1c_p (T := R)) -> lits Q (e1c_q (T := R)) ->
  exists nd, inv_frac P Q x 0 10 (nofZ 1) (nofZ 0) (nofZ 0) = Ok nd /\
    rel ((nexp (nneg x) /! x) *! (nofZ 1 +! ((nofZ 1 /! x) *! fst nd) /! snd nd))
        (exp (- val x) / val x * (1 + 1 / val x * pev e1c_p (/ val x) / pev e1c_q (/ val x))) 185.
Proof.
  intros F Hx HP HQ.
  destruct (inv_frac_sums x (-1) P Q (e1c_p (T := R)) (e1c_q (T := R)) F ltac:(lra) ltac:(lra) HP HQ sized_c_p sized_c_q sign_c_p sign_c_q eq_refl ltac:(cbn; lia))
    as (n & d & E & R1 & R2).
  exists (n, d). split; [exact E|]. cbn [fst snd].
  assert (IV : / 690 <= / val x <= / 4) by (split; apply Rinv_le_contravar; lra).
  unfold Rdiv. rewrite !Rmult_1_l. change (1 * / val x) with (1 / val x).
  set (u := / val x) in *. set (N := pev e1c_p u) in *. set (D := pev e1c_q u) in *.
  assert (BD : 1 <= D <= 10 ^ 9).
  { split.
    - apply Rle_trans with (2 := pev_lb _ _ u ltac:(lra) (Forall_inv_tail sign_c_q)). unl. lra.
    - assert (K : 0 <= D <= 10 ^ 7 * INR (length (e1c_q (T := R)))).
      { apply pev_ub; [lra|]. unfold e1c_q. repeat (constructor; [unl; lra|]). constructor. }
      cbn [length e1c_q INR] in K. lra. }
  assert (BN : Rabs N <= D).
  { apply pev_le; [lra|]. unfold e1c_p, e1c_q. repeat (constructor; [unl; rewrite Rabs_left; lra|]). constructor. }
  assert (BN2 : / 10 <= Rabs N).
  { assert (K : / 10 <= - N); [|rewrite Rabs_left; lra]. replace (- N) with (pev (map Ropp e1c_p) u).
    - unfold e1c_p. cbn [map]. match goal with |- _ <= pev (?a :: ?l) _ => apply Rle_trans with (2 := pev_lb l a u ltac:(lra) (ltac:(repeat (constructor; [unl; lra|]); constructor))) end. unl. lra.
    - unfold N. generalize (e1c_p (T := R)). intros l. induction l as [|a l IH]; cbn [map pev]; [ring|]. rewrite IH. ring. }
  assert (P100 : 10 ^ 20 <= 10 ^ 100) by (apply Rle_pow; [lra|lia]).
  assert (PI100 : / 10 ^ 100 <= / 10 ^ 20) by (apply Rinv_le_contravar; lra).
  assert (ONE : rel (nofZ 1) 1 0) by (unfold rel; rewrite Rabs_R1; exact apx_one).
  assert (RU : rel (nofZ 1 /! x) (1 / val x) (0 + 0 + 103 / 100)).
  { apply rel_div; [exact ONE|apply rel_fin; exact F|lra|lra|lra|]. rewrite Rabs_R1, Rabs_pos_eq by lra. apply mid_range. unfold Rdiv. fold u. lra. }
  replace (1 / val x) with u in RU by (unfold u; field; lra).
  assert (RM : rel ((nofZ 1 /! x) *! n) (u * N) (0 + 0 + 103 / 100 + 50 + 102 / 100)).
  { apply rel_mult; [exact RU|exact R1|lra|lra|]. rewrite (Rabs_pos_eq u) by lra. apply mid_range.
    assert (/ 690 * / 10 <= u * Rabs N) by (apply Rmult_le_compat; lra). assert (u * Rabs N <= / 4 * 10 ^ 9) by (apply Rmult_le_compat; lra). lra. }
  assert (ND : / 10 ^ 10 <= Rabs N * / D <= 1).
  { assert (ID : / 10 ^ 9 <= / D) by (apply Rinv_le_contravar; lra). split.
    - apply Rle_trans with (/ 10 * / 10 ^ 9); [lra|apply Rmult_le_compat; lra].
    - apply Rmult_le_reg_r with D; [lra|]. rewrite Rmult_assoc, Rinv_l by lra. lra. }
  assert (BY : Rabs (u * N * / D) <= / 4).
  { rewrite !Rabs_mult, (Rabs_pos_eq u), (Rabs_pos_eq (/ D)) by (try lra; left; apply Rinv_0_lt_compat; lra).
    rewrite Rmult_assoc. apply Rle_trans with (/ 4 * 1); [apply Rmult_le_compat; lra|lra]. }
  assert (BY0 : / 10 ^ 13 <= Rabs (u * N * / D)).
  { rewrite !Rabs_mult, (Rabs_pos_eq u), (Rabs_pos_eq (/ D)) by (try lra; left; apply Rinv_0_lt_compat; lra).
    rewrite Rmult_assoc. apply Rle_trans with (/ 690 * / 10 ^ 10); [lra|apply Rmult_le_compat; lra]. }
  assert (RD : rel (((nofZ 1 /! x) *! n) /! d) (u * N / D) (0 + 0 + 103 / 100 + 50 + 102 / 100 + 50 + 103 / 100)).
  { apply rel_div; [exact RM|exact R2|lra|lra|lra|]. apply mid_range. unfold Rdiv. rewrite <- Rabs_inv, <- Rabs_mult. lra. }
  set (y := u * N * / D) in *. change (u * N / D) with y in RD.
  assert (RS : apx (nofZ 1 +! ((nofZ 1 /! x) *! n) /! d) (1 + y) (1 + / 4) (105 + 101 / 100)).
  { assert (BG := big_large). assert (10 ^ 20 <= 10 ^ 300) by (apply Rle_pow; [lra|lia]).
    apply apx_plus with (k := 0) (l := 105); [exact apx_one| |lra|lra|lra|lra].
    apply apx_weaken with (1 := RD); lra. }
  assert (Y := Rabs_le_inv _ _ BY).
  assert (RS2 : rel (nofZ 1 +! ((nofZ 1 /! x) *! n) /! d) (1 + y) 178).
  { destruct RS as (A1 & _ & A3). split; [exact A1|]. split; [lra|]. apply Rle_trans with (1 := A3). rewrite Rabs_pos_eq by lra.
    assert (U := u_tiny). replace ((105 + 101 / 100) * u53 * (1 + / 4)) with (u53 * ((105 + 101 / 100) * (1 + / 4))) by ring.
    replace (178 * u53 * (1 + y)) with (u53 * (178 * (1 + y))) by ring. apply Rmult_le_compat_l; lra. }
  assert (RN := neg_exp_rel kappa TT HE x F ltac:(rewrite Rabs_pos_eq; lra)).
  assert (XE := exp_low (val x) ltac:(lra)). assert (T4 := tau304). assert (BG := big_large). assert (TE : 10 ^ 3 <= 10 ^ 300) by (apply Rle_pow; [lra|lia]).
  assert (P300 := pow_lt 10 300 ltac:(lra)). assert (I300 : 0 < / 10 ^ 300) by (apply Rinv_0_lt_compat; exact P300).
  assert (T4' : tau <= / 10 ^ 300 * / 10 ^ 4) by (rewrite <- Rinv_mult, <- pow_add; exact T4).
  assert (QE : / 10 ^ 300 * / 690 <= exp (- val x) * u <= 1 * / 4) by (split; apply Rmult_le_compat; lra).
  assert (RE : rel (nexp (nneg x) /! x) (exp (- val x) / val x) (kappa + 0 + 103 / 100)).
  { apply rel_div; [exact RN|apply rel_fin; exact F|lra|lra|lra|]. rewrite !Rabs_pos_eq by lra. unfold Rdiv. fold u. lra. }
  eapply rel_weaken; [apply (rel_mult _ _ _ _ _ _ RE RS2); [lra|lra|]|lra|lra].
  unfold Rdiv. fold u. rewrite !Rabs_pos_eq by lra.
  assert (/ 10 ^ 300 * / 690 * (3 / 4) <= exp (- val x) * u * (1 + y)) by (apply Rmult_le_compat; lra).
  assert (exp (- val x) * u * (1 + y) <= 1 * / 4 * (5 / 4)) by (apply Rmult_le_compat; lra). lra.
Qed.

(** The constant 9/10 of the logarithmic range. *)
Lemma low_const x : 0 <= x <= 1 -> pabs (e1a_p (T := R)) x <= 9 / 10 * pev (e1a_q (T := R)) x.
Proof.
  intros H. unfold e1a_p, e1a_q, pabs, pev. unl.
  rewrite (Rabs_left (-14815102102575750838086 / _)) by lra. rewrite !Rabs_pos_eq by lra.
  assert (X2 : 0 <= x * x <= 1) by nra. assert (X3 : 0 <= x * (x * x) <= 1) by nra. assert (X4 : 0 <= x * (x * (x * x)) <= 1) by nra.
  assert (X5 : 0 <= x * (x * (x * (x * x))) <= 1) by nra. assert (X6 : 0 <= x * (x * (x * (x * (x * x)))) <= 1) by nra. nra.
Qed.

Lemma low_apx (x : f64) P Q : is_finite x = true -> / 10 ^ 8 <= val x < 1 -> lits P (e1a_p (T := R)) -> lits Q (e1a_q (T := R)) ->
  exists a b, horner P x = Ok a /\ horner Q x = Ok b /\
    apx (nneg (nlog x) +! (a /! b)) (- ln (val x) + pev e1a_p (val x) / pev e1a_q (val x)) (- ln (val x) + 9 / 10) 40 /\
    Rabs (pev e1a_p (val x) / pev e1a_q (val x)) <= 9 / 10.
Proof.
  intros F Hx HP HQ.
  destruct (horner_lit_near x P e1a_p F ltac:(lra) HP sized_a_p ltac:(cbn; lia)) as (a & EA & RA).
  destruct (horner_lit_near x Q e1a_q F ltac:(lra) HQ sized_a_q ltac:(cbn; lia)) as (b & EB & RB).
  exists a, b. split; [exact EA|]. split; [exact EB|].
  cbn [length e1a_p e1a_q INR] in RA, RB.
  set (N := pev e1a_p (val x)) in *. set (D := pev e1a_q (val x)) in *.
  assert (QP : Forall (fun c => 0 <= c) (e1a_q (T := R))) by (unfold e1a_q; repeat (constructor; [unl; lra|]); constructor).
  assert (BD : 1 <= D <= 10 ^ 9).
  { split.
    - apply Rle_trans with (2 := pev_lb _ _ (val x) ltac:(lra) (Forall_inv_tail QP)). unl. lra.
    - assert (K : 0 <= D <= 10 ^ 7 * INR (length (e1a_q (T := R)))).
      { apply pev_ub; [lra|]. unfold e1a_q. repeat (constructor; [unl; lra|]). constructor. }
      cbn [length e1a_q INR] in K. lra. }
  assert (PD : pabs e1a_q (val x) = D).
  { unfold D. clear - QP. induction QP as [|c l Hc _ IH]; cbn [pabs pev]; [reflexivity|]. rewrite IH, Rabs_pos_eq by auto. reflexivity. }
  rewrite PD in RB.
  assert (RB' : apx b D (Rabs D) (4 + 203 / 100 * (1 + 1 + 1 + 1 + 1 + 1 + 1))) by (rewrite Rabs_pos_eq by lra; exact RB).
  assert (LC := low_const (val x) ltac:(lra)). fold D in LC.
  assert (RA' : apx a N (9 / 10 * D) (4 + 203 / 100 * (1 + 1 + 1 + 1 + 1 + 1 + 1))) by (apply apx_weaken with (1 := RA); lra).
  assert (P100 : 10 ^ 20 <= 10 ^ 100) by (apply Rle_pow; [lra|lia]).
  assert (PI100 : / 10 ^ 100 <= / 10 ^ 20) by (apply Rinv_le_contravar; lra).
  assert (Q9 : 9 / 10 * D / Rabs D = 9 / 10) by (rewrite Rabs_pos_eq by lra; field; lra).
  assert (RQ := apx_div _ _ _ _ _ _ _ RA' RB' ltac:(lra) ltac:(lra) ltac:(lra) ltac:(rewrite Q9; apply mid_range; lra)).
  rewrite Q9 in RQ.
  assert (LN : ln (val x) < 0) by (rewrite <- ln_1; apply ln_increasing; lra).
  assert (RL := apx_neg _ _ _ _ (log_rel kappa TT HL x F ltac:(lra))).
  rewrite (Rabs_left _ LN) in RL.
  assert (LB : - ln (val x) <= 10 ^ 10).
  { rewrite <- ln_Rinv by lra. assert (/ val x <= 10 ^ 8) by (rewrite <- (Rinv_inv (10 ^ 8)); apply Rinv_le_contravar; lra).
    assert (I0 : 0 < / val x) by (apply Rinv_0_lt_compat; lra). apply Rle_trans with (/ val x); [|lra].
    assert (K := exp_ineq1_le (ln (/ val x))). rewrite exp_ln in K by exact I0. lra. }
  assert (BG := big_large). assert (10 ^ 20 <= 10 ^ 300) by (apply Rle_pow; [lra|lia]).
  split; [|exact (proj1 (proj2 RQ))].
  eapply apx_weaken; [apply (apx_plus _ _ _ _ _ _ _ _ 38 RL RQ); lra|lra|lra|lra].
Qed.
End Libm2.

Lemma ok_inj {A} (a b : A) : Ok a = Ok b -> a = b.
Proof. intros H. injection H. auto. Qed.

(** Relative error as an interval. *)
Lemma rel_interval f r k : rel f r k -> 0 <= k <= 1000 -> 0 < r -> is_finite f = true /\ r * (1 - k * / 9000000000000000) <= val f <= r * (1 + k * / 9000000000000000).
Proof.
  intros (F & _ & E) Hk Hr. split; [exact F|]. rewrite (Rabs_pos_eq r) in E by lra. apply Rabs_le_inv in E.
  assert (U : u53 <= / 9000000000000000) by (unfold u53; apply Rinv_le_contravar; [lra|simpl; lra]).
  assert (U0 := u_tiny). assert (k * u53 <= k * / 9000000000000000) by (apply Rmult_le_compat_l; lra).
  assert (k * u53 * r <= k * / 9000000000000000 * r) by (apply Rmult_le_compat_r; lra). lra.
Qed.

Section Final.
Context (kappa : R) (TT : NumTr f64).
Hypothesis K4 : 0 <= kappa <= 4.
Hypothesis HE : libm_exp kappa TT.
Hypothesis HL : libm_log kappa TT.

Definition low_good (x v : f64) : Prop := is_finite v = true /\ Rabs (val v - E1 (val x)) <= 5 / 100000000000000 * E1 (val x).
Definition mid_good (x v : f64) : Prop := is_finite v = true /\
  E1 (val x) * (1 + 559 / 1000000000000) <= val v <= E1 (val x) * (1 + 1471 / 1000000000000).
Definition high_good (x v : f64) : Prop := is_finite v = true /\
  E1 (val x) * (1 - 3 / 100000000000000) <= val v <= E1 (val x) * (1 + 951 / 1000000) /\
  (val x <= 10 -> E1 (val x) * (1 + 59 / 10000000) <= val v) /\ (val x = 4 -> E1 (val x) * (1 + 924 / 1000000) <= val v).

Lemma low_tables (x : f64) P Q : is_finite x = true -> 1 / 100000000 < val x < 1 -> lits P (e1a_p (T := R)) -> lits Q (e1a_q (T := R)) ->
  exists a b, horner P x = Ok a /\ horner Q x = Ok b /\ low_good x (nneg (nlog x) +! (a /! b)).
Proof.
  intros F Hx HP HQ. destruct (low_apx kappa TT K4 HL x P Q F ltac:(lra) HP HQ) as (a & b & EA & EB & (F1 & _ & E) & B).
  exists a, b. split; [exact EA|]. split; [exact EB|]. split; [exact F1|].
  destruct (E1_accuracy_low (val x) Hx) as (w & EW & BW). rewrite (E1_low (val x) Hx) in EW. apply ok_inj in EW.
  rewrite EW in E. apply Rabs_le_inv in B, BW, E. set (q := pev e1a_p (val x) / pev e1a_q (val x)) in *.
  assert (D := E1_decr (val x) 1 ltac:(lra) ltac:(lra)).
  assert (O : 199 / 1000 <= E1 1).
  { destruct low_at_1 as [J V]. assert (K := low_ok 1 ltac:(lra)). apply Rabs_le_inv in K. assert (P1 := E1_pos 1 ltac:(lra)). lra. }
  set (e := E1 (val x)) in *.
  assert (U : u53 <= / 9000000000000000) by (unfold u53; apply Rinv_le_contravar; [lra|simpl; lra]). assert (U0 := u_tiny).
  assert (LN : - ln (val x) + 9 / 10 <= e * (1 + 1 / 10000000000000000) + 18 / 10) by lra.
  assert (LN0 : 0 <= - ln (val x) + 9 / 10) by (assert (ln (val x) < 0) by (rewrite <- ln_1; apply ln_increasing; lra); lra).
  assert (L1 : - ln (val x) + 9 / 10 <= 1005 / 100 * e) by lra.
  assert (EB2 : 40 * u53 * (- ln (val x) + 9 / 10) <= 40 * / 9000000000000000 * (1005 / 100 * e)) by (apply Rmult_le_compat; lra).
  apply Rabs_le. lra.
Qed.
Lemma mid_tables (x : f64) P Q : is_finite x = true -> 1 <= val x < 4 -> lits P (e1b_p (T := R)) -> lits Q (e1b_q (T := R)) ->
  exists nd, inv_frac P Q x 0 9 (nofZ 1) (nofZ 0) (nofZ 0) = Ok nd /\ mid_good x (nexp (nneg x) *! (fst nd /! snd nd)).
Proof.
  intros F Hx HP HQ. destruct (mid_rel kappa TT K4 HE x P Q F ltac:(lra) HP HQ) as (nd & EN & R).
  exists nd. split; [exact EN|].
  destruct (E1_accuracy_mid (val x) Hx) as (w & EW & BW). rewrite (E1_mid (val x) Hx) in EW. apply ok_inj in EW. rewrite EW in R.
  assert (P1 := E1_pos (val x) ltac:(lra)). destruct (rel_interval _ _ _ R ltac:(lra) ltac:(lra)) as (F1 & B). split; [exact F1|]. lra.
Qed.
Lemma high_tables (x : f64) P Q : is_finite x = true -> 4 <= val x <= 690 -> lits P (e1c_p (T := R)) -> lits Q (e1c_q (T := R)) ->
  exists nd, inv_frac P Q x 0 10 (nofZ 1) (nofZ 0) (nofZ 0) = Ok nd /\
    high_good x ((nexp (nneg x) /! x) *! (nofZ 1 +! ((nofZ 1 /! x) *! fst nd) /! snd nd)).
Proof.
  intros F Hx HP HQ. destruct (high_rel kappa TT K4 HE x P Q F ltac:(lra) HP HQ) as (nd & EN & R).
  exists nd. split; [exact EN|].
  destruct (E1_accuracy_high (val x) ltac:(lra)) as (w & EW & BW & B10 & B4). rewrite (E1_high (val x)) in EW by lra. apply ok_inj in EW. rewrite EW in R.
  assert (P1 := E1_pos (val x) ltac:(lra)). destruct (rel_interval _ _ _ R ltac:(lra) ltac:(lra)) as (F1 & B). split; [exact F1|].
  split; [lra|]. split; intros H; [specialize (B10 H)|specialize (B4 H)]; lra.
Qed.

Lemma guards (x : f64) : is_finite x = true -> val fl8 < val x ->
  E1_approximation (T := f64) x =
  if Rlt_bool (val x) 1 then let* num := horner e1a_p x in let* den := horner e1a_q x in Ok (nneg (nlog x) +! (num /! den))
  else if Rlt_bool (val x) 4 then let* nd := inv_frac e1b_p e1b_q x 0 9 (nofZ 1) (nofZ 0) (nofZ 0) in Ok (nexp (nneg x) *! (fst nd /! snd nd))
  else let* nd := inv_frac e1c_p e1c_q x 0 10 (nofZ 1) (nofZ 0) (nofZ 0) in
    Ok ((nexp (nneg x) /! x) *! (nofZ 1 +! ((nofZ 1 /! x) *! fst nd) /! snd nd)).
Proof.
  intros F H. destruct fl8_val as (_ & V8). unfold E1_approximation. rewrite rejected64 by exact F. rewrite Rle_bool_false by lra.
  destruct (ofZ_ok 0 eq_refl) as (F0 & V0). destruct (ofZ_ok 1 eq_refl) as (F1 & V1). destruct (ofZ_ok 4 eq_refl) as (F4 & V4).
  assert (N0 := nlt_fin (f64_ofZ 0) x F0 F). assert (N1 := nlt_fin x (f64_ofZ 1) F F1). assert (N2 := nle_fin (f64_ofZ 1) x F1 F). assert (N4 := nlt_fin x (f64_ofZ 4) F F4).
  rewrite V0 in N0. rewrite V1 in N1, N2. rewrite V4 in N4.
  change (@nofZ f64 F64Num) with f64_ofZ in *.
  rewrite (proj2 N0) by lra. cbn [andb].
  destruct (Rlt_bool_spec (val x) 1) as [L1|L1].
  - rewrite (proj2 N1 L1). reflexivity.
  - replace (nlt x (f64_ofZ 1)) with false by (symmetry; apply not_true_is_false; rewrite N1; lra).
    rewrite (proj2 N2 L1). cbn [andb].
    destruct (Rlt_bool_spec (val x) 4) as [L4|L4].
    + rewrite (proj2 N4 L4). reflexivity.
    + replace (nlt x (f64_ofZ 4)) with false by (symmetry; apply not_true_is_false; rewrite N4; lra). reflexivity.
Qed.

Lemma E1d_low (x : f64) : is_finite x = true -> val fl8 < val x < 1 -> exists v, E1_approximation (T := f64) x = Ok v /\ low_good x v.
Proof.
  intros F H. destruct fl8_val as (_ & V8). destruct (low_tables x _ _ F ltac:(lra) lits_a_p lits_a_q) as (a & b & EA & EB & G).
  eexists. split; [|exact G]. rewrite guards by (auto; lra). rewrite Rlt_bool_true by lra. rewrite EA. cbn [bind]. rewrite EB. reflexivity.
Qed.
Lemma E1d_mid (x : f64) : is_finite x = true -> 1 <= val x < 4 -> exists v, E1_approximation (T := f64) x = Ok v /\ mid_good x v.
Proof.
  intros F H. destruct fl8_val as (_ & V8). destruct (mid_tables x _ _ F ltac:(lra) lits_b_p lits_b_q) as (nd & EA & G).
  eexists. split; [|exact G]. rewrite guards by (auto; lra). rewrite Rlt_bool_false, Rlt_bool_true by lra. rewrite EA. reflexivity.
Qed.
Lemma E1d_high (x : f64) : is_finite x = true -> 4 <= val x <= 690 -> exists v, E1_approximation (T := f64) x = Ok v /\ high_good x v.
Proof.
  intros F H. destruct fl8_val as (_ & V8). destruct (high_tables x _ _ F ltac:(lra) lits_c_p lits_c_q) as (nd & EA & G).
  eexists. split; [|exact G]. rewrite guards by (auto; lra). rewrite !Rlt_bool_false by lra. rewrite EA. reflexivity.
Qed.
Lemma E1d_inaccurate (x : f64) : is_finite x = true -> 1 <= val x <= 10 -> forall v, E1_approximation (T := f64) x = Ok v ->
  5 / 10000000000 * E1 (val x) < val v - E1 (val x).
Proof.
  intros F H v E. assert (P1 := E1_pos (val x) ltac:(lra)). destruct (Rlt_dec (val x) 4) as [L|L].
  - destruct (E1d_mid x F ltac:(lra)) as (w & EW & _ & B). rewrite E in EW. apply ok_inj in EW. subst w. lra.
  - destruct (E1d_high x F ltac:(lra)) as (w & EW & _ & _ & B & _). rewrite E in EW. apply ok_inj in EW. subst w. specialize (B ltac:(lra)). lra.
Qed.
End Final.

(** The process ends on the small arguments and on no other finite one,
    whatever the library. *)
Lemma E1d_exit (TT : NumTr f64) (x : f64) : is_finite x = true -> 
  (val x <= val fl8 -> E1_approximation (T := f64) x = Exit 0) /\ (val fl8 < val x -> exists v, E1_approximation (T := f64) x = Ok v).
Proof.
  intros F. split; intros H.
  - unfold E1_approximation. rewrite rejected64 by exact F. rewrite Rle_bool_true by exact H. reflexivity.
  - rewrite guards by auto. destruct (Rlt_bool (val x) 1); [eexists; reflexivity|]. destruct (Rlt_bool (val x) 4); eexists; reflexivity.
Qed.

(** ** The example library *)
Lemma ofR_rel r : r = 0 \/ bpow radix2 (-1021) <= Rabs r <= bpow radix2 1020 -> is_finite (ofR r) = true /\ Rabs (val (ofR r) - r) <= 1 * u53 * Rabs r.
Proof.
  intros H. unfold ofR. cbv zeta. assert (G : generic_format radix2 (FLT_exp (-1074) 53) (rnd64 r)) by (apply generic_format_round; [apply FLT_exp_valid; reflexivity|apply valid_rnd_N]).
  change (round radix2 (FLT_exp (-1074) 53) ZnearestE r) with (rnd64 r).
  assert (N := binary_normalize_correct 53 1024 eq_refl eq_refl mode_NE (Ztrunc (scaled_mantissa radix2 (FLT_exp (-1074) 53) (rnd64 r))) (cexp radix2 (FLT_exp (-1074) 53) (rnd64 r)) false).
  cbv zeta in N. assert (E : F2R (Float radix2 (Ztrunc (scaled_mantissa radix2 (FLT_exp (-1074) 53) (rnd64 r))) (cexp radix2 (FLT_exp (-1074) 53) (rnd64 r))) = rnd64 r) by (symmetry; exact G).
  rewrite E in N. change (round radix2 (SpecFloat.fexp 53 1024) (round_mode mode_NE) (rnd64 r)) with (rnd64 (rnd64 r)) in N. rewrite (rnd64_id (rnd64 r) G) in N.
  assert (X : Rabs (rnd64 r - r) <= u53 * Rabs r).
  { destruct H as [->|H]; [rewrite rnd64_id by apply generic_format_0; rewrite Rminus_0_r, Rabs_R0; lra|].
    apply rel_err. apply Rle_trans with (2 := proj1 H). apply bpow_le. lia. }
  rewrite Rlt_bool_true in N.
  - destruct N as (N1 & N2 & _). split; [assumption|]. rewrite Rmult_1_l, N1. exact X.
  - assert (U := u_tiny). assert (B20 : Rabs r <= bpow radix2 1020) by (destruct H as [->|H]; [rewrite Rabs_R0; apply bpow_ge_0|apply H]).
    assert (u53 * Rabs r <= 1 * Rabs r) by (apply Rmult_le_compat_r; [apply Rabs_pos|lra]).
    apply Rle_lt_trans with (2 * bpow radix2 1020).
    + replace (rnd64 r) with ((rnd64 r - r) + r) by ring. apply Rle_trans with (1 := Rabs_triang _ _). lra.
    + change (2 * bpow radix2 1020) with (bpow radix2 1 * bpow radix2 1020). rewrite <- bpow_plus. apply bpow_lt. reflexivity.
Qed.
Lemma exact_explog_near : libm_exp 1 exact_explog /\ libm_log 1 exact_explog.
Proof.
  split; intros x F H; unfold dvalue in *.
  - cbn [nexp exact_explog]. assert (P := exp_pos (val x)). unfold dvalue. cut (is_finite (ofR (exp (val x))) = true /\ Rabs (val (ofR (exp (val x))) - exp (val x)) <= 1 * u53 * Rabs (exp (val x))); [rewrite (Rabs_pos_eq (exp (val x))) by lra; auto|].
    apply ofR_rel. right. rewrite Rabs_pos_eq by lra.
    assert (E7 : exp 700 <= 10 ^ 305).
    { replace 700 with (INR 700 * 1) by (rewrite INR_IZR_INZ; change (Z.of_nat 700) with 700%Z; ring). rewrite exp_INR.
      apply Rle_trans with ((272 / 100) ^ 700); [apply pow_incr; split; [left; apply exp_pos|exact exp_1_le]|].
      replace 700%nat with (140 * 5)%nat by reflexivity. replace 305%nat with (61 * 5)%nat by reflexivity. rewrite !pow_mult. apply pow_incr. split; [apply pow_le; lra|].
      replace (10 ^ 61) with ((10 / 1) ^ 61) by (f_equal; field). apply pow_IZR_le; [lia|lia|vm_compute; discriminate]. }
    assert (ML : forall a b, a <= b -> exp a <= exp b) by (intros a b [L| ->]; [left; apply exp_increasing; exact L|lra]).
    apply Rabs_le_inv in H. split.
    + apply Rle_trans with (exp (Ropp 700)); [|apply ML; lra]. replace (exp (Ropp 700)) with (/ exp 700) by (symmetry; apply exp_Ropp). apply Rle_trans with (/ 10 ^ 305); [|apply Rinv_le_contravar; [apply exp_pos|exact E7]].
      replace (bpow radix2 (-1021)) with (/ IZR (2 ^ 1021)) by reflexivity. rewrite pow_IZR. apply Rinv_le_contravar; [apply IZR_lt; reflexivity|]. apply IZR_le. vm_compute. discriminate.
    + apply Rle_trans with (exp 700); [apply ML; lra|]. apply Rle_trans with (1 := E7). replace (bpow radix2 1020) with (IZR (2 ^ 1020)) by reflexivity. rewrite pow_IZR. apply IZR_le. vm_compute. discriminate.
  - cbn [nlog exact_explog]. unfold dvalue. apply ofR_rel. destruct (Req_dec (val x) 1) as [E|NE]; [left; rewrite E; apply ln_1|right].
    set (y := val x) in *. assert (FY : fmt64 y) by apply fmt64_val. assert (F1 : fmt64 1) by (apply (fmt64_IZR 1); reflexivity).
    assert (BU : y <= bpow radix2 1024) by (unfold y; left; apply Rle_lt_trans with (1 := Rle_abs _); apply (abs_B2R_lt_emax 53 1024)).
    assert (BL : bpow radix2 (-1074) <= y) by (apply (generic_format_ge_bpow radix2 (FLT_exp (-1074) 53)); [intros e; unfold FLT_exp; lia|exact H|exact FY]).
    assert (LB : forall z, 0 < z -> ln z <= z - 1) by (intros z Hz; assert (K := exp_ineq1_le (ln z)); rewrite exp_ln in K by exact Hz; lra).
    assert (L2 : ln 2 <= 1) by (apply Rle_trans with (1 := LB 2 ltac:(lra)); lra). assert (L20 : 0 < ln 2) by (rewrite <- ln_1; apply ln_increasing; lra).
    assert (LP : forall e, ln (bpow radix2 e) = IZR e * ln 2) by (intros e; rewrite bpow_exp, ln_exp; reflexivity).
    assert (ML : forall a b, 0 < a -> a <= b -> ln a <= ln b) by (intros a b A [L| ->]; [left; apply ln_increasing; auto|lra]).
    assert (U1 := ML _ _ H BU). rewrite LP in U1. assert (U2 := ML _ _ (bpow_gt_0 radix2 (-1074)) BL). rewrite LP in U2.
    assert (UB : Rabs (ln y) <= 1074) by (apply Rabs_le; lra).
    split; [|apply Rle_trans with (1 := UB); change 1074 with (IZR 1074); replace (bpow radix2 1020) with (IZR (2 ^ 1020)) by reflexivity; apply IZR_le; vm_compute; discriminate].
    assert (VE : Valid_exp (FLT_exp (-1074) 53)) by (apply FLT_exp_valid; reflexivity).
    assert (ME : Monotone_exp (FLT_exp (-1074) 53)) by (apply FLT_exp_monotone).
    assert (LW : / 2 ^ 53 <= Rabs (ln y)).
    { assert (P53 : / 2 ^ 53 <= / 2) by (apply Rinv_le_contravar; [lra|simpl; lra]).
      destruct (Rlt_le_dec 1 y) as [G|G].
      - assert (K1 : bpow radix2 0 <= y - ulp radix2 (FLT_exp (-1074) 53) y).
        { apply id_m_ulp_ge_bpow; [exact FY| |exact G]. intros EQ. assert (K := ulp_FLT_le radix2 (-1074) 53 y).
          rewrite <- EQ in K. assert (K2 : bpow radix2 (-1074 + 53 - 1) <= Rabs y) by (rewrite Rabs_pos_eq by lra; apply Rle_trans with 1; [change 1 with (bpow radix2 0); apply bpow_le; lia|lra]).
          specialize (K K2). rewrite Rabs_pos_eq in K by lra. assert (bpow radix2 (1 - 53) <= / 2) by (change (/ 2) with (bpow radix2 (-1)); apply bpow_le; lia).
          assert (y * bpow radix2 (1 - 53) <= y * / 2) by (apply Rmult_le_compat_l; lra). lra. }
        assert (K2 : bpow radix2 (-52) <= ulp radix2 (FLT_exp (-1074) 53) y).
        { replace (bpow radix2 (-52)) with (ulp radix2 (FLT_exp (-1074) 53) (bpow radix2 0)) by (rewrite ulp_bpow; reflexivity).
          apply ulp_le_pos; auto; [apply bpow_ge_0|simpl; lra]. }
        change (bpow radix2 0) with 1 in K1. replace (bpow radix2 (-52)) with (2 * / 2 ^ 53) in K2 by (rewrite bpow_powerRZ; simpl; lra).
        assert (IY : 0 < / y) by (apply Rinv_0_lt_compat; lra). assert (K3 := LB (/ y) IY). rewrite ln_Rinv in K3 by lra.
        apply Rle_trans with (2 := Rle_abs _). destruct (Rlt_le_dec y 2) as [Y2|Y2].
        + assert (/ 2 <= / y) by (apply Rinv_le_contravar; lra).
          assert ((2 * / 2 ^ 53) * / 2 <= (y - 1) * / y) by (apply Rmult_le_compat; lra). replace ((y - 1) * / y) with (1 - / y) in * by (field; lra). lra.
        + assert (/ y <= / 2) by (apply Rinv_le_contravar; lra). lra.
      - assert (K3 := LB y H). rewrite Rabs_left1 by lra. destruct (Rle_lt_dec (/ 2) y) as [Y2|Y2]; [|lra].
        assert (K1 : y + ulp radix2 (FLT_exp (-1074) 53) y <= bpow radix2 0) by (apply id_p_ulp_le_bpow; [exact H|exact FY|simpl; lra]).
        assert (K2 : bpow radix2 (-53) <= ulp radix2 (FLT_exp (-1074) 53) y).
        { replace (bpow radix2 (-53)) with (ulp radix2 (FLT_exp (-1074) 53) (bpow radix2 (-1))) by (rewrite ulp_bpow; reflexivity).
          apply ulp_le_pos; auto. apply bpow_ge_0. }
        change (bpow radix2 0) with 1 in K1. replace (bpow radix2 (-53)) with (/ 2 ^ 53) in K2 by (rewrite bpow_powerRZ; reflexivity). lra. }
    apply Rle_trans with (2 := LW). replace (/ 2 ^ 53) with (bpow radix2 (-53)) by (rewrite bpow_powerRZ; reflexivity). apply bpow_le. lia.
Qed.
