(** Rotations and projections in binary64, with a sine and a cosine accurate to
    a few units in the last place. *)
From Coq Require Import List Arith ZArith Reals Bool Lia Lra Psatz.
From Flocq Require Import Core.Core IEEE754.BinarySingleNaN.
From Verif Require Import Outcome Num NumFun F64 M_Basics M_Triangle M_Geometry M_Vec S_Basics S_Vec S_Geometry L_Geometry
  L_F64 L_Linspace64 L_F64Err S_Angles S_Double S_Rot64 L_Series64 L_Interp64 L_Special64 L_Apx L_Sum64.
From Verif Require L_Arange64 L_Units64.
Import ListNotations.
Local Open Scope R_scope.

(** ** Sine and cosine are 1-Lipschitz *)
Lemma abs_sin_le t : Rabs (sin t) <= Rabs t.
Proof.
  assert (G : forall x, 0 <= x -> Rabs (sin x) <= x).
  { intros x [H|H]; [|subst; rewrite sin_0, Rabs_R0; lra]. destruct (Rle_or_lt x 1) as [K|K].
    - assert (P := PI2_1). rewrite Rabs_pos_eq; [apply Rlt_le, sin_lt_x, H|]. apply sin_ge_0; lra.
    - assert (B := SIN_bound x). apply Rle_trans with 1; [apply Rabs_le; lra|lra]. }
  destruct (Rle_or_lt 0 t) as [H|H]; [rewrite (Rabs_pos_eq t) by lra; apply G, H|].
  rewrite (Rabs_left t) by lra. rewrite <- (Ropp_involutive t) at 1. rewrite sin_neg, Rabs_Ropp. apply G. lra.
Qed.
Lemma sin_lip a b : Rabs (sin a - sin b) <= Rabs (a - b).
Proof.
  rewrite form4. rewrite !Rabs_mult, (Rabs_pos_eq 2) by lra.
  assert (C := COS_bound ((a + b) / 2)). assert (S := abs_sin_le ((a - b) / 2)).
  assert (C1 : Rabs (cos ((a + b) / 2)) <= 1) by (apply Rabs_le; lra).
  assert (P := Rabs_pos (sin ((a - b) / 2))). assert (Q := Rabs_pos (cos ((a + b) / 2))).
  assert (E : Rabs ((a - b) / 2) = Rabs (a - b) / 2) by (unfold Rdiv; rewrite Rabs_mult, (Rabs_pos_eq (/ 2)) by lra; reflexivity).
  rewrite E in S. assert (Rabs (cos ((a + b) / 2)) * Rabs (sin ((a - b) / 2)) <= 1 * (Rabs (a - b) / 2)) by (apply Rmult_le_compat; lra). lra.
Qed.
Lemma cos_lip a b : Rabs (cos a - cos b) <= Rabs (a - b).
Proof. rewrite <- !sin_shift. replace (a - b) with (- (PI / 2 - a - (PI / 2 - b))) by ring. rewrite Rabs_Ropp. apply sin_lip. Qed.

(** ** Helpers for the calculus *)
Lemma big_1000 : 1000 <= big.
Proof. apply Rle_trans with (bpow radix2 10); [simpl; lra|apply bpow_le; discriminate]. Qed.
Lemma tau_small : tau <= / 1000.
Proof. apply Rle_trans with (bpow radix2 (-10)); [apply bpow_le; discriminate|simpl; lra]. Qed.
Lemma mul11 f g a b k l : apx f a 1 k -> apx g b 1 l -> 0 <= k <= 100000 -> 0 <= l <= 100000 -> apx (f *! g) (a * b) 1 (k + l + 102 / 100).
Proof.
  intros F G K L. assert (B := big_1000). assert (T := tau_small).
  assert (H := apx_mult _ _ _ _ _ _ _ _ F G K L). rewrite Rmult_1_l in H. apply H. lra.
Qed.
Lemma apx_rescale f r A B k : apx f r A k -> Rabs r <= B -> 0 < B -> apx f r B (k * A / B).
Proof. intros (F & _ & E) H P. split; [exact F|]. split; [exact H|]. apply Rle_trans with (1 := E). right. field. lra. Qed.
Lemma apx_within f r A k e : apx f r A k -> k * A * u53 <= e -> within e f r.
Proof. intros (F & _ & E) H. split; [exact F|]. unfold dvalue. lra. Qed.
Lemma apx_more f r A k k' : apx f r A k -> 0 <= k <= k' -> apx f r A k'.
Proof. intros H K. apply apx_weaken with (1 := H); lra. Qed.

Lemma half_exact (x : f64) : is_finite x = true -> is_finite (x /! f64_ofZ 2) = true /\ Rabs (val (x /! f64_ofZ 2) - val x / 2) <= 2 * eta64.
Proof.
  intros F. destruct (ofZ_ok 2 ltac:(lia)) as (F2 & V2). assert (AF := abs_val_fmax x).
  assert (HA : Rabs (val x / 2) = Rabs (val x) / 2) by (unfold Rdiv; rewrite Rabs_mult, (Rabs_pos_eq (/ 2)) by lra; reflexivity).
  assert (A0 := Rabs_pos (val x)).
  destruct (div_ok x (f64_ofZ 2) F F2) as (A & B); [rewrite V2; lra| |].
  { rewrite V2, HA. assert (P := bpow_gt_0 radix2 969). lra. }
  split; [exact A|]. rewrite B, V2. assert (E0 := eta64_pos).
  destruct (FLT_format_generic radix2 (-1074) 53 (val x) (fmt64_val x)) as [[m e] E1 E2 E3]. cbn [Fnum Fexp] in *.
  assert (EX : val x / 2 = F2R (Float radix2 m (e - 1))).
  { rewrite E1. unfold F2R. cbn [Fnum Fexp]. unfold Zminus. rewrite bpow_plus. change (bpow radix2 (- (1))) with (/ 2). field. }
  destruct (Z.eq_dec e (-1074)) as [He|He].
  - assert (R := L_F64Err.rnd_err (val x / 2)). apply Rle_trans with (1 := R).
    assert (S : Rabs (val x / 2) <= bpow radix2 (-1022)).
    { rewrite EX, He. rewrite <- F2R_Zabs. change (-1074 - 1)%Z with (-1075)%Z. unfold F2R. cbn [Fnum Fexp]. change (-1022)%Z with (53 + -1075)%Z. rewrite bpow_plus.
      apply Rmult_le_compat_r; [apply bpow_ge_0|]. change (bpow radix2 53) with (IZR (2 ^ 53)). apply IZR_le. apply Z.lt_le_incl, E2. }
    assert (u53 * Rabs (val x / 2) <= eta64).
    { apply Rle_trans with (bpow radix2 (-53) * bpow radix2 (-1022)).
      - apply Rmult_le_compat; [apply Rlt_le, u53_pos|apply Rabs_pos| |exact S]. right. unfold u53. rewrite bpow_powerRZ. reflexivity.
      - rewrite <- bpow_plus. right. unfold eta64. change (-53 + -1022)%Z with (-1 + -1074)%Z. rewrite bpow_plus. reflexivity. }
    lra.
  - rewrite rnd64_id; [rewrite Rminus_diag_eq, Rabs_R0 by reflexivity; lra|].
    rewrite EX. apply generic_format_FLT. exists (Float radix2 m (e - 1)); [reflexivity|exact E2|change (-1074 <= e - 1)%Z; lia].
Qed.

(** ** Perturbed rotations *)
Lemma prod_pert a a' b b' d e : 0 <= d <= / 1000 -> 0 <= e <= / 1000 -> Rabs (a - a') <= d -> Rabs (b - b') <= e -> Rabs a' <= 1 -> Rabs b' <= 1 ->
  Rabs (a * b - a' * b') <= 1001 / 1000 * d + e.
Proof.
  intros Hd He A B A1 B1. replace (a * b - a' * b') with ((a - a') * b + a' * (b - b')) by ring. apply Rle_trans with (1 := Rabs_triang _ _). rewrite !Rabs_mult.
  assert (Bb : Rabs b <= 1001 / 1000).
  { replace b with ((b - b') + b') by ring. apply Rle_trans with (1 := Rabs_triang _ _). lra. }
  assert (P1 := Rabs_pos (a - a')). assert (P2 := Rabs_pos b). assert (P3 := Rabs_pos a'). assert (P4 := Rabs_pos (b - b')).
  assert (Rabs (a - a') * Rabs b <= d * (1001 / 1000)) by (apply Rmult_le_compat; lra).
  assert (Rabs a' * Rabs (b - b') <= 1 * e) by (apply Rmult_le_compat; lra). lra.
Qed.
Lemma dot_pert a1 a2 a3 b1 b2 b3 a1' a2' a3' b1' b2' b3' d : 0 <= d <= / 10000 ->
  Rabs (a1 - a1') <= d -> Rabs (a2 - a2') <= d -> Rabs (a3 - a3') <= d -> Rabs (b1 - b1') <= d -> Rabs (b2 - b2') <= d -> Rabs (b3 - b3') <= d ->
  Rabs a1' <= 1 -> Rabs a2' <= 1 -> Rabs a3' <= 1 -> Rabs b1' <= 1 -> Rabs b2' <= 1 -> Rabs b3' <= 1 ->
  Rabs (a1 * b1 + a2 * b2 + a3 * b3 - (a1' * b1' + a2' * b2' + a3' * b3')) <= 7 * d.
Proof.
  intros Hd. intros. assert (P1 := prod_pert a1 a1' b1 b1' d d). assert (P2 := prod_pert a2 a2' b2 b2' d d). assert (P3 := prod_pert a3 a3' b3 b3' d d).
  replace (a1 * b1 + a2 * b2 + a3 * b3 - (a1' * b1' + a2' * b2' + a3' * b3')) with ((a1 * b1 - a1' * b1') + ((a2 * b2 - a2' * b2') + (a3 * b3 - a3' * b3'))) by ring.
  assert (T1 := Rabs_triang (a1 * b1 - a1' * b1') ((a2 * b2 - a2' * b2') + (a3 * b3 - a3' * b3'))).
  assert (T2 := Rabs_triang (a2 * b2 - a2' * b2') (a3 * b3 - a3' * b3')).
  specialize (P1 ltac:(lra) ltac:(lra)). specialize (P2 ltac:(lra) ltac:(lra)). specialize (P3 ltac:(lra) ltac:(lra)).
  assert (Rabs (a1 * b1 - a1' * b1') <= 1001 / 1000 * d + d) by auto. assert (Rabs (a2 * b2 - a2' * b2') <= 1001 / 1000 * d + d) by auto. assert (Rabs (a3 * b3 - a3' * b3') <= 1001 / 1000 * d + d) by auto. lra.
Qed.
Definition trip_pert_stmt a b c a' b' c' d := Rabs (a * b * c - a' * b' * c') <= 301 / 100 * d.
Lemma trip_pert a b c a' b' c' d : 0 <= d <= / 10000 -> Rabs (a - a') <= d -> Rabs (b - b') <= d -> Rabs (c - c') <= d ->
  Rabs a' <= 1 -> Rabs b' <= 1 -> Rabs c' <= 1 -> trip_pert_stmt a b c a' b' c' d.
Proof.
  intros Hd A B C A1 B1 C1. unfold trip_pert_stmt. assert (P := prod_pert a a' b b' d d ltac:(lra) ltac:(lra) A B A1 B1).
  assert (AB : Rabs (a' * b') <= 1) by (rewrite Rabs_mult; assert (X := Rabs_pos a'); assert (Y := Rabs_pos b'); rewrite <- (Rmult_1_l 1); apply Rmult_le_compat; lra).
  assert (Q := prod_pert (a * b) (a' * b') c c' (1001 / 1000 * d + d) d ltac:(lra) ltac:(lra) P C AB C1). lra.
Qed.
Definition entry_bound (r : mat3 R) : Prop := Forall (fun x => Rabs x <= 1) (entries r).
Lemma rotation_bound r : rotation r -> entry_bound r.
Proof.
  intros (H & _). assert (H1 := f_equal r00 H). assert (H2 := f_equal r11 H). assert (H3 := f_equal r22 H).
  unfold mm, tr, id3 in *. cbn [r00 r01 r02 r10 r11 r12 r20 r21 r22] in *.
  assert (Q : forall x, x * x <= 1 -> Rabs x <= 1) by (intros x Hx; apply Rabs_le; nra).
  assert (S : forall x : R, 0 <= x * x) by (intros; nra).
  unfold entry_bound, entries.
  assert (A1 := S (r00 r)). assert (A2 := S (r10 r)). assert (A3 := S (r20 r)). assert (B1 := S (r01 r)). assert (B2 := S (r11 r)). assert (B3 := S (r21 r)).
  assert (C1 := S (r02 r)). assert (C2 := S (r12 r)). assert (C3 := S (r22 r)).
  repeat (constructor; [apply Q; lra|]). constructor.
Qed.
Lemma nine {A B} (P : A -> B -> Prop) m r : Forall2 P (entries m) (entries r) ->
  (P (r00 m) (r00 r) /\ P (r01 m) (r01 r) /\ P (r02 m) (r02 r)) /\ (P (r10 m) (r10 r) /\ P (r11 m) (r11 r) /\ P (r12 m) (r12 r)) /\
  (P (r20 m) (r20 r) /\ P (r21 m) (r21 r) /\ P (r22 m) (r22 r)).
Proof.
  unfold entries. intros H. inversion H as [|? ? ? ? A1 H1]; subst. inversion H1 as [|? ? ? ? A2 H2]; subst. inversion H2 as [|? ? ? ? A3 H3]; subst.
  inversion H3 as [|? ? ? ? A4 H4]; subst. inversion H4 as [|? ? ? ? A5 H5]; subst. inversion H5 as [|? ? ? ? A6 H6]; subst.
  inversion H6 as [|? ? ? ? A7 H7]; subst. inversion H7 as [|? ? ? ? A8 H8]; subst. inversion H8 as [|? ? ? ? A9 H9]; subst. tauto.
Qed.
Lemma nine_bound r : entry_bound r -> (Rabs (r00 r) <= 1 /\ Rabs (r01 r) <= 1 /\ Rabs (r02 r) <= 1) /\ (Rabs (r10 r) <= 1 /\ Rabs (r11 r) <= 1 /\ Rabs (r12 r) <= 1) /\
  (Rabs (r20 r) <= 1 /\ Rabs (r21 r) <= 1 /\ Rabs (r22 r) <= 1).
Proof.
  intros H. unfold entry_bound in H. apply (nine (fun x (_ : R) => Rabs x <= 1) r r). revert H. generalize (entries r). induction l as [|x l IH]; intros H; [constructor|].
  inversion H; subst. constructor; auto.
Qed.
Lemma nearly_rotation m r d : 0 <= d <= / 10000 -> rotation r -> mat_within d m r ->
  mat_close (7 * d) (mm (tr (dmat m)) (dmat m)) id3 /\ mat_close (7 * d) (mm (dmat m) (tr (dmat m))) id3 /\ Rabs (det3 (dmat m) - 1) <= 19 * d.
Proof.
  intros Hd HR HM. assert (HB := nine_bound r (rotation_bound r HR)). apply nine in HM.
  destruct HM as (((_ & M1) & (_ & M2) & (_ & M3)) & ((_ & M4) & (_ & M5) & (_ & M6)) & ((_ & M7) & (_ & M8) & (_ & M9))).
  destruct HB as ((B1 & B2 & B3) & (B4 & B5 & B6) & (B7 & B8 & B9)). destruct HR as (R1 & R2 & R3). split; [|split].
  - rewrite <- R1. unfold mat_close, entries, mm, tr, dmat. cbn [r00 r01 r02 r10 r11 r12 r20 r21 r22].
    repeat (constructor; [apply dot_pert; assumption|]). constructor.
  - rewrite <- R2. unfold mat_close, entries, mm, tr, dmat. cbn [r00 r01 r02 r10 r11 r12 r20 r21 r22].
    repeat (constructor; [apply dot_pert; assumption|]). constructor.
  - rewrite <- R3. unfold det3, dmat. cbn [r00 r01 r02 r10 r11 r12 r20 r21 r22].
    assert (T1 : trip_pert_stmt (dvalue (r00 m)) (dvalue (r11 m)) (dvalue (r22 m)) (r00 r) (r11 r) (r22 r) d) by (apply trip_pert; assumption).
    assert (T2 : trip_pert_stmt (dvalue (r00 m)) (dvalue (r12 m)) (dvalue (r21 m)) (r00 r) (r12 r) (r21 r) d) by (apply trip_pert; assumption).
    assert (T3 : trip_pert_stmt (dvalue (r01 m)) (dvalue (r10 m)) (dvalue (r22 m)) (r01 r) (r10 r) (r22 r) d) by (apply trip_pert; assumption).
    assert (T4 : trip_pert_stmt (dvalue (r01 m)) (dvalue (r12 m)) (dvalue (r20 m)) (r01 r) (r12 r) (r20 r) d) by (apply trip_pert; assumption).
    assert (T5 : trip_pert_stmt (dvalue (r02 m)) (dvalue (r10 m)) (dvalue (r21 m)) (r02 r) (r10 r) (r21 r) d) by (apply trip_pert; assumption).
    assert (T6 : trip_pert_stmt (dvalue (r02 m)) (dvalue (r11 m)) (dvalue (r20 m)) (r02 r) (r11 r) (r20 r) d) by (apply trip_pert; assumption).
    unfold trip_pert_stmt in *. apply Rabs_le_inv in T1. apply Rabs_le_inv in T2. apply Rabs_le_inv in T3. apply Rabs_le_inv in T4. apply Rabs_le_inv in T5. apply Rabs_le_inv in T6.
    rewrite !Rmult_minus_distr_l, <- !Rmult_assoc. apply Rabs_le. lra.
Qed.

Lemma unit_parts r : unit_quat r -> Rabs (qw r) <= 1 /\ Rabs (qx r) <= 1 /\ Rabs (qy r) <= 1 /\ Rabs (qz r) <= 1.
Proof.
  unfold unit_quat. intros H. assert (Q : forall x, x * x <= 1 -> Rabs x <= 1) by (intros x Hx; apply Rabs_le; nra).
  assert (A := Rle_0_sqr (qw r)). assert (B := Rle_0_sqr (qx r)). assert (C := Rle_0_sqr (qy r)). assert (D := Rle_0_sqr (qz r)). unfold Rsqr in *.
  repeat split; apply Q; lra.
Qed.
Lemma quat_norm_near q r d : 0 <= d <= / 10000 -> unit_quat r -> quat_within d q r -> Rabs (qnorm2 (dquat q) - 1) <= 9 * d.
Proof.
  intros Hd U H. destruct (unit_parts _ U) as (U1 & U2 & U3 & U4). unfold quat_within, qparts in H.
  inversion H as [|? ? ? ? A1 H1]; subst. inversion H1 as [|? ? ? ? A2 H2]; subst. inversion H2 as [|? ? ? ? A3 H3]; subst. inversion H3 as [|? ? ? ? A4 H4]; subst.
  clear H H1 H2 H3 H4. destruct A1 as (_ & A1). destruct A2 as (_ & A2). destruct A3 as (_ & A3). destruct A4 as (_ & A4).
  assert (P1 := prod_pert _ _ _ _ d d ltac:(lra) ltac:(lra) A1 A1 U1 U1). assert (P2 := prod_pert _ _ _ _ d d ltac:(lra) ltac:(lra) A2 A2 U2 U2).
  assert (P3 := prod_pert _ _ _ _ d d ltac:(lra) ltac:(lra) A3 A3 U3 U3). assert (P4 := prod_pert _ _ _ _ d d ltac:(lra) ltac:(lra) A4 A4 U4 U4).
  unfold unit_quat in U. unfold qnorm2, dquat. cbn [qw qx qy qz].
  apply Rabs_le_inv in P1. apply Rabs_le_inv in P2. apply Rabs_le_inv in P3. apply Rabs_le_inv in P4. apply Rabs_le. lra.
Qed.

Section Rot.
Context (kp : R) (TT : NumTr f64) (HT : libm_near kp TT) (Hk : 0 <= kp <= 1000).
Lemma sin_apx x : is_finite x = true -> apx (nsin x) (sin (val x)) 1 kp /\ apx (ncos x) (cos (val x)) 1 kp.
Proof.
  intros F. destruct (HT x F) as (A & B & C & D). assert (S := SIN_bound (val x)). assert (S' := COS_bound (val x)). change uround with u53 in *. unfold dvalue in *.
  split; (split; [assumption|]; split; [apply Rabs_le; lra|lra]).
Qed.
(** The same at a nearby angle. *)
Lemma sin_apx_near x t : is_finite x = true -> Rabs (val x - t) <= 2 * eta64 -> apx (nsin x) (sin t) 1 (kp + / 100) /\ apx (ncos x) (cos t) 1 (kp + / 100).
Proof.
  intros F H. destruct (sin_apx x F) as ((A1 & A2 & A3) & (B1 & B2 & B3)). assert (SL := sin_lip (val x) t). assert (CL := cos_lip (val x) t).
  assert (U := u_tiny). assert (ES := L_Arange64.eta_small). assert (S := SIN_bound t). assert (S' := COS_bound t).
  split; (split; [assumption|]; split; [apply Rabs_le; lra|]).
  - replace (val (nsin x) - sin t) with ((val (nsin x) - sin (val x)) + (sin (val x) - sin t)) by ring. apply Rle_trans with (1 := Rabs_triang _ _). lra.
  - replace (val (ncos x) - cos t) with ((val (ncos x) - cos (val x)) + (cos (val x) - cos t)) by ring. apply Rle_trans with (1 := Rabs_triang _ _). lra.
Qed.

(** ** Matrix of Euler angles *)
Lemma euler_matrix_near (e : vec3 f64) : is_finite (vx e) = true -> is_finite (vy e) = true -> is_finite (vz e) = true ->
  mat_within ((6 * kp + 7) * uround) (eulerAnglesZYXToRotationMatrix e) (eulerAnglesZYXToRotationMatrix (T := R) (mkV3 (val (vx e)) (val (vy e)) (val (vz e)))).
Proof.
  intros Fx Fy Fz. destruct (sin_apx _ Fx) as (Sr & Cr). destruct (sin_apx _ Fy) as (Sp & Cp). destruct (sin_apx _ Fz) as (Sy & Cy).
  assert (B := big_1000). assert (U := u_tiny). change uround with u53.
  assert (M2 : forall f g a b, apx f a 1 kp -> apx g b 1 kp -> apx (f *! g) (a * b) 1 (2 * kp + 102 / 100)).
  { intros f g a b P Q. assert (H := mul11 _ _ _ _ _ _ P Q ltac:(lra) ltac:(lra)). eapply apx_more; [exact H|lra]. }
  assert (M3 : forall f g h a b c, apx f a 1 kp -> apx g b 1 kp -> apx h c 1 kp -> apx (f *! g *! h) (a * b * c) 1 (3 * kp + 204 / 100)).
  { intros f g h a b c P Q R. assert (H := mul11 _ _ _ _ _ _ (M2 _ _ _ _ P Q) R ltac:(lra) ltac:(lra)). eapply apx_more; [exact H|lra]. }
  assert (KU : 0 <= kp * u53) by (apply Rmult_le_pos; lra).
  assert (W2 : forall f a, apx f a 1 (2 * kp + 102 / 100) -> within ((6 * kp + 7) * u53) f a).
  { intros f a P. apply apx_within with (1 := P). lra. }
  assert (MM : forall f g a b, apx f a 1 (3 * kp + 204 / 100) -> apx g b 1 (2 * kp + 102 / 100) -> within ((6 * kp + 7) * u53) (f -! g) (a - b)).
  { intros f g a b P Q. apply apx_within with (A := 1 + 1) (k := 3 * kp + 204 / 100 + 101 / 100); [apply apx_minus with (1 := P) (2 := Q); lra|lra]. }
  assert (MP : forall f g a b, apx f a 1 (3 * kp + 204 / 100) -> apx g b 1 (2 * kp + 102 / 100) -> within ((6 * kp + 7) * u53) (f +! g) (a + b)).
  { intros f g a b P Q. apply apx_within with (A := 1 + 1) (k := 3 * kp + 204 / 100 + 101 / 100); [apply apx_plus with (1 := P) (2 := Q); lra|lra]. }
  unfold mat_within, entries, eulerAnglesZYXToRotationMatrix. cbn [r00 r01 r02 r10 r11 r12 r20 r21 r22 vx vy vz].
  constructor; [apply (W2 _ _ (M2 _ _ _ _ Cy Cp))|].
  constructor; [apply (MM _ _ _ _ (M3 _ _ _ _ _ _ Cy Sp Sr) (M2 _ _ _ _ Sy Cr))|].
  constructor; [apply (MP _ _ _ _ (M3 _ _ _ _ _ _ Cy Sp Cr) (M2 _ _ _ _ Sy Sr))|].
  constructor; [apply (W2 _ _ (M2 _ _ _ _ Sy Cp))|].
  constructor; [apply (MP _ _ _ _ (M3 _ _ _ _ _ _ Sy Sp Sr) (M2 _ _ _ _ Cy Cr))|].
  constructor; [apply (MM _ _ _ _ (M3 _ _ _ _ _ _ Sy Sp Cr) (M2 _ _ _ _ Cy Sr))|].
  constructor; [apply apx_within with (1 := apx_neg _ _ _ _ Sp); lra|].
  constructor; [apply (W2 _ _ (M2 _ _ _ _ Cp Sr))|].
  constructor; [apply (W2 _ _ (M2 _ _ _ _ Cp Cr))|constructor].
Qed.

(** ** Quaternion of Euler angles *)
Let k3 : R := 3 * kp + 21 / 10.
Lemma euler_quat_near (e : vec3 f64) : is_finite (vx e) = true -> is_finite (vy e) = true -> is_finite (vz e) = true ->
  let q := eulerAnglesZYXToQuaternion e in let r := eulerAnglesZYXToQuaternion (T := R) (mkV3 (val (vx e)) (val (vy e)) (val (vz e))) in
  apx (qw q) (qw r) 2 (k3 + 101 / 100) /\ apx (qx q) (qx r) 2 (k3 + 101 / 100) /\ apx (qy q) (qy r) 2 (k3 + 101 / 100) /\ apx (qz q) (qz r) 2 (k3 + 101 / 100).
Proof.
  intros Fx Fy Fz. destruct (half_exact _ Fx) as (Gx & Hx). destruct (half_exact _ Fy) as (Gy & Hy). destruct (half_exact _ Fz) as (Gz & Hz).
  destruct (sin_apx_near _ _ Gx Hx) as (Sr & Cr). destruct (sin_apx_near _ _ Gy Hy) as (Sp & Cp). destruct (sin_apx_near _ _ Gz Hz) as (Sy & Cy).
  assert (B := big_1000). assert (U := u_tiny).
  assert (M3 : forall f g h a b c, apx f a 1 (kp + / 100) -> apx g b 1 (kp + / 100) -> apx h c 1 (kp + / 100) -> apx (f *! g *! h) (a * b * c) 1 k3).
  { intros f g h a b c P Q R. assert (H := mul11 _ _ _ _ _ _ P Q ltac:(lra) ltac:(lra)).
    assert (H' := mul11 _ _ _ _ _ _ H R ltac:(lra) ltac:(lra)). eapply apx_more; [exact H'|unfold k3; lra]. }
  assert (K3 : 0 <= k3 <= 100000) by (unfold k3; lra).
  assert (MM : forall f g a b, apx f a 1 k3 -> apx g b 1 k3 -> apx (f -! g) (a - b) 2 (k3 + 101 / 100)).
  { intros f g a b P Q. replace 2 with (1 + 1) by ring. apply apx_minus with (1 := P) (2 := Q); lra. }
  assert (MP : forall f g a b, apx f a 1 k3 -> apx g b 1 k3 -> apx (f +! g) (a + b) 2 (k3 + 101 / 100)).
  { intros f g a b P Q. replace 2 with (1 + 1) by ring. apply apx_plus with (1 := P) (2 := Q); lra. }
  cbv zeta. unfold eulerAnglesZYXToQuaternion. cbn [qw qx qy qz vx vy vz].
  split; [|split; [|split]].
  - apply (MP _ _ _ _ (M3 _ _ _ _ _ _ Cr Cp Cy) (M3 _ _ _ _ _ _ Sr Sp Sy)).
  - apply (MM _ _ _ _ (M3 _ _ _ _ _ _ Sr Cp Cy) (M3 _ _ _ _ _ _ Cr Sp Sy)).
  - apply (MP _ _ _ _ (M3 _ _ _ _ _ _ Cr Sp Cy) (M3 _ _ _ _ _ _ Sr Cp Sy)).
  - apply (MM _ _ _ _ (M3 _ _ _ _ _ _ Cr Cp Sy) (M3 _ _ _ _ _ _ Sr Sp Cy)).
Qed.

Let D4 : R := 6 * kp + 7.
Lemma euler_quat_apx (e : vec3 f64) : is_finite (vx e) = true -> is_finite (vy e) = true -> is_finite (vz e) = true ->
  let q := eulerAnglesZYXToQuaternion e in let r := eulerAnglesZYXToQuaternion (T := R) (mkV3 (val (vx e)) (val (vy e)) (val (vz e))) in
  apx (qw q) (qw r) 1 D4 /\ apx (qx q) (qx r) 1 D4 /\ apx (qy q) (qy r) 1 D4 /\ apx (qz q) (qz r) 1 D4.
Proof.
  intros Fx Fy Fz. cbv zeta. assert (H := euler_quat_near e Fx Fy Fz). cbv zeta in H. destruct H as (A & B & C & D).
  assert (U := euler_unit_lemma (mkV3 (val (vx e)) (val (vy e)) (val (vz e)))). destruct (unit_parts _ U) as (U1 & U2 & U3 & U4).
  assert (K : 0 <= (k3 + 101 / 100) * 2 / 1 <= D4) by (unfold k3, D4; lra).
  split; [|split; [|split]].
  - eapply apx_more; [exact (apx_rescale _ _ _ 1 _ A U1 Rlt_0_1)|exact K].
  - eapply apx_more; [exact (apx_rescale _ _ _ 1 _ B U2 Rlt_0_1)|exact K].
  - eapply apx_more; [exact (apx_rescale _ _ _ 1 _ C U3 Rlt_0_1)|exact K].
  - eapply apx_more; [exact (apx_rescale _ _ _ 1 _ D U4 Rlt_0_1)|exact K].
Qed.
Lemma euler_quat_within (e : vec3 f64) : is_finite (vx e) = true -> is_finite (vy e) = true -> is_finite (vz e) = true ->
  quat_within ((6 * kp + 7) * uround) (eulerAnglesZYXToQuaternion e) (eulerAnglesZYXToQuaternion (T := R) (mkV3 (val (vx e)) (val (vy e)) (val (vz e)))).
Proof.
  intros Fx Fy Fz. destruct (euler_quat_apx e Fx Fy Fz) as (A & B & C & D). change uround with u53. unfold quat_within, qparts.
  repeat (constructor; [eapply apx_within; [eassumption|unfold D4; lra]|]). constructor.
Qed.
End Rot.

(** ** The matrix of a quaternion *)
Definition qmat_apx (A k : R) (m : mat3 f64) (r : mat3 R) : Prop := Forall2 (fun f x => apx f x A k) (entries m) (entries r).
Lemma quat_matrix_apx (q : quat f64) (r : quat R) M k : bpow radix2 (-400) <= M <= bpow radix2 400 -> 0 <= k <= 10000 ->
  apx (qw q) (qw r) M k -> apx (qx q) (qx r) M k -> apx (qy q) (qy r) M k -> apx (qz q) (qz r) M k ->
  qmat_apx (4 * (M * M)) (2 * k + 405 / 100) (quaternionToRotationMatrix q) (quaternionToRotationMatrix (T := R) r).
Proof.
  intros (M1 & M2) K W X Y Z. assert (P0 := bpow_gt_0 radix2 (-400)). assert (P8 := bpow_gt_0 radix2 800). assert (P8m := bpow_gt_0 radix2 (-800)). assert (P4 := bpow_gt_0 radix2 400).
  assert (Q1 : bpow radix2 (-800) <= M * M) by (change (-800)%Z with (-400 + -400)%Z; rewrite bpow_plus; apply Rmult_le_compat; lra).
  assert (Q2 : M * M <= bpow radix2 800) by (change 800%Z with (400 + 400)%Z; rewrite bpow_plus; apply Rmult_le_compat; lra).
  assert (T1 : tau <= bpow radix2 (-800)) by (apply bpow_le; discriminate).
  assert (T2 : 4 * bpow radix2 800 <= big) by (change 4 with (bpow radix2 2); rewrite <- bpow_plus; apply bpow_le; discriminate).
  assert (B2 : apx (f64_ofZ 2) 2 2 0) by (destruct (ofZ_ok 2 ltac:(lia)) as (F2 & V2); assert (H := apx_id _ 2 F2 ltac:(rewrite V2, Rabs_pos_eq; lra)); rewrite V2 in H; exact H).
  assert (S2 : forall f a, apx f a M k -> apx (f64_ofZ 2 *! f) (2 * a) (2 * M) (k + 102 / 100)).
  { intros f a F. eapply apx_more; [apply apx_mult with (1 := B2) (2 := F); try lra|lra].
    assert (bpow radix2 (-400) <= M) by exact M1. assert (tau <= bpow radix2 (-400)) by (apply bpow_le; discriminate).
    assert (2 * bpow radix2 400 <= big) by (change 2 with (bpow radix2 1); rewrite <- bpow_plus; apply bpow_le; discriminate). lra. }
  assert (SQ : forall f g a b, apx f a M k -> apx g b M k -> apx (f *! g) (a * b) (M * M) (2 * k + 102 / 100)).
  { intros f g a b F G. eapply apx_more; [apply apx_mult with (1 := F) (2 := G); lra|lra]. }
  assert (S2Q : forall f g a b, apx f a M k -> apx g b M k -> apx (f64_ofZ 2 *! f *! g) (2 * a * b) (2 * (M * M)) (2 * k + 204 / 100)).
  { intros f g a b F G. replace (2 * (M * M)) with (2 * M * M) by ring. eapply apx_more; [apply apx_mult with (1 := S2 _ _ F) (2 := G); lra|lra]. }
  assert (P2 : forall f g a b, apx f a (2 * (M * M)) (2 * k + 204 / 100) -> apx g b (2 * (M * M)) (2 * k + 204 / 100) ->
    apx (f +! g) (a + b) (4 * (M * M)) (2 * k + 405 / 100) /\ apx (f -! g) (a - b) (4 * (M * M)) (2 * k + 405 / 100)).
  { intros f g a b F G. replace (4 * (M * M)) with (2 * (M * M) + 2 * (M * M)) by ring.
    split; (eapply apx_more; [(apply apx_plus with (1 := F) (2 := G) (K := 2 * k + 204 / 100) || apply apx_minus with (1 := F) (2 := G) (K := 2 * k + 204 / 100)); lra|lra]). }
  assert (E1 : forall f g a b, apx f a (M * M) (2 * k + 102 / 100) -> apx g b (M * M) (2 * k + 102 / 100) ->
    apx (f +! g) (a + b) (2 * (M * M)) (2 * k + 203 / 100) /\ apx (f -! g) (a - b) (2 * (M * M)) (2 * k + 203 / 100)).
  { intros f g a b F G. replace (2 * (M * M)) with (M * M + M * M) by ring.
    split; (eapply apx_more; [(apply apx_plus with (1 := F) (2 := G) (K := 2 * k + 102 / 100) || apply apx_minus with (1 := F) (2 := G) (K := 2 * k + 102 / 100)); lra|lra]). }
  assert (E2 : forall f g a b, apx f a (2 * (M * M)) (2 * k + 203 / 100) -> apx g b (M * M) (2 * k + 102 / 100) ->
    apx (f +! g) (a + b) (3 * (M * M)) (2 * k + 304 / 100) /\ apx (f -! g) (a - b) (3 * (M * M)) (2 * k + 304 / 100)).
  { intros f g a b F G. replace (3 * (M * M)) with (2 * (M * M) + M * M) by ring.
    split; (eapply apx_more; [(apply apx_plus with (1 := F) (2 := G) (K := 2 * k + 203 / 100) || apply apx_minus with (1 := F) (2 := G) (K := 2 * k + 203 / 100)); lra|lra]). }
  assert (E3 : forall f g a b, apx f a (3 * (M * M)) (2 * k + 304 / 100) -> apx g b (M * M) (2 * k + 102 / 100) ->
    apx (f +! g) (a + b) (4 * (M * M)) (2 * k + 405 / 100) /\ apx (f -! g) (a - b) (4 * (M * M)) (2 * k + 405 / 100)).
  { intros f g a b F G. replace (4 * (M * M)) with (3 * (M * M) + M * M) by ring.
    split; (eapply apx_more; [(apply apx_plus with (1 := F) (2 := G) (K := 2 * k + 304 / 100) || apply apx_minus with (1 := F) (2 := G) (K := 2 * k + 304 / 100)); lra|lra]). }
  unfold qmat_apx, entries, quaternionToRotationMatrix. cbn [r00 r01 r02 r10 r11 r12 r20 r21 r22].
  constructor; [exact (proj2 (E3 _ _ _ _ (proj2 (E2 _ _ _ _ (proj1 (E1 _ _ _ _ (SQ _ _ _ _ W W) (SQ _ _ _ _ X X))) (SQ _ _ _ _ Y Y))) (SQ _ _ _ _ Z Z)))|].
  constructor; [exact (proj2 (P2 _ _ _ _ (S2Q _ _ _ _ X Y) (S2Q _ _ _ _ W Z)))|].
  constructor; [exact (proj1 (P2 _ _ _ _ (S2Q _ _ _ _ W Y) (S2Q _ _ _ _ X Z)))|].
  constructor; [exact (proj1 (P2 _ _ _ _ (S2Q _ _ _ _ W Z) (S2Q _ _ _ _ X Y)))|].
  constructor; [exact (proj2 (E3 _ _ _ _ (proj1 (E2 _ _ _ _ (proj2 (E1 _ _ _ _ (SQ _ _ _ _ W W) (SQ _ _ _ _ X X))) (SQ _ _ _ _ Y Y))) (SQ _ _ _ _ Z Z)))|].
  constructor; [exact (proj2 (P2 _ _ _ _ (S2Q _ _ _ _ Y Z) (S2Q _ _ _ _ W X)))|].
  constructor; [exact (proj2 (P2 _ _ _ _ (S2Q _ _ _ _ X Z) (S2Q _ _ _ _ W Y)))|].
  constructor; [exact (proj1 (P2 _ _ _ _ (S2Q _ _ _ _ W X) (S2Q _ _ _ _ Y Z)))|].
  constructor; [exact (proj1 (E3 _ _ _ _ (proj2 (E2 _ _ _ _ (proj2 (E1 _ _ _ _ (SQ _ _ _ _ W W) (SQ _ _ _ _ X X))) (SQ _ _ _ _ Y Y))) (SQ _ _ _ _ Z Z)))|].
  constructor.
Qed.
Lemma qmat_within A k m r e : qmat_apx A k m r -> k * A * u53 <= e -> mat_within e m r.
Proof. intros H L. unfold mat_within. unfold qmat_apx in H. induction H; constructor; [eapply apx_within; eassumption|assumption]. Qed.

(** ** Theorems about rotations *)
Section Thm.
Variables (kp : R) (TT : NumTr f64).
Hypothesis HT : libm_near kp TT.
Hypothesis Hk : 0 <= kp <= 1000.

Lemma d_small c : 0 <= c <= 100000 -> 0 <= c * u53 <= / 10000.
Proof. intros H. assert (U := u_tiny). split; [apply Rmult_le_pos; lra|]. apply Rle_trans with (100000 * / 1000000000000000); [apply Rmult_le_compat; lra|lra]. Qed.

Lemma euler_matrix_double_lemma (e : vec3 f64) : finite3 e ->
  mat_within ((6 * kp + 7) * uround) (eulerAnglesZYXToRotationMatrix e)
    (mm (Rot_z (dvalue (vz e))) (mm (Rot_y (dvalue (vy e))) (Rot_x (dvalue (vx e))))).
Proof.
  intros (Fx & Fy & Fz). assert (H := euler_matrix_near kp TT HT Hk e Fx Fy Fz). rewrite euler_product_lemma in H. exact H.
Qed.
Lemma euler_orthogonal_lemma (e : vec3 f64) : finite3 e ->
  let M := dmat (eulerAnglesZYXToRotationMatrix e) in let d := (6 * kp + 7) * uround in
  mat_close (7 * d) (mm (tr M) M) id3 /\ mat_close (7 * d) (mm M (tr M)) id3 /\ Rabs (det3 M - 1) <= 19 * d.
Proof.
  intros (Fx & Fy & Fz). cbv zeta. assert (H := euler_matrix_near kp TT HT Hk e Fx Fy Fz).
  apply nearly_rotation with (2 := euler_rotation_lemma _) (3 := H). change uround with u53. apply d_small. lra.
Qed.
Lemma euler_quaternion_lemma (e : vec3 f64) : finite3 e ->
  exists r : quat R, unit_quat r /\ quat_within ((6 * kp + 7) * uround) (eulerAnglesZYXToQuaternion e) r /\
    (forall v, qvec (mv (mm (Rot_z (dvalue (vz e))) (mm (Rot_y (dvalue (vy e))) (Rot_x (dvalue (vx e))))) v) = qmul (qmul r (qvec v)) (qconj r)) /\
    Rabs (qnorm2 (dquat (eulerAnglesZYXToQuaternion e)) - 1) <= 9 * ((6 * kp + 7) * uround).
Proof.
  intros (Fx & Fy & Fz). set (x := mkV3 (val (vx e)) (val (vy e)) (val (vz e))). exists (eulerAnglesZYXToQuaternion (T := R) x).
  assert (U := euler_unit_lemma x). assert (H := euler_quat_within kp TT HT Hk e Fx Fy Fz). fold x in H.
  split; [exact U|]. split; [exact H|]. split.
  - intros v. rewrite <- quat_action_lemma, euler_agree_lemma, euler_product_lemma. reflexivity.
  - apply quat_norm_near with (2 := U) (3 := H). change uround with u53. apply d_small. lra.
Qed.
Lemma quaternion_matrix_lemma (q : quat f64) M : bpow radix2 (-400) <= M <= bpow radix2 400 ->
  Forall (fun x => is_finite x = true /\ Rabs (dvalue x) <= M) (qparts q) ->
  exists r : mat3 R, (forall v, qvec (mv r v) = qmul (qmul (dquat q) (qvec v)) (qconj (dquat q))) /\
    mat_within (17 * uround * (M * M)) (quaternionToRotationMatrix q) r.
Proof.
  intros HM HB. exists (quaternionToRotationMatrix (T := R) (dquat q)). split; [intros v; apply quat_action_lemma|].
  unfold qparts in HB. inversion HB as [|? ? (F1 & B1) H1]; subst. inversion H1 as [|? ? (F2 & B2) H2]; subst. inversion H2 as [|? ? (F3 & B3) H3]; subst. inversion H3 as [|? ? (F4 & B4) H4]; subst.
  assert (H := quat_matrix_apx q (dquat q) M 0 HM ltac:(lra) (apx_id _ _ F1 B1) (apx_id _ _ F2 B2) (apx_id _ _ F3 B3) (apx_id _ _ F4 B4)).
  apply qmat_within with (1 := H). change uround with u53. assert (U := u53_pos). assert (0 <= M * M) by nra.
  assert (0 <= M * M * u53) by (apply Rmult_le_pos; lra). lra.
Qed.
Lemma quaternion_matrix_euler_lemma (e : vec3 f64) : finite3 e ->
  mat_within ((48 * kp + 73) * uround) (quaternionToRotationMatrix (eulerAnglesZYXToQuaternion e))
    (mm (Rot_z (dvalue (vz e))) (mm (Rot_y (dvalue (vy e))) (Rot_x (dvalue (vx e))))).
Proof.
  intros (Fx & Fy & Fz). destruct (euler_quat_apx kp TT HT Hk e Fx Fy Fz) as (A & B & C & D).
  set (q := eulerAnglesZYXToQuaternion e) in *. set (r := eulerAnglesZYXToQuaternion (mkV3 (val (vx e)) (val (vy e)) (val (vz e)))) in *.
  assert (H := quat_matrix_apx q r 1 (6 * kp + 7)). 
  assert (HM : bpow radix2 (-400) <= 1 <= bpow radix2 400) by (change 1 with (bpow radix2 0); split; apply bpow_le; discriminate).
  specialize (H HM ltac:(lra) A B C D). unfold r in H. rewrite euler_agree_lemma, euler_product_lemma in H.
  apply qmat_within with (1 := H). change uround with u53. assert (U := u53_pos). assert (0 <= kp * u53) by (apply Rmult_le_pos; lra). lra.
Qed.

(** ** Projections *)
Definition used (a : f64) (u : angle_unit) : f64 := match u with DEG => a *! mu_pi_180 (T := f64) | RAD => a end.
Lemma used_near a u : is_finite a = true -> is_finite (used a u) = true /\
  Rabs (val (used a u) - radians u (val a)) <= 402 / 100 * u53 * Rabs (radians u (val a)) + eta64.
Proof.
  intros F. assert (E0 := eta64_pos). assert (U := u_tiny). destruct u; cbn [used radians].
  2:{ split; [exact F|]. rewrite Rminus_diag_eq, Rabs_R0 by reflexivity. assert (P := Rabs_pos (val a)). assert (0 <= u53 * Rabs (val a)) by (apply Rmult_le_pos; lra). lra. }
  destruct L_Units64.apx_pi_180 as (Fp & (t & Vp & Ht) & _). apply L_Units64.fac_err in Ht; [|lia].
  assert (Ht' : Rabs (t - 1) <= 3 * u53) by (revert Ht; cbn [INR]; lra).
  assert (VP : val (mu_pi_180 (T := f64)) = PI / 180 * t) by (rewrite Vp; reflexivity). clear Vp.
  assert (PB := PI_4). assert (P0 := PI_RGT_0).
  assert (T1 : 999 / 1000 <= t <= 1001 / 1000) by (apply Rabs_le_inv in Ht'; lra).
  assert (MU : 0 <= val (mu_pi_180 (T := f64)) <= 1).
  { rewrite VP. assert (0 <= PI / 180 <= / 2) by lra. split; [apply Rmult_le_pos; lra|]. apply Rle_trans with (/ 2 * (1001 / 1000)); [apply Rmult_le_compat; lra|lra]. }
  set (x := val a) in *. assert (AF := abs_val_fmax a). fold x in AF. assert (X0 := Rabs_pos x).
  destruct (mult_ok a (mu_pi_180 (T := f64)) F Fp) as (G & V).
  { fold x. rewrite Rabs_mult, (Rabs_pos_eq (val mu_pi_180)) by lra.
    assert (Rabs x * val mu_pi_180 <= Rabs x * 1) by (apply Rmult_le_compat; lra). assert (P := bpow_gt_0 radix2 969). lra. }
  split; [exact G|]. rewrite V. fold x. assert (R := L_F64Err.rnd_err (x * val mu_pi_180)).
  set (y := x * val mu_pi_180) in *. set (z := x / 180 * PI).
  assert (YZ : y - z = z * (t - 1)) by (unfold y, z; rewrite VP; field).
  assert (D : Rabs (y - z) <= 3 * u53 * Rabs z).
  { rewrite YZ, Rabs_mult. assert (Z0 := Rabs_pos z). assert (Rabs z * Rabs (t - 1) <= Rabs z * (3 * u53)) by (apply Rmult_le_compat_l; lra). lra. }
  assert (Y : Rabs y <= 101 / 100 * Rabs z).
  { replace y with ((y - z) + z) by ring. apply Rle_trans with (1 := Rabs_triang _ _). assert (Z0 := Rabs_pos z).
    assert (3 * u53 * Rabs z <= / 100 * Rabs z) by (apply Rmult_le_compat_r; lra). lra. }
  replace (rnd64 y - z) with ((rnd64 y - y) + (y - z)) by ring. apply Rle_trans with (1 := Rabs_triang _ _).
  assert (u53 * Rabs y <= u53 * (101 / 100 * Rabs z)) by (apply Rmult_le_compat_l; lra).
  assert (0 <= u53 * Rabs z) by (apply Rmult_le_pos; [lra|apply Rabs_pos]). lra.
Qed.
Lemma turn2_lip s t v M : Rabs (ux v) <= M -> Rabs (uy v) <= M ->
  Rabs (ux (turn2 s v) - ux (turn2 t v)) <= 2 * M * Rabs (s - t) /\ Rabs (uy (turn2 s v) - uy (turn2 t v)) <= 2 * M * Rabs (s - t).
Proof.
  intros X Y. unfold turn2. cbn [ux uy]. assert (S := sin_lip s t). assert (C := cos_lip s t). assert (P := Rabs_pos (s - t)).
  assert (P1 := Rabs_pos (ux v)). assert (P2 := Rabs_pos (uy v)).
  assert (A1 : Rabs ((cos s - cos t) * ux v) <= Rabs (s - t) * M) by (rewrite Rabs_mult; apply Rmult_le_compat; try assumption; apply Rabs_pos).
  assert (A2 : Rabs ((sin s - sin t) * uy v) <= Rabs (s - t) * M) by (rewrite Rabs_mult; apply Rmult_le_compat; try assumption; apply Rabs_pos).
  assert (A3 : Rabs ((sin s - sin t) * ux v) <= Rabs (s - t) * M) by (rewrite Rabs_mult; apply Rmult_le_compat; try assumption; apply Rabs_pos).
  assert (A4 : Rabs ((cos s - cos t) * uy v) <= Rabs (s - t) * M) by (rewrite Rabs_mult; apply Rmult_le_compat; try assumption; apply Rabs_pos).
  apply Rabs_le_inv in A1. apply Rabs_le_inv in A2. apply Rabs_le_inv in A3. apply Rabs_le_inv in A4. split; apply Rabs_le; lra.
Qed.

(** A rotation of two coordinates computed with cosine [c] and sine [s]. *)
Lemma turn_apx (x y c s : f64) (X Y C S M k kc : R) : bpow radix2 (-900) <= M <= bpow radix2 900 -> 0 <= k <= 50000 -> 0 <= kc <= 2000 ->
  apx x X M k -> apx y Y M k -> apx c C 1 kc -> apx s S 1 kc ->
  apx (c *! x -! s *! y) (C * X - S * Y) (2 * M) (k + kc + 203 / 100) /\ apx (s *! x +! c *! y) (S * X + C * Y) (2 * M) (k + kc + 203 / 100).
Proof.
  intros (M1 & M2) K KC AX AY AC AS.
  assert (T1 : tau <= bpow radix2 (-900)) by (apply bpow_le; discriminate).
  assert (T2 : 2 * bpow radix2 900 <= big) by (change 2 with (bpow radix2 1); rewrite <- bpow_plus; apply bpow_le; discriminate).
  assert (P0 := bpow_gt_0 radix2 (-900)). assert (P9 := bpow_gt_0 radix2 900).
  assert (MU : forall f g a b, apx f a 1 kc -> apx g b M k -> apx (f *! g) (a * b) M (k + kc + 102 / 100)).
  { intros f g a b F G. rewrite <- (Rmult_1_l M). eapply apx_more; [apply apx_mult with (1 := F) (2 := G); lra|lra]. }
  replace (2 * M) with (M + M) by ring. split.
  - eapply apx_more; [apply apx_minus with (1 := MU _ _ _ _ AC AX) (2 := MU _ _ _ _ AS AY) (K := k + kc + 102 / 100); lra|lra].
  - eapply apx_more; [apply apx_plus with (1 := MU _ _ _ _ AS AX) (2 := MU _ _ _ _ AC AY) (K := k + kc + 102 / 100); lra|lra].
Qed.
Lemma turn_back_apx (x y c s : f64) (X Y C S M k kc : R) : bpow radix2 (-900) <= M <= bpow radix2 900 -> 0 <= k <= 50000 -> 0 <= kc <= 2000 ->
  apx x X M k -> apx y Y M k -> apx c C 1 kc -> apx s S 1 kc ->
  apx (c *! x +! s *! y) (C * X + S * Y) (2 * M) (k + kc + 203 / 100) /\ apx ((Bopp s) *! x +! c *! y) (- S * X + C * Y) (2 * M) (k + kc + 203 / 100).
Proof.
  intros HM K KC AX AY AC AS. destruct HM as (M1 & M2).
  assert (T1 : tau <= bpow radix2 (-900)) by (apply bpow_le; discriminate).
  assert (T2 : 2 * bpow radix2 900 <= big) by (change 2 with (bpow radix2 1); rewrite <- bpow_plus; apply bpow_le; discriminate).
  assert (P0 := bpow_gt_0 radix2 (-900)). assert (P9 := bpow_gt_0 radix2 900).
  assert (MU : forall f g a b, apx f a 1 kc -> apx g b M k -> apx (f *! g) (a * b) M (k + kc + 102 / 100)).
  { intros f g a b F G. rewrite <- (Rmult_1_l M). eapply apx_more; [apply apx_mult with (1 := F) (2 := G); lra|lra]. }
  replace (2 * M) with (M + M) by ring. split.
  - eapply apx_more; [apply apx_plus with (1 := MU _ _ _ _ AC AX) (2 := MU _ _ _ _ AS AY) (K := k + kc + 102 / 100); lra|lra].
  - eapply apx_more; [apply apx_plus with (1 := MU _ _ _ _ (apx_neg _ _ _ _ AS) AX) (2 := MU _ _ _ _ AC AY) (K := k + kc + 102 / 100); lra|lra].
Qed.

Lemma proj_local_val v a u : ProjectLocalOnNED (T := f64) v a u =
  mkV2 (ncos (used a u) *! ux v -! nsin (used a u) *! uy v) (nsin (used a u) *! ux v +! ncos (used a u) *! uy v).
Proof. destruct u; reflexivity. Qed.
Lemma proj_ned_val v a u : ProjectNEDOnLocal (T := f64) v a u =
  mkV2 (ncos (used a u) *! ux v +! nsin (used a u) *! uy v) ((Bopp (nsin (used a u))) *! ux v +! ncos (used a u) *! uy v).
Proof. destruct u; reflexivity. Qed.

Lemma close_turn f s t M k w : apx f w (2 * M) k -> bpow radix2 (-900) <= M -> 0 <= k ->
  forall z, Rabs (w - z) <= 2 * M * Rabs (s - t) -> Rabs (s - t) <= 402 / 100 * u53 * Rabs t + eta64 -> 
  within ((2 * k + 9 * Rabs t + / 100) * uround * M) f z.
Proof.
  intros (F & _ & E) HM K z D H. split; [exact F|]. change uround with u53. unfold dvalue. assert (P := bpow_gt_0 radix2 (-900)).
  replace (val f - z) with ((val f - w) + (w - z)) by ring. apply Rle_trans with (1 := Rabs_triang _ _).
  assert (ES := L_Arange64.eta_small). assert (U := u_tiny). assert (T0 := Rabs_pos t).
  assert (2 * M * Rabs (s - t) <= 2 * M * (402 / 100 * u53 * Rabs t + eta64)) by (apply Rmult_le_compat_l; lra).
  assert (M * eta64 <= M * (/ 1000 * u53)) by (apply Rmult_le_compat_l; lra).
  assert (0 <= u53 * Rabs t * M) by (apply Rmult_le_pos; [apply Rmult_le_pos; lra|lra]).
  assert (0 <= u53 * M) by (apply Rmult_le_pos; lra). lra.
Qed.

Lemma project_lemma (v : vec2 f64) a u M : bpow radix2 (-900) <= M <= bpow radix2 900 -> bounded2 M v -> is_finite a = true ->
  let t := radians u (dvalue a) in let e := (2 * kp + 5 + 9 * Rabs t) * uround * M in
  within2 e (ProjectLocalOnNED v a u) (turn2 t (dvec2 v)) /\ within2 e (ProjectNEDOnLocal v a u) (turn2 (- t) (dvec2 v)).
Proof.
  intros HM ((F1 & B1) & (F2 & B2)) Fa. cbv zeta. destruct (used_near a u Fa) as (Fu & Nu). set (x := used a u) in *. change (dvalue a) with (val a). set (t := radians u (val a)) in *.
  destruct (sin_apx kp TT HT x Fu) as (AS & AC). assert (AX := apx_id _ _ F1 B1). assert (AY := apx_id _ _ F2 B2).
  assert (P0 := bpow_gt_0 radix2 (-900)). assert (U := u_tiny). change uround with u53. assert (UM : 0 <= u53 * M) by (apply Rmult_le_pos; lra).
  rewrite proj_local_val, proj_ned_val. fold x.
  destruct (turn_apx _ _ _ _ _ _ _ _ M 0 kp HM ltac:(lra) ltac:(lra) AX AY AC AS) as (L1 & L2).
  destruct (turn_back_apx _ _ _ _ _ _ _ _ M 0 kp HM ltac:(lra) ltac:(lra) AX AY AC AS) as (N1 & N2).
  destruct (turn2_lip (val x) t (dvec2 v) M B1 B2) as (T1 & T2).
  destruct (turn2_lip (- val x) (- t) (dvec2 v) M B1 B2) as (T3 & T4).
  replace (Rabs (- val x - - t)) with (Rabs (val x - t)) in T3, T4 by (rewrite <- Rabs_Ropp; f_equal; ring).
  assert (W : forall f z, within ((2 * (0 + kp + 203 / 100) + 9 * Rabs t + / 100) * uround * M) f z -> within ((2 * kp + 5 + 9 * Rabs t) * u53 * M) f z).
  { intros f z (A & B). split; [exact A|]. apply Rle_trans with (1 := B). change uround with u53. lra. }
  split; split; cbn [ux uy]; apply W.
  - apply close_turn with (1 := L1) (s := val x); [lra|lra|exact T1|exact Nu].
  - apply close_turn with (1 := L2) (s := val x); [lra|lra|exact T2|exact Nu].
  - apply close_turn with (1 := N1) (s := val x); [lra|lra| |exact Nu]. replace (cos (val x) * val (ux v) + sin (val x) * val (uy v)) with (ux (turn2 (- val x) (dvec2 v))); [exact T3|].
    unfold turn2, dvec2, dvalue. cbn [ux uy]. rewrite cos_neg, sin_neg. ring.
  - apply close_turn with (1 := N2) (s := val x); [lra|lra| |exact Nu]. replace (- sin (val x) * val (ux v) + cos (val x) * val (uy v)) with (uy (turn2 (- val x) (dvec2 v))); [exact T4|].
    unfold turn2, dvec2, dvalue. cbn [ux uy]. rewrite cos_neg, sin_neg. ring.
Qed.
Lemma axes_lemma (v : vec2 f64) a u M : bpow radix2 (-900) <= M <= bpow radix2 900 -> bounded2 M v -> is_finite a = true ->
  let t := radians u (dvalue a) in let e := (2 * kp + 5 + 9 * Rabs t) * uround * M in
  within e (ProjectOnNorthAxis v a u) (ux (turn2 t (dvec2 v))) /\ within e (ProjectOnEastAxis v a u) (uy (turn2 t (dvec2 v))) /\
  within e (ProjectOnLocalXAxis v a u) (ux (turn2 (- t) (dvec2 v))) /\ within e (ProjectOnLocalYAxis v a u) (uy (turn2 (- t) (dvec2 v))).
Proof.
  intros HM HB Fa. destruct (project_lemma v a u M HM HB Fa) as ((A & B) & (C & D)). cbv zeta. rewrite proj_local_val in A, B. rewrite proj_ned_val in C, D. cbn [ux uy] in A, B, C, D.
  destruct u; (split; [exact A|split; [exact B|split; [exact C|exact D]]]).
Qed.
Lemma project_back_lemma (v : vec2 f64) a u M : bpow radix2 (-900) <= M <= bpow radix2 899 -> bounded2 M v -> is_finite a = true ->
  let e := (8 * kp + 17) * uround * M in
  within2 e (ProjectNEDOnLocal (ProjectLocalOnNED v a u) a u) (dvec2 v) /\ within2 e (ProjectLocalOnNED (ProjectNEDOnLocal v a u) a u) (dvec2 v).
Proof.
  intros (M1 & M2) ((F1 & B1) & (F2 & B2)) Fa. cbv zeta. destruct (used_near a u Fa) as (Fu & _). set (x := used a u) in *.
  destruct (sin_apx kp TT HT x Fu) as (AS & AC). assert (AX := apx_id _ _ F1 B1). assert (AY := apx_id _ _ F2 B2).
  assert (P0 := bpow_gt_0 radix2 (-900)). assert (U := u_tiny). change uround with u53. assert (UM : 0 <= u53 * M) by (apply Rmult_le_pos; lra).
  assert (D : bpow radix2 900 = 2 * bpow radix2 899) by (change 900%Z with (1 + 899)%Z; rewrite bpow_plus; reflexivity). assert (P9 := bpow_gt_0 radix2 899).
  rewrite !proj_local_val, !proj_ned_val. fold x. cbn [ux uy].
  destruct (turn_apx _ _ _ _ _ _ _ _ M 0 kp ltac:(lra) ltac:(lra) ltac:(lra) AX AY AC AS) as (L1 & L2).
  destruct (turn_back_apx _ _ _ _ _ _ _ _ M 0 kp ltac:(lra) ltac:(lra) ltac:(lra) AX AY AC AS) as (N1 & N2).
  destruct (turn_back_apx _ _ _ _ _ _ _ _ (2 * M) (0 + kp + 203 / 100) kp ltac:(lra) ltac:(lra) ltac:(lra) L1 L2 AC AS) as (R1 & R2).
  destruct (turn_apx _ _ _ _ _ _ _ _ (2 * M) (0 + kp + 203 / 100) kp ltac:(lra) ltac:(lra) ltac:(lra) N1 N2 AC AS) as (R3 & R4).
  assert (SC := sin_cos_sq (val x)). set (C := cos (val x)) in *. set (S := sin (val x)) in *. set (X := val (ux v)) in *. set (Y := val (uy v)) in *.
  assert (KU : 0 <= kp * (u53 * M)) by (apply Rmult_le_pos; lra).
  assert (W : forall f w z, apx f w (2 * (2 * M)) (0 + kp + 203 / 100 + kp + 203 / 100) -> w = z -> within ((8 * kp + 17) * u53 * M) f z).
  { intros f w z H E. subst w. apply apx_within with (1 := H). lra. }
  split; split; cbn [ux uy]; (eapply W; [eassumption|]); unfold dvec2, dvalue; cbn [ux uy]; fold X Y.
  - transitivity (X * (S * S + C * C)); [ring|rewrite SC; ring].
  - transitivity (Y * (S * S + C * C)); [ring|rewrite SC; ring].
  - transitivity (X * (S * S + C * C)); [ring|rewrite SC; ring].
  - transitivity (Y * (S * S + C * C)); [ring|rewrite SC; ring].
Qed.
End Thm.

(** ** Arc sine beyond its domain *)
Definition q45 : f64 := f64_ofZ 6369051672525773 *! (f64_ofZ 1 /! f64_ofZ 9007199254740992).
Lemma pitch_refuted_lemma : exists q : quat f64, (forall TT, asin_domain TT -> is_nan (vy (quaternionToEulerAnglesZYX (TT := TT) q)) = true) /\
  Forall (fun x => is_finite x = true) (qparts q) /\ Rabs (qnorm2 (dquat q) - 1) <= 4 * uround.
Proof.
  exists (mkQ q45 (nofZ 0) q45 (nofZ 0)).
  assert (V : B2SF q45 = SpecFloat.S754_finite false 6369051672525773 (-53)) by (vm_compute; reflexivity).
  assert (VV : val q45 = 6369051672525773 / 9007199254740992).
  { rewrite <- SF2R_B2SF, V. cbn [SF2R]. unfold F2R. cbn [Fnum Fexp]. cbn [cond_Zopp]. change (bpow radix2 (-53)) with (/ IZR 9007199254740992). reflexivity. }
  assert (A : B2SF (nsub (nofZ 2 *! nofZ 0 *! nofZ 0) (nofZ 2 *! q45 *! q45)) = SpecFloat.S754_finite true 4503599627370497 (-52)) by (vm_compute; reflexivity).
  split; [|split].
  - intros TT H. unfold quaternionToEulerAnglesZYX. cbn [vy qw qx qy qz].
    change (is_nan (Bopp (nasin (nsub (nofZ 2 *! nofZ 0 *! nofZ 0) (nofZ 2 *! q45 *! q45)))) = true).
    rewrite is_nan_Bopp. revert A. generalize (nsub (nofZ 2 *! nofZ 0 *! nofZ 0) (nofZ 2 *! q45 *! q45)). intros z A. apply H.
    + rewrite <- is_finite_SF_B2SF, A. reflexivity.
    + unfold dvalue. rewrite <- SF2R_B2SF, A. cbn [SF2R]. unfold F2R. cbn [Fnum Fexp cond_Zopp]. change (bpow radix2 (-52)) with (/ IZR 4503599627370496).
      change (IZR (- Z.pos 4503599627370497)) with (- (4503599627370497)). rewrite Rabs_left; lra.
  - unfold qparts. cbn [qw qx qy qz]. assert (F : is_finite q45 = true) by (rewrite <- is_finite_SF_B2SF, V; reflexivity).
    repeat (constructor; [first [exact F|reflexivity]|]). constructor.
  - unfold qnorm2, dquat, dvalue. cbn [qw qx qy qz]. rewrite VV. change (val (nofZ 0)) with 0. change uround with u53. replace u53 with (/ 9007199254740992) by (unfold u53; simpl; lra).
    apply Rabs_le. lra.
Qed.

(** ** The example library *)
Lemma ofR_ok r : Rabs r <= 1 -> is_finite (ofR r) = true /\ val (ofR r) = rnd64 r.
Proof.
  intros H. unfold ofR. cbv zeta. assert (G : generic_format radix2 (FLT_exp (-1074) 53) (rnd64 r)) by (apply generic_format_round; [apply FLT_exp_valid; reflexivity|apply valid_rnd_N]).
  change (round radix2 (FLT_exp (-1074) 53) ZnearestE r) with (rnd64 r).
  assert (N := binary_normalize_correct 53 1024 eq_refl eq_refl mode_NE (Ztrunc (scaled_mantissa radix2 (FLT_exp (-1074) 53) (rnd64 r))) (cexp radix2 (FLT_exp (-1074) 53) (rnd64 r)) false).
  cbv zeta in N. assert (E : F2R (Float radix2 (Ztrunc (scaled_mantissa radix2 (FLT_exp (-1074) 53) (rnd64 r))) (cexp radix2 (FLT_exp (-1074) 53) (rnd64 r))) = rnd64 r) by (symmetry; exact G).
  rewrite E in N. change (round radix2 (SpecFloat.fexp 53 1024) (round_mode mode_NE) (rnd64 r)) with (rnd64 (rnd64 r)) in N. rewrite (rnd64_id (rnd64 r) G) in N.
  rewrite Rlt_bool_true in N.
  - destruct N as (N1 & N2 & _). split; assumption.
  - assert (R := L_F64Err.rnd_err r). assert (U := u_tiny). assert (ES := L_Arange64.eta_small). assert (u53 * Rabs r <= u53 * 1) by (apply Rmult_le_compat_l; lra).
    apply Rle_lt_trans with 2; [replace (rnd64 r) with ((rnd64 r - r) + r) by ring; apply Rle_trans with (1 := Rabs_triang _ _); lra|].
    change 2 with (bpow radix2 1). apply bpow_lt. reflexivity.
Qed.
Lemma exact_trig_near : libm_near 2 exact_trig.
Proof.
  intros x _. cbn [nsin ncos exact_trig]. assert (S := SIN_bound (dvalue x)). assert (C := COS_bound (dvalue x)).
  assert (G : forall r, Rabs r <= 1 -> is_finite (ofR r) = true /\ Rabs (dvalue (ofR r) - r) <= 2 * uround).
  { intros r H. destruct (ofR_ok r H) as (A & B). split; [exact A|]. unfold dvalue. rewrite B. assert (R := L_F64Err.rnd_err r). assert (U := u_tiny).
    assert (ES := L_Arange64.eta_small). change uround with u53. assert (u53 * Rabs r <= u53 * 1) by (apply Rmult_le_compat_l; lra). lra. }
  destruct (G (sin (dvalue x))) as (A1 & A2); [apply Rabs_le; lra|]. destruct (G (cos (dvalue x))) as (B1 & B2); [apply Rabs_le; lra|]. tauto.
Qed.
