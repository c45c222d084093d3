(** Ei_approximation from 6 on. *)
From Coq Require Import ZArith Reals Lra Lia Bool List.
From Coquelicot Require Import Coquelicot.
From Verif Require Import Outcome Num NumFun M_Special S_Special L_Poly L_PolyWin L_Special L_Expint L_ExpTaylor L_E1Tab L_E1 L_Cf L_EiTab L_EiVal S_Ei L_EiSpec L_Ei0 L_Ei6.
Import ListNotations.
Open Scope R_scope.

(** e^x/x A/(s B) has derivative e^x/x (1 + V/E). *)
Definition cfF (A B : list Z) (x : R) : R := exp x / x * (zev A x / (IZR unit25 * zev B x)).
Definition thE (B : list Z) : list Z := 0%Z :: zscale unit25 (zmul B B).
Definition thV (A B : list Z) : list Z :=
  let P := zmul A B in zsub (zsub (0%Z :: zadd P (wron A B)) P) (thE B).
Definition rel_ok (k : Z) (A B : list Z) (tst : list Z -> bool) : bool :=
  let E := zscale k (thE B) in let V := zscale e19 (thV A B) in tst (zsub E V) && tst (zadd E V).

Lemma cfF_derive A B t : 0 < t -> zev B t <> 0 -> is_derive (cfF A B) t (gk t * (1 + zev (thV A B) t / zev (thE B) t)).
Proof.
  intros Ht HB. assert (D := rat_derive A B t HB). assert (S := unit25_nz).
  assert (SP : 0 < IZR unit25) by (unfold unit25; lra).
  apply (is_derive_ext (fun x => / IZR unit25 * (exp x / x * rat A B x))).
  { intros x. unfold cfF, rat. match goal with |- @eq _ ?a ?b => change (@eq R a b) end. unfold Rdiv. rewrite Rinv_mult. ring. }
  set (h := rat A B) in *.
  evar_last.
  { auto_derive; [repeat split; [lra|eexists; exact D]|].
    replace (Derive (fun x => h x) t) with (zev (wron A B) t / zev B t ^ 2) by (symmetry; apply is_derive_unique; exact D). reflexivity. }
  unfold h, rat, gk, thV, thE. cbv zeta. rewrite !zev_sub, !zev_cons, zev_add, zev_scale, !zev_mul.
  set (s := IZR unit25) in *. set (a := zev A t). set (b := zev B t) in *. set (w := zev (wron A B) t). set (e := exp t). clearbody s a b w e.
  field. repeat split; try exact HB; lra.
Qed.
Lemma cfF_near k A B tst t : (0 <= k)%Z -> rel_ok k A B tst = true -> (forall c, tst c = true -> 0 < zev c t) -> 0 < t -> zev B t <> 0 ->
  exists th, Rabs th <= IZR k / IZR e19 /\ is_derive (cfF A B) t (gk t * (1 + th)).
Proof.
  intros Hk R T Ht HB. eexists. split; [|apply cfF_derive; assumption].
  unfold rel_ok in R. apply andb_true_iff in R. destruct R as [R1 R2]. apply T in R1, R2.
  rewrite zev_sub, !zev_scale in R1. rewrite zev_add, !zev_scale in R2.
  assert (EP : 0 < zev (thE B) t).
  { unfold thE. rewrite zev_cons, zev_scale, zev_mul. rewrite Rplus_0_l. apply Rmult_lt_0_compat; [exact Ht|].
    apply Rmult_lt_0_compat; [unfold unit25; lra|]. assert (Q := Rlt_0_sqr _ HB). unfold Rsqr in Q. exact Q. }
  assert (P17 : 0 < IZR e19) by (unfold e19; lra).
  set (v := zev (thV A B) t) in *. set (e := zev (thE B) t) in *. set (n := IZR e19) in *. set (m := IZR k) in *. clearbody v e n m.
  unfold Rdiv at 1. rewrite Rabs_mult, (Rabs_right (/ e)) by (left; apply Rinv_0_lt_compat, EP).
  apply (Rmult_le_reg_r e); [exact EP|]. rewrite Rmult_assoc, Rinv_l, Rmult_1_r by lra.
  apply Rabs_le. split; apply (Rmult_le_reg_r n); try exact P17.
  - replace (- (m / n * e) * n) with (- (m * e)) by (field; lra). lra.
  - replace (m / n * e * n) with (m * e) by (field; lra). lra.
Qed.

(** ** The numerators and denominators, rounded *)
Definition N12k := cf_num unit25 z12_a_ok z12_b. Definition D12k := cf_den unit25 z12_a_ok z12_b.
Definition AL := zadd (0%Z :: zscale unit25 DL) NL. Definition BL := 0%Z :: DL.
Definition nf : Z := 665%Z.
Definition a12k := Eval vm_compute in zfloor nf N12k. Definition b12k := Eval vm_compute in zfloor nf D12k.
Definition a12 := Eval vm_compute in zfloor nf N12. Definition b12 := Eval vm_compute in zfloor nf D12.
Definition a24 := Eval vm_compute in zfloor nf N24. Definition b24 := Eval vm_compute in zfloor nf D24.
Definition aL := Eval vm_compute in zfloor nf AL. Definition bL := Eval vm_compute in zfloor nf BL.
Lemma rounded : (zfloor nf N12k = a12k /\ zfloor nf D12k = b12k) /\ (zfloor nf N12 = a12 /\ zfloor nf D12 = b12) /\
  (zfloor nf N24 = a24 /\ zfloor nf D24 = b24) /\ (zfloor nf AL = aL /\ zfloor nf BL = bL).
Proof. vm_compute. repeat split. Qed.

(** Positive even after 10^21 units of the last place have been taken away. *)
Definition big_enough (tst : list Z -> bool) (c : list Z) : bool := tst (zsub c (zscale 1000000000000000000000 (map (fun _ => 1%Z) c))).
Lemma ones_floor n c : map (fun _ => 1%Z) (zfloor n c) = map (fun _ : Z => 1%Z) c.
Proof. unfold zfloor. rewrite map_map. reflexivity. Qed.
Lemma round_close1 tst A a x : zfloor nf A = a -> big_enough tst a = true -> (forall c, tst c = true -> 0 < zev c x) -> 0 <= x ->
  0 < zev a x /\ IZR (2 ^ nf) * zev a x <= zev A x <= IZR (2 ^ nf) * zev a x * (1 + 1 / 1000000000000000000000).
Proof.
  intros <- H T Hx. apply T in H. rewrite zev_sub, zev_scale, ones_floor in H.
  destruct (zfloor_val nf A x ltac:(discriminate) Hx) as [L U]. assert (O := ones_pos A x Hx).
  assert (P : 0 < IZR (2 ^ nf)) by (apply IZR_lt; reflexivity).
  set (w := IZR (2 ^ nf)) in *. set (a := zev (zfloor nf A) x) in *. set (o := zev (map (fun _ => 1%Z) A) x) in *. set (v := zev A x) in *. clearbody w a o v.
  split; [lra|]. split; [exact L|]. apply Rle_trans with (1 := U). rewrite Rmult_assoc. apply Rmult_le_compat_l; lra.
Qed.
Lemma round_close tst A B a b x : zfloor nf A = a -> zfloor nf B = b -> big_enough tst a = true -> big_enough tst b = true ->
  (forall c, tst c = true -> 0 < zev c x) -> 0 < x ->
  0 < zev a x /\ 0 < zev b x /\ 0 < zev B x /\
  cfF a b x * (1 - 1 / 1000000000000000000000) <= cfF A B x <= cfF a b x * (1 + 1 / 1000000000000000000000).
Proof.
  intros EA EB HA HB T Hx. destruct (round_close1 _ _ _ _ EA HA T ltac:(lra)) as [A0 [A1 A2]].
  destruct (round_close1 _ _ _ _ EB HB T ltac:(lra)) as [B0 [B1 B2]].
  assert (P : 0 < IZR (2 ^ nf)) by (apply IZR_lt; reflexivity).
  assert (BP : 0 < zev B x) by (apply Rlt_le_trans with (2 := B1); apply Rmult_lt_0_compat; assumption).
  split; [exact A0|]. split; [exact B0|]. split; [exact BP|]. unfold cfF.
  assert (SP : 0 < IZR unit25) by (unfold unit25; lra). assert (G : 0 < exp x / x) by (apply (gk_pos x Hx)).
  set (w := IZR (2 ^ nf)) in *. set (s := IZR unit25) in *. set (g := exp x / x) in *.
  set (k := 1 / 1000000000000000000000) in *. assert (K : 0 < k < 1 / 100000000000000000000) by (unfold k; lra).
  clear EA EB HA HB T. set (va := zev a x) in *. set (vb := zev b x) in *. set (vA := zev A x) in *. set (vB := zev B x) in *. clearbody w s g k va vb vA vB.
  assert (GS : 0 < g / s) by (apply Rmult_lt_0_compat; [exact G|apply Rinv_0_lt_compat, SP]).
  replace (g * (va / (s * vb))) with (g / s * (va / vb)) by (field; lra). replace (g * (vA / (s * vB))) with (g / s * (vA / vB)) by (field; lra).
  rewrite !(Rmult_assoc (g / s)). split; apply Rmult_le_compat_l; try lra.
  - apply (Rmult_le_reg_r (vb * vB)); [apply Rmult_lt_0_compat; assumption|].
    replace (va / vb * (1 - k) * (vb * vB)) with (va * ((1 - k) * vB)) by (field; lra). replace (vA / vB * (vb * vB)) with (vA * vb) by (field; lra).
    assert (X : (1 - k) * vB <= w * vb).
    { apply Rle_trans with ((1 - k) * (w * vb * (1 + k))); [apply Rmult_le_compat_l; lra|].
      replace ((1 - k) * (w * vb * (1 + k))) with (w * vb * (1 - k * k)) by ring.
      assert (0 < w * vb) by (apply Rmult_lt_0_compat; assumption). assert (0 < k * k) by (apply Rmult_lt_0_compat; lra). nra. }
    apply (Rmult_le_compat_l va) in X; [|lra]. apply (Rmult_le_compat_r vb) in A1; [|lra]. lra.
  - apply (Rmult_le_reg_r (vb * vB)); [apply Rmult_lt_0_compat; assumption|].
    replace (va / vb * (1 + k) * (vb * vB)) with (va * (1 + k) * vB) by (field; lra). replace (vA / vB * (vb * vB)) with (vA * vb) by (field; lra).
    apply (Rmult_le_compat_r vb) in A2; [|lra]. apply (Rmult_le_compat_l (va * (1 + k))) in B1; [|apply Rmult_le_pos; lra]. lra.
Qed.

(** ** Sign tests on the three ranges *)
Definition tst12 (c : list Z) : bool := zwins 120 100 6 7 [8; 9; 10; 12]%Z 1 c.
Definition tst24 (c : list Z) : bool := zwins 120 100 12 14 [16; 18; 20; 22; 24]%Z 1 c.
Definition tstL (c : list Z) : bool := zwins 150 130 24 25 [28; 32; 40; 60]%Z 1 c && zpos (zsh 60 (zround 150 c)).
Lemma tst12_val t : 6 <= t <= 12 -> forall c, tst12 c = true -> 0 < zev c t.
Proof. intros Ht c H. apply (zwins_val _ _ _ _ _ _ _ t H). cbn [last]. lra. Qed.
Lemma tst24_val t : 12 <= t <= 24 -> forall c, tst24 c = true -> 0 < zev c t.
Proof. intros Ht c H. apply (zwins_val _ _ _ _ _ _ _ t H). cbn [last]. lra. Qed.
Lemma tstL_val t : 24 <= t -> forall c, tstL c = true -> 0 < zev c t.
Proof.
  intros Ht c H. apply andb_true_iff in H. destruct H as [H1 H2]. destruct (Rle_lt_dec t 60) as [L|L].
  - apply (zwins_val _ _ _ _ _ _ _ t H1). cbn [last]. lra.
  - apply (zround_pos 150); [lra|]. replace t with (60 + (t - 60)) by ring. rewrite <- zsh_val. apply zpos_val; [lra|exact H2].
Qed.
Lemma rel12_check : rel_ok 250 a12k b12k tst12 = true.
Proof. vm_compute. reflexivity. Qed.
Lemma rel24_check : rel_ok 190 a24 b24 tst24 = true.
Proof. vm_compute. reflexivity. Qed.
Lemma relL_check : rel_ok 390 aL bL tstL = true.
Proof. vm_compute. reflexivity. Qed.
Lemma big_check : (big_enough tst12 a12k = true /\ big_enough tst12 b12k = true) /\ (big_enough tst12 a12 = true /\ big_enough tst12 b12 = true) /\
  (big_enough tst24 a24 = true /\ big_enough tst24 b24 = true) /\ (big_enough tstL aL = true /\ big_enough tstL bL = true).
Proof. vm_compute. repeat split. Qed.

Definition k21 : R := 1 / 1000000000000000000000.
Lemma close12k x : 6 <= x <= 12 -> 0 < zev a12k x /\ 0 < zev b12k x /\ 0 < zev D12k x /\
  cfF a12k b12k x * (1 - k21) <= cfF N12k D12k x <= cfF a12k b12k x * (1 + k21).
Proof.
  intros H. destruct rounded as [[R1 R2] _]. destruct big_check as [[B1 B2] _].
  apply (round_close tst12 _ _ _ _ x R1 R2 B1 B2); [apply tst12_val, H|lra].
Qed.
Lemma close12 x : 6 <= x <= 12 -> 0 < zev a12 x /\ 0 < zev b12 x /\ 0 < zev D12 x /\
  cfF a12 b12 x * (1 - k21) <= cfF N12 D12 x <= cfF a12 b12 x * (1 + k21).
Proof.
  intros H. destruct rounded as [_ [[R1 R2] _]]. destruct big_check as [_ [[B1 B2] _]].
  apply (round_close tst12 _ _ _ _ x R1 R2 B1 B2); [apply tst12_val, H|lra].
Qed.
Lemma close24 x : 12 <= x <= 24 -> 0 < zev a24 x /\ 0 < zev b24 x /\ 0 < zev D24 x /\
  cfF a24 b24 x * (1 - k21) <= cfF N24 D24 x <= cfF a24 b24 x * (1 + k21).
Proof.
  intros H. destruct rounded as [_ [_ [[R1 R2] _]]]. destruct big_check as [_ [_ [[B1 B2] _]]].
  apply (round_close tst24 _ _ _ _ x R1 R2 B1 B2); [apply tst24_val, H|lra].
Qed.
Lemma closeL x : 24 <= x -> 0 < zev aL x /\ 0 < zev bL x /\ 0 < zev BL x /\
  cfF aL bL x * (1 - k21) <= cfF AL BL x <= cfF aL bL x * (1 + k21).
Proof.
  intros H. destruct rounded as [_ [_ [_ [R1 R2]]]]. destruct big_check as [_ [_ [_ [B1 B2]]]].
  apply (round_close tstL _ _ _ _ x R1 R2 B1 B2); [apply tstL_val, H|lra].
Qed.
(** If the rounded formula is near a positive number, so is the formula. *)
Lemma close_transfer v v' e d d' : 0 < e -> v * (1 - k21) <= v' <= v * (1 + k21) -> Rabs (v - e) <= d * e -> 0 <= d < 1 ->
  d + 1 / 100000000000000000000 <= d' -> Rabs (v' - e) <= d' * e.
Proof.
  intros He [V1 V2] H Hd Hd'. apply Rabs_le_between in H. unfold k21 in *.
  assert (M : d * e <= 1 * e) by (apply Rmult_le_compat_r; lra). assert (M0 : 0 <= d * e) by (apply Rmult_le_pos; lra).
  assert (M' : (d + 1 / 100000000000000000000) * e <= d' * e) by (apply Rmult_le_compat_r; lra).
  apply Rabs_le. lra.
Qed.
