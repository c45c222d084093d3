(** The exponential integral Ei: existence, derivative, behaviour at 0. *)
From Coq Require Import ZArith Reals Lra Lia Bool List.
From Coquelicot Require Import Coquelicot.
From Verif Require Import S_Special L_Expint S_Ei.
Open Scope R_scope.

Definition gk (t : R) : R := exp t / t.
Lemma gk_pos t : 0 < t -> 0 < gk t.
Proof. intros H. unfold gk. apply Rmult_lt_0_compat; [apply exp_pos|apply Rinv_0_lt_compat, H]. Qed.
Lemma gk_cont t : 0 < t -> continuous gk t.
Proof.
  intros H. apply continuity_pt_filterlim. unfold gk. apply derivable_continuous_pt.
  exists ((exp t * t - exp t) / (t * t)). apply is_derive_Reals. auto_derive; [lra|]. field. lra.
Qed.
Lemma gk_int a b : 0 < a -> 0 < b -> ex_RInt gk a b.
Proof.
  intros Ha Hb. apply (ex_RInt_continuous (V := R_CompleteNormedModule)). intros z Hz. apply gk_cont.
  assert (0 < Rmin a b) by (apply Rmin_glb_lt; assumption). lra.
Qed.
Lemma gk_chasles a b c : 0 < a -> 0 < b -> 0 < c -> RInt gk a c = RInt gk a b + RInt gk b c.
Proof. intros. symmetry. apply (RInt_Chasles (V := R_CompleteNormedModule)); apply gk_int; assumption. Qed.

(** The difference of the two kernels is bounded near 0. *)
Lemma sh_bound t : 0 < t -> 0 <= gk t - ek t <= 2 * exp t.
Proof.
  intros H. unfold gk, ek.
  destruct (MVT_gen (fun y => exp y - exp (- y)) 0 t (fun y => exp y + exp (- y))) as [c [[C1 C2] E]].
  - intros y _. auto_derive; [exact I|ring].
  - intros y _. apply derivable_continuous_pt. exists (exp y + exp (- y)). apply is_derive_Reals. auto_derive; [exact I|ring].
  - rewrite Rmin_left in C1 by lra. rewrite Rmax_right in C2 by lra.
    rewrite Ropp_0, exp_0 in E.
    replace (exp t / t - exp (- t) / t) with ((exp t - exp (- t)) / t) by (field; lra).
    replace (exp t - exp (- t)) with ((exp c + exp (- c)) * t) by lra.
    replace ((exp c + exp (- c)) * t / t) with (exp c + exp (- c)) by (field; lra).
    assert (P1 := exp_pos c). assert (P2 := exp_pos (- c)).
    assert (L1 : exp c <= exp t) by (destruct (Req_dec c t) as [->|N]; [lra|left; apply exp_increasing; lra]).
    assert (L2 : exp (- c) <= exp t) by (left; apply exp_increasing; lra). lra.
Qed.

Definition pv (x e : R) : R := RInt gk e x - E1 e.
Lemma pv_sh x e : 0 < e -> e <= x -> pv x e = RInt (fun t => gk t - ek t) e x - E1 x.
Proof.
  intros He Hx. unfold pv. rewrite (E1_from e x) by lra.
  assert (E : RInt (fun t => gk t - ek t) e x = RInt gk e x - RInt ek e x).
  { apply (RInt_minus (V := R_CompleteNormedModule)); [apply gk_int|apply ek_int]; lra. }
  rewrite E. ring.
Qed.
Lemma sh_int a b : 0 < a -> 0 < b -> ex_RInt (fun t => gk t - ek t) a b.
Proof. intros Ha Hb. apply (ex_RInt_minus (V := R_CompleteNormedModule)); [apply gk_int|apply ek_int]; lra. Qed.
Lemma pv_range x e : 0 < e -> e <= x -> - E1 x <= pv x e <= 2 * x * exp x - E1 x.
Proof.
  intros He Hx. rewrite pv_sh by assumption.
  assert (L : 0 <= RInt (fun t => gk t - ek t) e x).
  { apply RInt_ge_0; [exact Hx|apply sh_int; lra|]. intros t Ht. apply sh_bound. lra. }
  assert (U : RInt (fun t => gk t - ek t) e x <= RInt (fun _ => 2 * exp x) e x).
  { apply RInt_le; [exact Hx|apply sh_int; lra|apply ex_RInt_const|]. intros t Ht.
    assert (B := sh_bound t ltac:(lra)). assert (exp t < exp x) by (apply exp_increasing; lra). lra. }
  rewrite RInt_const in U. change (RInt (fun t => gk t - ek t) e x <= (x - e) * (2 * exp x)) in U.
  assert (P := exp_pos x). assert (Q : (x - e) * (2 * exp x) <= x * (2 * exp x)) by (apply Rmult_le_compat_r; lra). split; [lra|].
  apply Rplus_le_compat_r. apply Rle_trans with (1 := U). apply Rle_trans with (1 := Q). apply Req_le. ring.
Qed.
Lemma pv_decr x e e' : 0 < e -> e <= e' -> e' <= x -> pv x e' <= pv x e.
Proof.
  intros He H Hx. rewrite !pv_sh by lra.
  assert (C : RInt (fun t => gk t - ek t) e x = RInt (fun t => gk t - ek t) e e' + RInt (fun t => gk t - ek t) e' x).
  { symmetry. apply (RInt_Chasles (V := R_CompleteNormedModule)); apply sh_int; lra. }
  assert (L : 0 <= RInt (fun t => gk t - ek t) e e').
  { apply RInt_ge_0; [exact H|apply sh_int; lra|]. intros t Ht. apply sh_bound. lra. }
  lra.
Qed.

Lemma pv_lim x : 0 < x -> exists l : R, is_lim (fun y => pv x (/ y)) p_infty l.
Proof.
  intros Hx. assert (Ix : 0 < / x) by (apply Rinv_0_lt_compat, Hx).
  assert (I : forall y, / x <= y -> 0 < / y /\ / y <= x).
  { intros y Hy. split; [apply Rinv_0_lt_compat; lra|]. rewrite <- (Rinv_inv x). apply Rinv_le_contravar; assumption. }
  apply (incr_lim _ (/ x) (2 * x * exp x - E1 x)).
  - intros y z Hy Hz. destruct (I y Hy). destruct (I z ltac:(lra)). apply pv_decr; try assumption.
    apply Rinv_le_contravar; lra.
  - intros y Hy. destruct (I y Hy). apply pv_range; assumption.
Qed.
Definition EI (x : R) : R := real (Lim (fun y => pv x (/ y)) p_infty).
Lemma EI_lim x : 0 < x -> is_lim (fun y => pv x (/ y)) p_infty (EI x).
Proof. intros H. destruct (pv_lim x H) as [l L]. unfold EI. rewrite (is_lim_unique _ _ _ L). exact L. Qed.
Lemma EI_is_Ei x : 0 < x -> is_Ei x (EI x).
Proof.
  intros H. assert (L := EI_lim x H). unfold is_Ei. fold gk.
  apply (filterlim_ext_loc (fun e => pv x (/ / e))).
  { exists (mkposreal 1 Rlt_0_1). intros e _ He. rewrite Rinv_inv. reflexivity. }
  apply (filterlim_comp _ _ _ (fun e => / e) (fun y => pv x (/ y)) (at_right 0) (Rbar_locally p_infty) (locally (EI x))).
  - exact filterlim_Rinv_0_right.
  - unfold is_lim in L. cbn [Rbar_locally'] in L. exact L.
Qed.
Lemma is_Ei_unique x v w : is_Ei x v -> is_Ei x w -> v = w.
Proof. intros H1 H2. exact (filterlim_locally_unique (F := at_right 0) _ v w H1 H2). Qed.
Lemma is_Ei_EI x v : 0 < x -> is_Ei x v -> v = EI x.
Proof. intros H H1. exact (is_Ei_unique x v (EI x) H1 (EI_is_Ei x H)). Qed.

Lemma EI_from x y : 0 < x -> 0 < y -> EI y = EI x + RInt gk x y.
Proof.
  intros Hx Hy. symmetry. apply is_Ei_EI; [exact Hy|]. unfold is_Ei. fold gk.
  apply (filterlim_ext_loc (fun e => plus (pv x e) (RInt gk x y))).
  { exists (mkposreal 1 Rlt_0_1). intros e _ He. unfold pv. rewrite (gk_chasles e x y) by assumption. unfold plus; cbn. ring. }
  apply (filterlim_comp_2 (G := locally (EI x)) (H := locally (RInt gk x y))).
  - exact (EI_is_Ei x Hx).
  - apply filterlim_const.
  - apply (filterlim_plus (V := R_NormedModule)).
Qed.
Lemma EI_derive x : 0 < x -> is_derive EI x (gk x).
Proof.
  intros Hx. apply (is_derive_ext_loc (fun y => EI 1 + RInt gk 1 y)).
  - exists (mkposreal x Hx). intros y Hy. cbn in Hy. unfold ball in Hy; cbn in Hy. unfold AbsRing_ball, abs, minus, plus, opp in Hy; cbn in Hy.
    symmetry. apply EI_from; [lra|]. apply Rabs_lt_between in Hy. lra.
  - replace (gk x) with (0 + gk x) by ring. apply @is_derive_plus; [apply is_derive_Reals, derivable_pt_lim_const|].
    apply (is_derive_RInt (V := R_NormedModule) gk (fun y => RInt gk 1 y) 1).
    + exists (mkposreal x Hx). intros y Hy. cbn in Hy. unfold ball in Hy; cbn in Hy. unfold AbsRing_ball, abs, minus, plus, opp in Hy; cbn in Hy.
      apply (RInt_correct (V := R_CompleteNormedModule)). apply gk_int; [lra|]. apply Rabs_lt_between in Hy. lra.
    + apply gk_cont, Hx.
Qed.
Lemma EI_range x : 0 < x -> 0 <= EI x + E1 x <= 2 * x * exp x.
Proof.
  intros H. assert (L := EI_lim x H).
  assert (Ix : 0 < / x) by (apply Rinv_0_lt_compat, H).
  assert (I : forall y, / x <= y -> 0 < / y /\ / y <= x).
  { intros y Hy. split; [apply Rinv_0_lt_compat; lra|]. rewrite <- (Rinv_inv x). apply Rinv_le_contravar; assumption. }
  assert (A1 : - E1 x <= EI x).
  { apply (is_lim_le_loc (fun _ => - E1 x) (fun y => pv x (/ y)) p_infty (- E1 x) (EI x)); [|apply is_lim_const|exact L].
    exists (/ x). intros y Hy. destruct (I y ltac:(lra)). apply pv_range; assumption. }
  assert (A2 : EI x <= 2 * x * exp x - E1 x).
  { apply (is_lim_le_loc (fun y => pv x (/ y)) (fun _ => 2 * x * exp x - E1 x) p_infty (EI x) (2 * x * exp x - E1 x)); [|exact L|apply is_lim_const].
    exists (/ x). intros y Hy. destruct (I y ltac:(lra)). apply pv_range; assumption. }
  lra.
Qed.
Lemma EI_mono x y : 0 < x -> x <= y -> EI x <= EI y.
Proof.
  intros H1 H2. assert (- EI y <= - EI x); [|lra].
  apply (decreasing (fun t => - EI t) (fun t => - gk t)); [exact H2| |].
  - intros t Ht. apply @is_derive_opp. apply EI_derive. lra.
  - intros t Ht. assert (P := gk_pos t ltac:(lra)). lra.
Qed.

(** Comparison of antiderivatives: absolute and relative. *)
Lemma ei_segment_abs F c a b : 0 < a -> a <= b ->
  (forall t, a <= t <= b -> exists d, Rabs (d - gk t) <= c /\ is_derive F t d) ->
  Rabs ((F b - EI b) - (F a - EI a)) <= c * (b - a).
Proof.
  intros Ha Hab HF.
  assert (DF : forall t, a <= t <= b -> is_derive F t (Derive F t) /\ Rabs (Derive F t - gk t) <= c).
  { intros t Ht. destruct (HF t Ht) as [d [H1 H2]]. rewrite (is_derive_unique _ _ _ H2). split; assumption. }
  assert (P1 : F b - EI b - c * b <= F a - EI a - c * a).
  { apply (decreasing (fun y => F y - EI y - c * y) (fun t => Derive F t - gk t - c)); [exact Hab| |].
    - intros t Ht. apply @is_derive_minus; [apply @is_derive_minus; [apply DF, Ht|apply EI_derive; lra]|].
      auto_derive; [exact I|ring].
    - intros t Ht. destruct (DF t Ht) as [_ B]. apply Rabs_le_between in B. lra. }
  assert (P2 : EI b - F b - c * b <= EI a - F a - c * a).
  { apply (decreasing (fun y => EI y - F y - c * y) (fun t => gk t - Derive F t - c)); [exact Hab| |].
    - intros t Ht. apply @is_derive_minus; [apply @is_derive_minus; [apply EI_derive; lra|apply DF, Ht]|].
      auto_derive; [exact I|ring].
    - intros t Ht. destruct (DF t Ht) as [_ B]. apply Rabs_le_between in B. lra. }
  apply Rabs_le. lra.
Qed.
Lemma ei_segment_rel F e a b : 0 < a -> a <= b ->
  (forall t, a <= t <= b -> exists th, Rabs th <= e /\ is_derive F t (gk t * (1 + th))) ->
  Rabs ((F b - EI b) - (F a - EI a)) <= e * (EI b - EI a).
Proof.
  intros Ha Hab HF.
  assert (DF : forall t, a <= t <= b -> is_derive F t (Derive F t) /\ Rabs (Derive F t - gk t) <= e * gk t).
  { intros t Ht. destruct (HF t Ht) as [th [H1 H2]]. rewrite (is_derive_unique _ _ _ H2). split; [exact H2|].
    assert (P := gk_pos t ltac:(lra)).
    replace (gk t * (1 + th) - gk t) with (th * gk t) by ring.
    rewrite Rabs_mult, (Rabs_right (gk t)) by lra. apply Rmult_le_compat_r; lra. }
  assert (DE : forall c t, a <= t <= b -> is_derive (fun y => c * EI y) t (c * gk t)).
  { intros c t Ht. apply is_derive_scal, EI_derive. lra. }
  assert (P1 : F b - (1 + e) * EI b <= F a - (1 + e) * EI a).
  { apply (decreasing (fun y => F y - (1 + e) * EI y) (fun t => Derive F t - (1 + e) * gk t)); [exact Hab| |].
    - intros t Ht. apply @is_derive_minus; [apply DF, Ht|apply DE, Ht].
    - intros t Ht. destruct (DF t Ht) as [_ B]. apply Rabs_le_between in B. lra. }
  assert (P2 : (1 - e) * EI b - F b <= (1 - e) * EI a - F a).
  { apply (decreasing (fun y => (1 - e) * EI y - F y) (fun t => (1 - e) * gk t - Derive F t)); [exact Hab| |].
    - intros t Ht. apply @is_derive_minus; [apply DE, Ht|apply DF, Ht].
    - intros t Ht. destruct (DF t Ht) as [_ B]. apply Rabs_le_between in B. lra. }
  apply Rabs_le. lra.
Qed.
