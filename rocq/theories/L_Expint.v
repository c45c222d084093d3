(** The exponential integral E1. *)
From Coq Require Import ZArith Reals Lra Lia Bool List.
From Coquelicot Require Import Coquelicot.
From Verif Require Import Outcome Num NumFun S_Special L_Poly.

Definition ek (t : R) : R := exp (- t) / t.

Lemma ek_pos t : 0 < t -> 0 < ek t.
Proof. intros H. unfold ek. apply Rmult_lt_0_compat; [apply exp_pos|apply Rinv_0_lt_compat, H]. Qed.
Lemma ek_cont t : 0 < t -> continuous ek t.
Proof.
  intros H. apply continuity_pt_filterlim. unfold ek. apply derivable_continuous_pt.
  exists ((- exp (- t) * t - exp (- t)) / (t * t)). apply is_derive_Reals. auto_derive; [lra|]. field. lra.
Qed.
Lemma ek_int a b : 0 < a -> 0 < b -> ex_RInt ek a b.
Proof.
  intros Ha Hb. apply (ex_RInt_continuous (V := R_CompleteNormedModule)). intros z Hz. apply ek_cont.
  assert (0 < Rmin a b) by (apply Rmin_glb_lt; assumption). lra.
Qed.
Lemma ek_chasles a b c : 0 < a -> 0 < b -> 0 < c -> RInt ek a c = RInt ek a b + RInt ek b c.
Proof. intros. symmetry. apply (RInt_Chasles (V := R_CompleteNormedModule)); apply ek_int; assumption. Qed.

(** Bounded increasing functions converge. *)
Lemma incr_lim (f : R -> R) a M : (forall x y, a <= x -> x <= y -> f x <= f y) -> (forall x, a <= x -> f x <= M) ->
  exists l : R, is_lim f p_infty l.
Proof.
  intros Hi Hb.
  destruct (completeness (fun v => exists x, a <= x /\ v = f x)) as [l [Hu Hl]].
  - exists M. intros v [x [Hx ->]]. apply Hb, Hx.
  - exists (f a), a. split; [lra|reflexivity].
  - exists l. apply is_lim_spec. intros eps.
    assert (Ex : exists x, a <= x /\ l - eps < f x).
    { apply Classical_Prop.NNPP. intros N. assert (l <= l - eps); [|destruct eps; cbn in *; lra].
      apply Hl. intros v [x [Hx ->]]. destruct (Rle_lt_dec (f x) (l - eps)) as [L|L]; [exact L|].
      exfalso. apply N. exists x. split; assumption. }
    destruct Ex as [x [Hx Hf]]. exists (Rmax a x). intros y Hy.
    assert (a < y /\ x < y) as [Y1 Y2].
    { split; eapply Rle_lt_trans; [apply Rmax_l|exact Hy|apply Rmax_r|exact Hy]. }
    assert (f y <= l) by (apply Hu; exists y; split; [lra|reflexivity]).
    assert (f x <= f y) by (apply Hi; lra).
    apply Rabs_def1; lra.
Qed.

Lemma ek_mono x y : 1 <= x -> x <= y -> RInt ek 1 x <= RInt ek 1 y.
Proof.
  intros H1 H2. rewrite (ek_chasles 1 x y) by lra.
  assert (0 <= RInt ek x y); [|lra]. apply RInt_ge_0; [exact H2|apply ek_int; lra|].
  intros t Ht. left. apply ek_pos. lra.
Qed.
Lemma exp_int x : RInt (fun t => exp (- t)) 1 x = exp (- 1) - exp (- x).
Proof.
  apply is_RInt_unique. 
  replace (exp (- 1) - exp (- x)) with (minus (- exp (- x)) (- exp (- 1))) by (unfold minus, plus, opp; cbn; ring).
  apply (is_RInt_derive (fun t => - exp (- t)) (fun t => exp (- t))).
  - intros t _. auto_derive; [exact I|ring].
  - intros t _. apply continuity_pt_filterlim, derivable_continuous_pt. exists (- exp (- t)).
    apply is_derive_Reals. auto_derive; [exact I|ring].
Qed.
Lemma exp_ex a b : ex_RInt (fun t => exp (- t)) a b.
Proof.
  apply (ex_RInt_continuous (V := R_CompleteNormedModule)). intros t _.
  apply continuity_pt_filterlim, derivable_continuous_pt. exists (- exp (- t)).
  apply is_derive_Reals. auto_derive; [exact I|ring].
Qed.
Lemma ek_bound x : 1 <= x -> RInt ek 1 x <= exp (- 1).
Proof.
  intros H. apply Rle_trans with (RInt (fun t => exp (- t)) 1 x).
  - apply RInt_le; [exact H|apply ek_int; lra|apply exp_ex|]. intros t Ht. unfold ek.
    rewrite <- (Rmult_1_r (exp (- t))) at 2. apply Rmult_le_compat_l; [left; apply exp_pos|].
    rewrite <- Rinv_1. apply Rinv_le_contravar; lra.
  - rewrite exp_int. assert (0 < exp (- x)) by apply exp_pos. lra.
Qed.

Lemma E1_lim_ex : exists L, is_lim (fun X => RInt ek 1 X) p_infty (Finite L).
Proof. apply (incr_lim _ 1 (exp (- 1))); [exact ek_mono|exact ek_bound]. Qed.

Lemma E1_is_lim x : 0 < x -> is_lim (fun X => RInt ek x X) p_infty (E1 x).
Proof.
  intros Hx. destruct E1_lim_ex as [L HL].
  assert (H : is_lim (fun X => RInt ek x X) p_infty (Finite (RInt ek x 1 + L))).
  { apply (is_lim_ext_loc (fun X => RInt ek x 1 + RInt ek 1 X)).
    - exists 1. intros y Hy. rewrite (ek_chasles x 1 y) by lra. reflexivity.
    - apply (is_lim_plus' (fun _ => RInt ek x 1) (fun X => RInt ek 1 X)); [apply is_lim_const|exact HL]. }
  unfold E1. fold ek. change (fun t => exp (- t) / t) with ek. rewrite (is_lim_unique _ _ _ H). exact H.
Qed.
Lemma E1_from x y : 0 < x -> 0 < y -> E1 x = RInt ek x y + E1 y.
Proof.
  intros Hx Hy. assert (H := E1_is_lim x Hx). assert (H2 := E1_is_lim y Hy).
  assert (H3 : is_lim (fun X => RInt ek x X) p_infty (Finite (RInt ek x y + E1 y))).
  { apply (is_lim_ext_loc (fun X => RInt ek x y + RInt ek y X)).
    - exists 1. intros z Hz. rewrite (ek_chasles x y z) by lra. reflexivity.
    - apply (is_lim_plus' (fun _ => RInt ek x y) (fun X => RInt ek y X)); [apply is_lim_const|exact H2]. }
  apply is_lim_unique in H. apply is_lim_unique in H3. rewrite H in H3. injection H3. auto.
Qed.
Lemma E1_derive x : 0 < x -> is_derive E1 x (- ek x).
Proof.
  intros Hx.
  apply (is_derive_ext_loc (fun y => E1 1 - RInt ek 1 y)).
  - exists (mkposreal x Hx). intros y Hy. cbn in Hy.
    assert (0 < y). { unfold ball in Hy; cbn in Hy. unfold AbsRing_ball, abs, minus, plus, opp in Hy; cbn in Hy. apply Rabs_def2 in Hy. lra. }
    rewrite (E1_from 1 y) by lra. match goal with |- @eq _ ?a ?b => change (@eq R a b) end. ring.
  - replace (- ek x) with (minus 0 (ek x)) by (unfold minus, plus, opp; cbn; ring).
    apply @is_derive_minus; [apply @is_derive_const|].
    apply (is_derive_RInt (V := R_NormedModule) ek (fun y => RInt ek 1 y) 1 x); [|apply ek_cont, Hx].
    exists (mkposreal x Hx). intros y Hy.
    assert (0 < y). { unfold ball in Hy; cbn in Hy. unfold AbsRing_ball, abs, minus, plus, opp in Hy; cbn in Hy. apply Rabs_def2 in Hy. lra. }
    apply (RInt_correct (V := R_CompleteNormedModule)). apply ek_int; lra.
Qed.
Lemma E1_lim : is_lim E1 p_infty 0.
Proof.
  apply (is_lim_ext_loc (fun y => E1 1 - RInt ek 1 y)).
  - exists 1. intros y Hy. rewrite (E1_from 1 y) by lra. ring.
  - replace (Finite 0) with (Finite (E1 1 - E1 1)) by (f_equal; ring).
    apply is_lim_minus'; [apply is_lim_const|apply E1_is_lim; lra].
Qed.

(** Comparison on a half line. *)
Lemma compare_lim (F f : R -> R) a : (forall t, a <= t -> is_derive F t (f t)) -> (forall t, a <= t -> f t <= 0) ->
  is_lim F p_infty 0 -> forall x, a <= x -> 0 <= F x.
Proof.
  intros HF Hf HL x Hx. destruct (Rle_lt_dec 0 (F x)) as [L|L]; [exact L|exfalso].
  apply is_lim_spec in HL. destruct (HL (mkposreal (- F x) ltac:(lra))) as [M HM]. cbn in HM.
  set (y := Rmax (x + 1) (M + 1)).
  assert (x < y /\ M < y) as [Y1 Y2].
  { unfold y. split; eapply Rlt_le_trans; [|apply Rmax_l| |apply Rmax_r]; lra. }
  specialize (HM y Y2). apply Rabs_def2 in HM.
  assert (F y <= F x); [|lra].
  destruct (MVT_gen F x y f) as [c [Hc E]].
  - intros t Ht. rewrite Rmin_left, Rmax_right in Ht by lra. apply HF. lra.
  - intros t Ht. rewrite Rmin_left, Rmax_right in Ht by lra.
    apply derivable_continuous_pt. exists (f t). apply is_derive_Reals, HF. lra.
  - rewrite Rmin_left, Rmax_right in Hc by lra.
    assert (f c * (y - x) <= 0 * (y - x)) by (apply Rmult_le_compat_r; [lra|apply Hf; lra]). lra.
Qed.
Lemma decreasing (F f : R -> R) a b : a <= b -> (forall t, a <= t <= b -> is_derive F t (f t)) ->
  (forall t, a <= t <= b -> f t <= 0) -> F b <= F a.
Proof.
  intros Hab HF Hf. destruct (Req_dec a b) as [->|N]; [lra|].
  destruct (MVT_gen F a b f) as [c [Hc E]].
  - intros t Ht. rewrite Rmin_left, Rmax_right in Ht by lra. apply HF. lra.
  - intros t Ht. rewrite Rmin_left, Rmax_right in Ht by lra.
    apply derivable_continuous_pt. exists (f t). apply is_derive_Reals, HF. lra.
  - rewrite Rmin_left, Rmax_right in Hc by lra.
    assert (f c * (b - a) <= 0 * (b - a)) by (apply Rmult_le_compat_r; [lra|apply Hf; lra]). lra.
Qed.
Lemma E1_pos x : 0 < x -> 0 < E1 x.
Proof.
  intros Hx. rewrite (E1_from x (x + 1)) by lra.
  assert (0 <= E1 (x + 1)).
  { apply (compare_lim E1 (fun t => - ek t) (x + 1)); [|intros t Ht|exact E1_lim|lra].
    - intros t Ht. apply E1_derive. lra.
    - assert (0 < ek t) by (apply ek_pos; lra). lra. }
  assert (0 < RInt ek x (x + 1)); [|lra].
  apply RInt_gt_0; [lra| |]; intros t Ht; [apply ek_pos|apply ek_cont]; lra.
Qed.

(** e^{-x} times a bounded function tends to 0. *)
Lemma exp_lim0 : is_lim (fun x => exp (- x)) p_infty 0.
Proof.
  apply (is_lim_comp exp (fun x => - x) p_infty 0 m_infty).
  - exact is_lim_exp_m.
  - evar_last; [apply is_lim_opp, is_lim_id|reflexivity].
  - exists 0. intros; discriminate.
Qed.
Lemma bounded_lim0 (h : R -> R) a K : (forall x, a <= x -> Rabs (h x) <= K) -> is_lim (fun x => exp (- x) * h x) p_infty 0.
Proof.
  intros Hh. apply is_lim_spec. intros eps.
  assert (HL := exp_lim0). apply is_lim_spec in HL.
  assert (KK : 0 < Rabs K + 1) by (assert (0 <= Rabs K) by apply Rabs_pos; lra).
  assert (P : 0 < eps / (Rabs K + 1)) by (apply Rmult_lt_0_compat; [apply cond_pos|apply Rinv_0_lt_compat, KK]).
  destruct (HL (mkposreal _ P)) as [M HM]. cbn in HM. exists (Rmax a M). intros x Hx.
  assert (a < x /\ M < x) as [X1 X2] by (split; eapply Rle_lt_trans; [apply Rmax_l|exact Hx|apply Rmax_r|exact Hx]).
  specialize (HM x X2). rewrite Rminus_0_r in *. rewrite Rabs_mult.
  assert (H1 := Hh x ltac:(lra)). assert (H2 : Rabs (h x) <= Rabs K + 1).
  { assert (K <= Rabs K) by apply Rle_abs. lra. }
  apply Rle_lt_trans with (Rabs (exp (- x)) * (Rabs K + 1)).
  - apply Rmult_le_compat_l; [apply Rabs_pos|exact H2].
  - apply (Rmult_lt_compat_r (Rabs K + 1)) in HM; [|exact KK].
    replace (eps / (Rabs K + 1) * (Rabs K + 1)) with (eps * 1) in HM by (field; lra). lra.
Qed.

(** Relative bounds: h e^{-x} approximates E1 as well as x (h - h') approximates 1. *)
Lemma E1_relative (h h' : R -> R) a K e : 0 < a -> 
  (forall t, a <= t -> is_derive h t (h' t)) -> (forall t, a <= t -> Rabs (h t) <= K) ->
  (forall t, a <= t -> Rabs (t * (h t - h' t) - 1) <= e) ->
  forall x, a <= x -> Rabs (exp (- x) * h x - E1 x) <= e * E1 x.
Proof.
  intros Ha Hd Hb He x Hx.
  assert (L0 := bounded_lim0 h a K Hb).
  assert (Dk : forall t, a <= t -> is_derive (fun y => exp (- y) * h y) t (exp (- t) * (h' t - h t))).
  { intros t Ht. assert (Dt := Hd t Ht). auto_derive; [exists (h' t); exact Dt|].
    replace (Derive (fun x0 => h x0) t) with (h' t) by (symmetry; apply is_derive_unique; exact Dt). ring. }
  assert (Ek : forall t, a <= t -> exp (- t) * (h' t - h t) = - ek t * (t * (h t - h' t))).
  { intros t Ht. unfold ek. field. lra. }
  assert (Lc : forall c, is_lim (fun y => c * E1 y) p_infty 0).
  { intros c. replace (Finite 0) with (Rbar_mult c 0) by (cbn; f_equal; ring). apply is_lim_scal_l, E1_lim. }
  assert (Dc : forall c t, a <= t -> is_derive (fun y => c * E1 y) t (c * - ek t)).
  { intros c t Ht. apply is_derive_scal, E1_derive. lra. }
  apply Rabs_le. split.
  - assert (P : 0 <= exp (- x) * h x - (1 - e) * E1 x); [|lra].
    apply (compare_lim (fun y => exp (- y) * h y - (1 - e) * E1 y)
             (fun t => exp (- t) * (h' t - h t) - (1 - e) * - ek t) a).
    + intros t Ht. apply @is_derive_minus; [apply Dk|apply Dc]; exact Ht.
    + intros t Ht. rewrite Ek by exact Ht. assert (B := He t Ht). apply Rabs_le_between in B.
      assert (0 < ek t) by (apply ek_pos; lra).
      replace (- ek t * (t * (h t - h' t)) - (1 - e) * - ek t) with (ek t * (- (t * (h t - h' t) - 1) - e)) by ring.
      assert (ek t * (- (t * (h t - h' t) - 1) - e) <= ek t * 0) by (apply Rmult_le_compat_l; lra). lra.
    + replace (Finite 0) with (Finite (0 - 0)) by (f_equal; ring). apply is_lim_minus'; [exact L0|apply Lc].
    + exact Hx.
  - assert (P : 0 <= (1 + e) * E1 x - exp (- x) * h x); [|lra].
    apply (compare_lim (fun y => (1 + e) * E1 y - exp (- y) * h y)
             (fun t => (1 + e) * - ek t - exp (- t) * (h' t - h t)) a).
    + intros t Ht. apply @is_derive_minus; [apply Dc|apply Dk]; exact Ht.
    + intros t Ht. rewrite Ek by exact Ht. assert (B := He t Ht). apply Rabs_le_between in B.
      assert (0 < ek t) by (apply ek_pos; lra).
      replace ((1 + e) * - ek t - - ek t * (t * (h t - h' t))) with (ek t * (t * (h t - h' t) - 1 - e)) by ring.
      assert (ek t * (t * (h t - h' t) - 1 - e) <= ek t * 0) by (apply Rmult_le_compat_l; lra). lra.
    + replace (Finite 0) with (Finite (0 - 0)) by (f_equal; ring). apply is_lim_minus'; [apply Lc|exact L0].
    + exact Hx.
Qed.
