(** The Laplace transform of 1/sqrt(1+t^2): its differential equation, and an
    energy estimate for approximate solutions. *)
From Coq Require Import ZArith Reals Lra Lia Bool List.
From Coquelicot Require Import Coquelicot.
From Verif Require Import Outcome Num NumFun M_Special S_Special L_Bessel L_Expint.
Open Scope R_scope.

Ltac rq := match goal with |- @eq _ ?a ?b => change (@eq R a b) end.

Definition g (t : R) : R := / sqrt (1 + t * t).
Lemma s1_pos t : 0 < 1 + t * t.
Proof. assert (0 <= t * t) by apply Rle_0_sqr. lra. Qed.
Lemma s1_sqrt t : 0 < sqrt (1 + t * t).
Proof. apply sqrt_lt_R0, s1_pos. Qed.
Lemma s1_sq t : sqrt (1 + t * t) * sqrt (1 + t * t) = 1 + t * t.
Proof. apply sqrt_sqrt. left. apply s1_pos. Qed.
Lemma g_pos t : 0 < g t.
Proof. apply Rinv_0_lt_compat, s1_sqrt. Qed.
Lemma s1_ge t : 1 <= sqrt (1 + t * t).
Proof. rewrite <- sqrt_1 at 1. apply sqrt_le_1_alt. assert (0 <= t * t) by apply Rle_0_sqr. lra. Qed.
Lemma g_le1 t : g t <= 1.
Proof. unfold g. rewrite <- Rinv_1 at 2. apply Rinv_le_contravar; [lra|apply s1_ge]. Qed.
Lemma g_ge t : 0 <= t -> 1 - t <= g t.
Proof.
  intros Ht. unfold g. apply (Rmult_le_reg_r (sqrt (1 + t * t))); [apply s1_sqrt|].
  rewrite Rinv_l by (apply Rgt_not_eq, s1_sqrt).
  assert (S := s1_ge t). assert (Q := s1_sq t). set (s := sqrt (1 + t * t)) in *. clearbody s.
  assert (s <= 1 + t) by nra. destruct (Rle_lt_dec t 1); nra.
Qed.
Lemma g_sqrt t : t * t * g t + g t = sqrt (1 + t * t).
Proof.
  unfold g. rewrite <- (Rmult_1_l (/ sqrt (1 + t * t))) at 2. rewrite <- Rmult_plus_distr_r.
  replace (t * t + 1) with (1 + t * t) by ring. rewrite <- s1_sq at 1. field. apply Rgt_not_eq, s1_sqrt.
Qed.

Definition lk (x t : R) : R := exp (- (x * t)) * g t.
Lemma lk_d (k : nat) x t : ex_derive (fun t => t ^ k * lk x t) t.
Proof.
  unfold lk, g. auto_derive. assert (S := s1_sqrt t). assert (P := s1_pos t). repeat split; try lra.
Qed.
Lemma lk_int k x a b : ex_RInt (fun t => t ^ k * lk x t) a b.
Proof.
  apply cont_ex_RInt. intros t. apply (ex_derive_continuous (K := R_AbsRing) (V := R_NormedModule)). apply lk_d.
Qed.
(** Moments over [0, T]. *)
Definition mom (k : nat) (T x : R) : R := RInt (fun t => t ^ k * lk x t) 0 T.

Lemma g_cont t : continuity_pt (fun t => g t) t.
Proof.
  apply derivable_continuous_pt. apply ex_derive_Reals_0. unfold g. auto_derive.
  assert (S := s1_sqrt t). assert (P := s1_pos t). repeat split; lra.
Qed.
Lemma lk_c2 k x t : continuity_2d_pt (fun u v => v ^ k * lk u v) x t.
Proof.
  apply continuity_2d_pt_mult.
  - apply (continuity_1d_2d_pt_comp (fun v => v ^ k) (fun u v => v)); [|apply c2_snd].
    apply derivable_continuous_pt, derivable_pt_pow.
  - unfold lk. apply continuity_2d_pt_mult.
    + apply (continuity_1d_2d_pt_comp exp (fun u v => - (u * v))); [apply derivable_continuous_pt, derivable_pt_exp|].
      apply continuity_2d_pt_opp, continuity_2d_pt_mult; [apply c2_fst|apply c2_snd].
    + apply (continuity_1d_2d_pt_comp g (fun u v => v)); [apply g_cont|apply c2_snd].
Qed.
Lemma mom_derive k T x : is_derive (mom k T) x (- mom (S k) T x).
Proof.
  assert (E : - mom (S k) T x = RInt (fun t => - (t ^ S k * lk x t)) 0 T).
  { unfold mom. rewrite <- (RI_opp (fun t => t ^ S k * lk x t)); [reflexivity|]. apply lk_int. }
  rewrite E.
  apply (derive_under (fun u t => t ^ k * lk u t) (fun u t => - (t ^ S k * lk u t))).
  - intros u t. unfold lk. auto_derive; [exact I|]. rewrite <- tech_pow_Rmult. ring.
  - intros t. apply continuity_2d_pt_opp. apply lk_c2.
  - intros u. apply lk_int.
Qed.

(** x (y'' + y) + y' = 1 - exp(-xT) sqrt(1+T^2) for the transform over [0,T]. *)
Lemma mom_ode T x : x * (mom 2 T x + mom 0 T x) - mom 1 T x = 1 - exp (- (x * T)) * sqrt (1 + T * T).
Proof.
  unfold mom.
  assert (D : is_RInt (fun t => x * (t ^ 2 * lk x t + t ^ 0 * lk x t) - t ^ 1 * lk x t) 0 T
    (minus (- (exp (- (x * T)) * sqrt (1 + T * T))) (- (exp (- (x * 0)) * sqrt (1 + 0 * 0))))).
  { apply (is_RInt_derive (fun t => - (exp (- (x * t)) * sqrt (1 + t * t)))).
    - intros t _. assert (S := s1_sqrt t). assert (P := s1_pos t).
      assert (G := g_sqrt t). unfold lk.
      auto_derive; [lra|]. transitivity (x * exp (- (x * t)) * sqrt (1 + t * t) - t * exp (- (x * t)) * g t).
      + unfold g. field. lra.
      + rewrite <- G. ring.
    - intros t _. apply (ex_derive_continuous (K := R_AbsRing) (V := R_NormedModule)).
      unfold lk, g. assert (S := s1_sqrt t). assert (P := s1_pos t). auto_derive. repeat split; lra. }
  apply (is_RInt_unique (V := R_CompleteNormedModule)) in D.
  rewrite (RI_minus (fun t => x * (t ^ 2 * lk x t + t ^ 0 * lk x t)) (fun t => t ^ 1 * lk x t)) in D.
  2:{ apply ex_scal. apply @ex_RInt_plus; apply lk_int. }
  2:{ apply lk_int. }
  rewrite RI_scal in D by (apply @ex_RInt_plus; apply lk_int).
  rewrite RI_plus in D by apply lk_int.
  rewrite D. rewrite Rmult_0_r, Ropp_0, exp_0, Rmult_0_l, Rplus_0_r, sqrt_1.
  unfold minus, plus, opp. cbn. ring.
Qed.

(** Elementary bounds. *)
Lemma texp_int x T : 0 < x -> RInt (fun t => t * exp (- (x * t))) 0 T = / (x * x) - (T / x + / (x * x)) * exp (- (x * T)).
Proof.
  intros Hx. apply is_RInt_unique.
  replace (/ (x * x) - (T / x + / (x * x)) * exp (- (x * T))) with
    (minus (- ((T / x + / (x * x)) * exp (- (x * T)))) (- ((0 / x + / (x * x)) * exp (- (x * 0))))).
  - apply (is_RInt_derive (fun t => - ((t / x + / (x * x)) * exp (- (x * t))))).
    + intros t _. auto_derive; [exact I|]. field. lra.
    + intros t _. apply (ex_derive_continuous (K := R_AbsRing) (V := R_NormedModule)). auto_derive. exact I.
  - rewrite Rmult_0_r, Ropp_0, exp_0. unfold minus, plus, opp. cbn. field. lra.
Qed.
Lemma exp1_int x T : 0 < x -> RInt (fun t => exp (- (x * t))) 0 T = (1 - exp (- (x * T))) / x.
Proof.
  intros Hx. apply is_RInt_unique.
  replace ((1 - exp (- (x * T))) / x) with (minus (- (exp (- (x * T)) / x)) (- (exp (- (x * 0)) / x))).
  - apply (is_RInt_derive (fun t => - (exp (- (x * t)) / x))).
    + intros t _. auto_derive; [exact I|]. field. lra.
    + intros t _. apply (ex_derive_continuous (K := R_AbsRing) (V := R_NormedModule)). auto_derive. exact I.
  - rewrite Rmult_0_r, Ropp_0, exp_0. unfold minus, plus, opp. cbn. field. lra.
Qed.
Lemma expk_ex (k : nat) x a b : ex_RInt (fun t => t ^ k * exp (- (x * t))) a b.
Proof.
  apply cont_ex_RInt. intros t. apply (ex_derive_continuous (K := R_AbsRing) (V := R_NormedModule)). auto_derive. exact I.
Qed.
Lemma texp_ex x a b : ex_RInt (fun t => t * exp (- (x * t))) a b.
Proof. apply (ex_RInt_ext (fun t => t ^ 1 * exp (- (x * t)))); [intros; rq; ring|apply expk_ex]. Qed.
Lemma exp1_ex x a b : ex_RInt (fun t => exp (- (x * t))) a b.
Proof. apply (ex_RInt_ext (fun t => t ^ 0 * exp (- (x * t)))); [intros; rq; ring|apply expk_ex]. Qed.
Lemma lk_le x t : lk x t <= exp (- (x * t)).
Proof. unfold lk. assert (E := exp_pos (- (x * t))). assert (G := g_le1 t). nra. Qed.
Lemma lk_pos x t : 0 < lk x t.
Proof. apply Rmult_lt_0_compat; [apply exp_pos|apply g_pos]. Qed.
Lemma mom1_bounds T x : 0 < x -> 0 <= T -> 0 <= mom 1 T x <= / (x * x).
Proof.
  intros Hx HT. split.
  - apply RInt_ge_0; [exact HT|apply lk_int|]. intros t Ht. assert (P := lk_pos x t). rewrite pow_1. nra.
  - apply Rle_trans with (RInt (fun t => t * exp (- (x * t))) 0 T).
    + apply RInt_le; [exact HT|apply lk_int|apply texp_ex|]. intros t Ht. rewrite pow_1.
      apply Rmult_le_compat_l; [lra|apply lk_le].
    + rewrite texp_int by exact Hx. assert (E := exp_pos (- (x * T))).
      assert (0 < / x) by (apply Rinv_0_lt_compat; exact Hx).
      assert (0 < / (x * x)) by (apply Rinv_0_lt_compat; nra).
      assert (0 <= T / x) by (unfold Rdiv; nra). nra.
Qed.
Lemma mom0_upper T x : 0 < x -> 0 <= T -> mom 0 T x <= / x.
Proof.
  intros Hx HT. apply Rle_trans with (RInt (fun t => exp (- (x * t))) 0 T).
  - apply RInt_le; [exact HT|apply lk_int|apply exp1_ex|]. intros t Ht. rewrite pow_O, Rmult_1_l. apply lk_le.
  - rewrite exp1_int by exact Hx. assert (E := exp_pos (- (x * T))).
    assert (0 < / x) by (apply Rinv_0_lt_compat; exact Hx). unfold Rdiv. nra.
Qed.
Lemma mom0_lower T x : 0 < x -> 0 <= T -> (1 - exp (- (x * T))) / x - / (x * x) <= mom 0 T x.
Proof.
  intros Hx HT. apply Rle_trans with (RInt (fun t => exp (- (x * t)) - t * exp (- (x * t))) 0 T).
  - rewrite (RI_minus (fun t => exp (- (x * t))) (fun t => t * exp (- (x * t)))); [|apply exp1_ex|apply texp_ex].
    rewrite exp1_int, texp_int by exact Hx. assert (E := exp_pos (- (x * T))).
    assert (0 < / x) by (apply Rinv_0_lt_compat; exact Hx).
    assert (0 < / (x * x)) by (apply Rinv_0_lt_compat; nra).
    assert (0 <= T / x) by (unfold Rdiv; nra). nra.
  - apply RInt_le; [exact HT| |apply lk_int|].
    { apply (ex_minus (fun t => exp (- (x * t))) (fun t => t * exp (- (x * t)))); [apply exp1_ex|apply texp_ex]. }
    intros t Ht. rewrite pow_O, Rmult_1_l. unfold lk. assert (G := g_ge t ltac:(lra)).
    assert (E := exp_pos (- (x * t))). nra.
Qed.

(** ** Energy estimate
    q(x^2)/x with a small residual is close to the transform, and so is its
    derivative. *)
Section Energy.
Variables (q q1 q2 : R -> R) (c : R).
Hypothesis Dq : forall v, 9 <= v -> is_derive q v (q1 v).
Hypothesis Dq1 : forall v, 9 <= v -> is_derive q1 v (q2 v).
Hypothesis Hc : 0 <= c.
Hypothesis Hres : forall v, 9 <= v -> Rabs (4 * v ^ 2 * q2 v + q v + v * (q v - 1)) <= c.
Hypothesis Hinf : forall v, 9 <= v -> Rabs (q v - 1) <= 2 / v.
Hypothesis Hinf1 : forall v, 9 <= v -> Rabs (2 * q1 v - q v / v) <= 2 / v.
Variable T : R.
Hypothesis HT : 0 < T.

Let yq x := q (x * x) / x.
Let yq1 x := 2 * q1 (x * x) - q (x * x) / (x * x).
Let yq2 x := x * (4 * q2 (x * x) - 2 * q1 (x * x) / (x * x) + 2 * q (x * x) / (x * x) ^ 2).
Let e x := yq x - mom 0 T x.
Let e1 x := yq1 x + mom 1 T x.
Let e2 x := yq2 x - mom 2 T x.
Let W x := x * x * (e1 x * e1 x + e x * e x).

Lemma v9 x : 3 <= x -> 9 <= x * x. Proof. intros; nra. Qed.
Lemma Dqx x : 3 <= x -> is_derive (fun x => q (x * x)) x (2 * x * q1 (x * x)).
Proof.
  intros Hx. apply (is_derive_comp q (fun x => x * x)); [apply Dq, v9, Hx|]. auto_derive; [exact I|ring].
Qed.
Lemma Dq1x x : 3 <= x -> is_derive (fun x => q1 (x * x)) x (2 * x * q2 (x * x)).
Proof.
  intros Hx. apply (is_derive_comp q1 (fun x => x * x)); [apply Dq1, v9, Hx|]. auto_derive; [exact I|ring].
Qed.
Lemma De x : 3 <= x -> is_derive e x (e1 x).
Proof.
  intros Hx. unfold e, e1.
  replace (yq1 x + mom 1 T x) with (minus (yq1 x) (- mom 1 T x)) by (unfold minus, plus, opp; cbn; ring).
  apply @is_derive_minus; [|apply mom_derive].
  unfold yq, yq1. assert (D := Dqx x Hx). pose (h := fun x => q (x * x)); change (is_derive h x (2 * x * q1 (x * x))) in D.
  apply (is_derive_ext (fun x => h x / x)); [reflexivity|]. change (q (x * x)) with (h x). clearbody h.
  evar_last; [apply (is_derive_div h (fun x => x)); [exact D|apply is_derive_id|lra]|].
  unfold one; cbn. field. lra.
Qed.
Lemma De1 x : 3 <= x -> is_derive e1 x (e2 x).
Proof.
  intros Hx. unfold e1, e2.
  replace (yq2 x - mom 2 T x) with (plus (yq2 x) (- mom 2 T x)) by reflexivity.
  apply @is_derive_plus; [|apply mom_derive].
  unfold yq1, yq2. assert (D := Dqx x Hx). assert (D1 := Dq1x x Hx).
  pose (h := fun x => q (x * x)); change (is_derive h x (2 * x * q1 (x * x))) in D. pose (h1 := fun x => q1 (x * x)); change (is_derive h1 x (2 * x * q2 (x * x))) in D1.
  apply (is_derive_ext (fun x => 2 * h1 x - h x / (x * x))); [reflexivity|].
  change (q (x * x)) with (h x). change (q1 (x * x)) with (h1 x).
  evar_last.
  { apply @is_derive_minus; [apply is_derive_scal; exact D1|].
    apply (is_derive_div h (fun x => x * x)); [exact D| |nra].
    instantiate (1 := 2 * x). auto_derive; [exact I|ring]. }
  unfold minus, plus, opp; cbn. unfold h1. field. lra.
Qed.
Let rho x := 4 * q2 (x * x) * (x * x) + q (x * x) / (x * x) + (q (x * x) - 1) + exp (- (x * T)) * sqrt (1 + T * T).
Lemma rho_eq x : 3 <= x -> x * (e2 x + e x) + e1 x = rho x.
Proof.
  intros Hx. assert (O := mom_ode T x). unfold e2, e, e1, rho, yq, yq1, yq2.
  replace (exp (- (x * T)) * sqrt (1 + T * T)) with (1 - (x * (mom 2 T x + mom 0 T x) - mom 1 T x)) by lra.
  field. lra.
Qed.
Let beta x := c / x + exp (- (x * T)) * (sqrt (1 + T * T) / T).
Lemma Dbeta x : 3 <= x -> is_derive beta x (- (c / (x * x) + exp (- (x * T)) * sqrt (1 + T * T))).
Proof. intros Hx. unfold beta. auto_derive; [lra|]. field. lra. Qed.
Lemma rho_bound x : 3 <= x -> Rabs (rho x) <= c / (x * x) + exp (- (x * T)) * sqrt (1 + T * T).
Proof.
  intros Hx. unfold rho. eapply Rle_trans; [apply Rabs_triang|]. apply Rplus_le_compat.
  - assert (V := v9 x Hx). assert (H := Hres _ V). set (v := x * x) in *. clearbody v.
    replace (4 * q2 v * v + q v / v + (q v - 1)) with ((4 * v ^ 2 * q2 v + q v + v * (q v - 1)) / v) by (field; lra).
    unfold Rdiv. rewrite Rabs_mult, (Rabs_pos_eq (/ v)) by (left; apply Rinv_0_lt_compat; lra).
    apply Rmult_le_compat_r; [left; apply Rinv_0_lt_compat; lra|exact H].
  - rewrite Rabs_pos_eq; [lra|]. left. apply Rmult_lt_0_compat; [apply exp_pos|apply s1_sqrt].
Qed.
Lemma DW x : 3 <= x -> is_derive W x (2 * x * (e x * e x) + 2 * x * e1 x * rho x).
Proof.
  intros Hx. rewrite <- rho_eq by exact Hx. assert (D := De x Hx). assert (D1 := De1 x Hx).
  unfold W. clearbody e e1 e2.
  evar_last; [auto_derive; [repeat split; [eexists; exact D1|eexists; exact D1|eexists; exact D|eexists; exact D]|reflexivity]|].
  repeat match goal with |- context [Derive ?f ?y] =>
    first [replace (Derive f y) with (e1 y) by (symmetry; apply is_derive_unique; exact D)
          |replace (Derive f y) with (e2 y) by (symmetry; apply is_derive_unique; exact D1)] end.
  ring.
Qed.
Lemma W_pos x : 0 <= W x.
Proof. unfold W. assert (0 <= x * x) by apply Rle_0_sqr. assert (0 <= e1 x * e1 x) by apply Rle_0_sqr. assert (0 <= e x * e x) by apply Rle_0_sqr. nra. Qed.
Lemma phi_mono d x X : 0 < d -> 3 <= x -> x <= X -> sqrt (W x + d) - beta x <= sqrt (W X + d) - beta X.
Proof.
  intros Hd Hx HX.
  set (phi := fun x => sqrt (W x + d) - beta x).
  set (dphi := fun x => (2 * x * (e x * e x) + 2 * x * e1 x * rho x) / (2 * sqrt (W x + d)) + (c / (x * x) + exp (- (x * T)) * sqrt (1 + T * T))).
  change (phi x <= phi X).
  assert (Sp : forall y, 0 < sqrt (W y + d)) by (intros y; apply sqrt_lt_R0; assert (P := W_pos y); lra).
  assert (D : forall y, 3 <= y -> is_derive phi y (dphi y)).
  { intros y Hy. unfold phi, dphi. assert (B := Dbeta y Hy). assert (Dw := DW y Hy).
    set (w := 2 * y * (e y * e y) + 2 * y * e1 y * rho y) in *. clearbody w.
    set (bb := c / (y * y) + exp (- (y * T)) * sqrt (1 + T * T)) in *. clearbody bb.
    replace (w / (2 * sqrt (W y + d)) + bb) with (minus (w / (2 * sqrt (W y + d))) (- bb)) by (unfold minus, plus, opp; cbn; ring).
    apply @is_derive_minus; [|exact B].
    assert (P := W_pos y). specialize (Sp y). clearbody W.
    evar_last; [auto_derive; [repeat split; [eexists; exact Dw|lra]|reflexivity]|].
    match goal with |- context [Derive ?f ?y] =>
      replace (Derive f y) with w by (symmetry; apply is_derive_unique; exact Dw) end.
    field. lra. }
  assert (Pos : forall y, 3 <= y -> 0 <= dphi y).
  { intros y Hy. unfold dphi. assert (B := rho_bound y Hy). set (bb := c / (y * y) + exp (- (y * T)) * sqrt (1 + T * T)) in *. clearbody bb.
    assert (S := Sp y). assert (Q : sqrt (W y + d) * sqrt (W y + d) = W y + d) by (apply sqrt_sqrt; assert (P := W_pos y); lra).
    set (s := sqrt (W y + d)) in *. clearbody s.
    assert (Y1 : Rabs (y * e1 y) <= s).
    { rewrite <- (Rabs_pos_eq s) by lra. apply Rsqr_le_abs_0. unfold Rsqr. rewrite Q. unfold W.
      assert (0 <= (y * y) * (e y * e y)) by (apply Rmult_le_pos; apply Rle_0_sqr). nra. }
    assert (Y2 : - (s * bb) <= y * e1 y * rho y).
    { assert (Rabs (y * e1 y * rho y) <= s * bb).
      { rewrite Rabs_mult. apply Rmult_le_compat; try apply Rabs_pos; assumption. }
      apply Rabs_le_between in H. lra. }
    apply (Rmult_le_reg_r (2 * s)); [lra|]. rewrite Rmult_0_l.
    replace (((2 * y * (e y * e y) + 2 * y * e1 y * rho y) / (2 * s) + bb) * (2 * s))
      with (2 * (y * (e y * e y)) + 2 * (y * e1 y * rho y) + 2 * (s * bb)) by (field; lra).
    assert (0 <= y * (e y * e y)) by (apply Rmult_le_pos; [lra|apply Rle_0_sqr]). lra. }
  destruct (MVT_gen phi x X dphi) as [z [Hz E]].
  - intros t Ht. rewrite Rmin_left, Rmax_right in Ht by lra. apply D. lra.
  - intros t Ht. rewrite Rmin_left, Rmax_right in Ht by lra.
    apply continuity_pt_filterlim. apply (ex_derive_continuous (K := R_AbsRing) (V := R_NormedModule)). eexists. apply D. lra.
  - rewrite Rmin_left, Rmax_right in Hz by lra. assert (P := Pos z ltac:(lra)). nra.
Qed.
Let C0 := 8 + / T.
Lemma exp_inv z : 0 < z -> exp (- z) <= / z.
Proof.
  intros Hz. rewrite exp_Ropp. apply Rinv_le_contravar; [exact Hz|]. left. assert (E := exp_ineq1 z ltac:(lra)). lra.
Qed.
Lemma W_far X : 3 <= X -> W X <= 2 * (C0 / X) ^ 2.
Proof.
  intros HX. assert (V := v9 X HX). assert (iX : 0 < / X) by (apply Rinv_0_lt_compat; lra).
  assert (iT : 0 < / T) by (apply Rinv_0_lt_compat; lra).
  assert (IV : / (X * X) = / X * / X) by (rewrite Rinv_mult; reflexivity).
  assert (I3 : / X <= / 3) by (apply Rinv_le_contravar; lra).
  assert (A : Rabs (X * e X) <= C0 * / X).
  { assert (HI := Hinf _ V). assert (U := mom0_upper T X ltac:(lra) ltac:(lra)). assert (L := mom0_lower T X ltac:(lra) ltac:(lra)).
    assert (Ex : exp (- (X * T)) <= / X * / T) by (rewrite <- Rinv_mult; apply exp_inv; nra).
    unfold e, yq. replace (X * (q (X * X) / X - mom 0 T X)) with ((q (X * X) - 1) + (1 - X * mom 0 T X)) by (field; lra).
    assert (M1 : X * mom 0 T X <= 1) by (apply Rle_trans with (X * / X); [apply Rmult_le_compat_l; lra|rewrite Rinv_r; lra]).
    assert (M2 : 1 - / X * / T - / X <= X * mom 0 T X).
    { apply Rle_trans with (X * ((1 - exp (- (X * T))) / X - / (X * X))); [|apply Rmult_le_compat_l; lra].
      replace (X * ((1 - exp (- (X * T))) / X - / (X * X))) with (1 - exp (- (X * T)) - / X) by (field; lra). lra. }
    eapply Rle_trans; [apply Rabs_triang|]. unfold Rdiv in HI. rewrite IV in HI. unfold C0.
    rewrite (Rabs_pos_eq (1 - _)) by lra. nra. }
  assert (B : Rabs (X * e1 X) <= C0 * / X).
  { assert (HI := Hinf1 _ V). assert (M := mom1_bounds T X ltac:(lra) ltac:(lra)).
    unfold e1, yq1. rewrite Rabs_mult, (Rabs_pos_eq X) by lra.
    apply Rle_trans with (X * (3 / (X * X))).
    - apply Rmult_le_compat_l; [lra|]. eapply Rle_trans; [apply Rabs_triang|].
      rewrite (Rabs_pos_eq (mom 1 T X)) by lra. unfold Rdiv in *. lra.
    - replace (X * (3 / (X * X))) with (3 * / X) by (field; lra). unfold C0. nra. }
  unfold W. replace (X * X * (e1 X * e1 X + e X * e X)) with ((X * e1 X) ^ 2 + (X * e X) ^ 2) by ring.
  rewrite <- (pow2_abs (X * e1 X)), <- (pow2_abs (X * e X)). unfold Rdiv.
  assert (P1 := Rabs_pos (X * e X)). assert (P2 := Rabs_pos (X * e1 X)).
  set (a1 := Rabs (X * e X)) in *. set (a2 := Rabs (X * e1 X)) in *. set (C1 := C0 * / X) in *.
  clearbody a1 a2 C1. nra.
Qed.

Lemma W_bound x : 3 <= x -> sqrt (W x) <= beta x.
Proof.
  intros Hx. apply Rnot_lt_le. intros N.
  set (gap := sqrt (W x) - beta x) in *.
  assert (G : 0 < gap) by (unfold gap; lra).
  assert (PC : 0 < C0) by (unfold C0; assert (0 < / T) by (apply Rinv_0_lt_compat; lra); lra).
  set (X := x + 2 * C0 / gap).
  assert (Hq : 0 < 2 * C0 / gap) by (apply Rdiv_lt_0_compat; lra).
  assert (HX : x <= X) by (unfold X; lra).
  set (d := (C0 / X) ^ 2).
  assert (iX : 0 < C0 / X) by (apply Rdiv_lt_0_compat; unfold X; lra).
  assert (Hd : 0 < d) by (unfold d; apply pow_lt; exact iX).
  assert (M := phi_mono d x X Hd Hx HX).
  assert (F := W_far X ltac:(lra)).
  assert (L1 : sqrt (W x) <= sqrt (W x + d)) by (apply sqrt_le_1_alt; lra).
  assert (L2 : sqrt (W X + d) <= 2 * (C0 / X)).
  { rewrite <- (sqrt_Rsqr (2 * (C0 / X))) by lra. apply sqrt_le_1_alt. unfold Rsqr, d in *. nra. }
  assert (Bp : 0 <= beta X).
  { unfold beta. apply Rplus_le_le_0_compat.
    - apply Rmult_le_pos; [exact Hc|left; apply Rinv_0_lt_compat; lra].
    - left. apply Rmult_lt_0_compat; [apply exp_pos|]. apply Rdiv_lt_0_compat; [apply s1_sqrt|exact HT]. }
  assert (L3 : 2 * (C0 / X) < gap).
  { apply (Rmult_lt_reg_r X); [lra|]. replace (2 * (C0 / X) * X) with (2 * C0) by (field; lra).
    unfold X. rewrite Rmult_plus_distr_l. replace (gap * (2 * C0 / gap)) with (2 * C0) by (field; lra). nra. }
  unfold gap in *. lra.
Qed.

Lemma energy x : 3 <= x ->
  Rabs (q (x * x) / x - mom 0 T x) <= (c / x + exp (- (x * T)) * (sqrt (1 + T * T) / T)) / x /\
  Rabs (2 * q1 (x * x) - q (x * x) / (x * x) + mom 1 T x) <= (c / x + exp (- (x * T)) * (sqrt (1 + T * T) / T)) / x.
Proof.
  intros Hx. assert (B := W_bound x Hx). fold (beta x).
  assert (K : forall z, x * x * (z * z) <= W x -> Rabs z <= beta x / x).
  { intros z Hz. apply (Rmult_le_reg_r x); [lra|].
    replace (beta x / x * x) with (beta x) by (field; lra).
    apply Rle_trans with (sqrt (W x)); [|exact B].
    rewrite <- (Rabs_pos_eq x) at 1 by lra. rewrite <- Rabs_mult, <- sqrt_Rsqr_abs. apply sqrt_le_1_alt. unfold Rsqr. lra. }
  assert (0 <= x * x) by apply Rle_0_sqr.
  split; [apply (K (e x))|apply (K (e1 x))]; unfold W;
    assert (0 <= e1 x * e1 x) by apply Rle_0_sqr; assert (0 <= e x * e x) by apply Rle_0_sqr; nra.
Qed.
End Energy.
