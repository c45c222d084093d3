(** Struve functions, Bessel functions of the second kind, and the Laplace
    transform: H = Y + K for orders 0 and 1. *)
From Coq Require Import ZArith Reals Lra Lia Bool List.
From Coquelicot Require Import Coquelicot.
From Verif Require Import Outcome Num NumFun M_Special S_Special S_Struve L_Bessel L_Expint L_StruveK.
Open Scope R_scope.

Lemma minusR (a b : R) : minus a b = a - b.
Proof. reflexivity. Qed.
Lemma RI_chasles (f : R -> R) a b c : ex_RInt f a b -> ex_RInt f b c -> RInt f a c = RInt f a b + RInt f b c.
Proof. intros H H'. symmetry. exact (RInt_Chasles f a b c H H'). Qed.
Lemma RI_lin (f : R -> R) u v a b : ex_RInt f (u * a + v) (u * b + v) ->
  RInt f (u * a + v) (u * b + v) = RInt (fun y => u * f (u * y + v)) a b.
Proof. intros H. symmetry. exact (RInt_comp_lin f u v a b H). Qed.
Lemma RI_swap (f : R -> R) a b : ex_RInt f b a -> RInt f a b = - RInt f b a.
Proof. intros H. symmetry. exact (opp_RInt_swap f b a H). Qed.

Lemma lim_close (f : R -> R) (l a b k : R) : is_lim f p_infty l ->
  (forall T, 1 <= T -> Rabs (a - f T) <= b + k / T) -> Rabs (a - l) <= b.
Proof.
  intros HL H. apply Rnot_lt_le. intros N.
  set (d := (Rabs (a - l) - b) / 2). assert (Hd : 0 < d) by (unfold d; lra).
  apply is_lim_spec in HL. destruct (HL (mkposreal d Hd)) as [M HM]. cbn in HM.
  set (T := Rmax 1 (M + 1) + Rabs k / d).
  assert (P : 0 <= Rabs k / d) by (apply Rmult_le_pos; [apply Rabs_pos|left; apply Rinv_0_lt_compat; exact Hd]).
  assert (T1 : 1 <= T) by (unfold T; assert (Q := Rmax_l 1 (M + 1)); lra).
  assert (TM : M < T) by (unfold T; assert (Q := Rmax_r 1 (M + 1)); lra).
  assert (HM' := HM T TM). assert (H' := H T T1).
  assert (KT : k / T < d).
  { apply (Rmult_lt_reg_r T); [lra|]. replace (k / T * T) with k by (field; lra).
    assert (E : Rabs k = d * (Rabs k / d)) by (field; lra).
    apply Rle_lt_trans with (Rabs k); [apply Rle_abs|]. rewrite E. apply Rmult_lt_compat_l; [exact Hd|].
    unfold T. assert (Q := Rmax_l 1 (M + 1)). lra. }
  assert (Tr : Rabs (a - l) <= Rabs (a - f T) + Rabs (f T - l)).
  { replace (a - l) with ((a - f T) + (f T - l)) by ring. apply Rabs_triang. }
  unfold d in *. lra.
Qed.

(** ** The transform over the half line *)
Lemma mom_mono k x a b : 0 <= a -> a <= b -> mom k a x <= mom k b x.
Proof.
  intros Ha Hb. unfold mom.
  rewrite (RI_chasles (fun t => t ^ k * lk x t) 0 a b) by apply lk_int.
  assert (0 <= RInt (fun t => t ^ k * lk x t) a b); [|lra].
  apply RInt_ge_0; [exact Hb|apply lk_int|]. intros t Ht.
  apply Rmult_le_pos; [apply pow_le; lra|left; apply lk_pos].
Qed.
Definition KL (k : nat) (x : R) : R := real (Lim (fun T => mom k T x) p_infty).
Lemma mom0_lim x : 0 < x -> is_lim (fun T => mom 0 T x) p_infty (KL 0 x).
Proof.
  intros Hx. destruct (incr_lim (fun T => mom 0 T x) 0 (/ x)) as [l L].
  - intros a b. apply mom_mono.
  - intros T HT. apply mom0_upper; assumption.
  - unfold KL. rewrite (is_lim_unique _ _ _ L). exact L.
Qed.
Lemma mom1_lim x : 0 < x -> is_lim (fun T => mom 1 T x) p_infty (KL 1 x).
Proof.
  intros Hx. destruct (incr_lim (fun T => mom 1 T x) 0 (/ (x * x))) as [l L].
  - intros a b. apply mom_mono.
  - intros T HT. apply mom1_bounds; assumption.
  - unfold KL. rewrite (is_lim_unique _ _ _ L). exact L.
Qed.

Lemma cosh_sqrt t : sqrt (1 + sinh t * sinh t) = cosh t.
Proof.
  assert (P : 0 < cosh t) by (unfold cosh; assert (A := exp_pos t); assert (B := exp_pos (- t)); lra).
  rewrite <- (sqrt_Rsqr (cosh t)) by lra. f_equal. unfold Rsqr, cosh, sinh.
  assert (E : exp t * exp (- t) = 1) by (rewrite <- exp_plus, Rplus_opp_r; apply exp_0). nra.
Qed.
Lemma sinh_sub k x X : RInt (fun t => sinh t ^ k * exp (- (x * sinh t))) 0 X = mom k (sinh X) x.
Proof.
  assert (Z : sinh 0 = 0) by (unfold sinh; rewrite Ropp_0; lra).
  assert (H := is_RInt_comp (V := R_CompleteNormedModule) (fun s => s ^ k * lk x s) sinh cosh 0 X).
  rewrite Z in H. unfold mom.
  assert (P : forall t, 0 < cosh t) by (intros t; unfold cosh; assert (A := exp_pos t); assert (B := exp_pos (- t)); lra).
  apply is_RInt_unique. eapply is_RInt_ext; [|apply H].
  - intros t _. unfold scal; cbn. unfold mult; cbn. unfold lk, g. rewrite cosh_sqrt.
    specialize (P t). rq. field. lra.
  - intros t _. apply (ex_derive_continuous (K := R_AbsRing) (V := R_NormedModule)). apply lk_d.
  - intros t _. split.
    + unfold sinh, cosh. auto_derive; [exact I|]. lra.
    + apply (ex_derive_continuous (K := R_AbsRing) (V := R_NormedModule)). unfold cosh. auto_derive. exact I.
Qed.
Lemma sinh_lim : is_lim sinh p_infty p_infty.
Proof.
  apply is_lim_spec. intros M. exists (Rmax 1 (2 * M)). intros x Hx.
  assert (x > 1) by (assert (Q := Rmax_l 1 (2 * M)); lra). assert (x > 2 * M) by (assert (Q := Rmax_r 1 (2 * M)); lra).
  unfold sinh. assert (E := exp_ineq1 x ltac:(lra)).
  assert (exp (- x) < 1) by (rewrite <- exp_0; apply exp_increasing; lra). lra.
Qed.
Lemma sinh_int_lim k x l : is_lim (fun T => mom k T x) p_infty (Finite l) ->
  is_lim (fun X => RInt (fun t => sinh t ^ k * exp (- (x * sinh t))) 0 X) p_infty l.
Proof.
  intros L. apply (is_lim_ext (fun X => mom k (sinh X) x)).
  - intros X. symmetry. apply sinh_sub.
  - apply (is_lim_comp (fun T => mom k T x) sinh p_infty l p_infty); [exact L|apply sinh_lim|].
    exists 0. intros y _. discriminate.
Qed.

(** ** Integrals over a half period *)
Lemma sub_cos (F : R -> R) : (forall s, continuous F s) ->
  RInt (fun t => F (sin t)) 0 PI = 2 * RInt (fun t => F (cos t)) 0 (PI / 2).
Proof.
  intros C.
  assert (Cs : forall t, continuous (fun t => F (sin t)) t).
  { intros t. apply (continuous_comp sin F); [apply continuous_sin|apply C]. }
  assert (I : forall a b, ex_RInt (fun t => F (sin t)) a b) by (intros; apply cont_ex_RInt; exact Cs).
  rewrite (RI_chasles (fun t => F (sin t)) 0 (PI / 2) PI) by apply I.
  assert (A := RI_lin (fun t => F (sin t)) (-1) (PI / 2) (PI / 2) 0 (I _ _)).
  assert (B := RI_lin (fun t => F (sin t)) 1 (PI / 2) 0 (PI / 2) (I _ _)).
  replace (-1 * (PI / 2) + PI / 2) with 0 in A by field. replace (-1 * 0 + PI / 2) with (PI / 2) in A by field.
  replace (1 * 0 + PI / 2) with (PI / 2) in B by field. replace (1 * (PI / 2) + PI / 2) with PI in B by field.
  assert (J : ex_RInt (fun t => F (sin (-1 * t + PI / 2))) 0 (PI / 2)).
  { apply cont_ex_RInt. intros t.
    apply (continuous_comp (fun t => -1 * t + PI / 2) (fun t => F (sin t))); [|apply Cs].
    apply (ex_derive_continuous (K := R_AbsRing) (V := R_NormedModule)). auto_derive. exact Logic.I. }
  rewrite A, B, RI_swap by (apply (ex_scal (fun t => F (sin (-1 * t + PI / 2)))), J).
  rewrite (RI_scal (fun t => F (sin (-1 * t + PI / 2)))) by exact J.
  rewrite (RI_ext (fun t => F (sin (-1 * t + PI / 2))) (fun t => F (cos t))).
  2:{ intros t. replace (-1 * t + PI / 2) with (PI / 2 - t) by ring. rewrite sin_shift. reflexivity. }
  rewrite (RI_ext (fun t => 1 * F (sin (1 * t + PI / 2))) (fun t => F (cos t))).
  2:{ intros t. replace (1 * t + PI / 2) with (PI / 2 + t) by ring. rewrite <- cos_sin. ring. }
  rq. ring.
Qed.

Definition cc (x : R) : R := RInt (fun t => cos (x * cos t) * cos t) 0 (PI / 2).
Definition ss (x : R) : R := RInt (fun t => sin (x * cos t) * sin t ^ 2) 0 (PI / 2).
Ltac dcont := apply (ex_derive_continuous (K := R_AbsRing) (V := R_NormedModule)); auto_derive; exact Logic.I.
Lemma ex_cc x a b : ex_RInt (fun t => cos (x * cos t) * cos t) a b.
Proof. apply cont_ex_RInt. intros t. dcont. Qed.
Lemma ex_ss x a b : ex_RInt (fun t => sin (x * cos t) * sin t ^ 2) a b.
Proof. apply cont_ex_RInt. intros t. dcont. Qed.
Lemma cc_ss x : cc x = 1 - x * ss x.
Proof.
  assert (D : is_RInt (fun t => cos (x * cos t) * cos t + x * (sin (x * cos t) * sin t ^ 2)) 0 (PI / 2)
     (minus (sin (PI / 2) * cos (x * cos (PI / 2))) (sin 0 * cos (x * cos 0)))).
  { apply (is_RInt_derive (fun t => sin t * cos (x * cos t))).
    - intros t _. auto_derive; [exact I|]. ring.
    - intros t _. dcont. }
  apply (is_RInt_unique (V := R_CompleteNormedModule)) in D.
  rewrite RI_plus in D; [|apply ex_cc|apply ex_scal, ex_ss]. rewrite RI_scal in D by apply ex_ss.
  fold (cc x) (ss x) in D. rewrite sin_PI2, cos_PI2, sin_0, Rmult_0_r, cos_0 in D.
  rewrite minusR in D. lra.
Qed.
Lemma H1_ss x : StruveH1 x = 2 / PI - 2 / PI * cc x.
Proof. unfold StruveH1. fold (ss x). rewrite cc_ss. assert (P := PI_RGT_0). field. lra. Qed.

Lemma H0_derive x : is_derive StruveH0 x (2 / PI - StruveH1 x).
Proof.
  rewrite H1_ss. replace (2 / PI - (2 / PI - 2 / PI * cc x)) with (2 / PI * cc x) by ring.
  apply (is_derive_ext (fun u => scal (2 / PI) (RInt (fun t => sin (u * cos t)) 0 (PI / 2)))); [reflexivity|].
  apply (is_derive_scal (fun u => RInt (fun t => sin (u * cos t)) 0 (PI / 2)) x (2 / PI)).
  apply (derive_under (fun u t => sin (u * cos t)) (fun u t => cos (u * cos t) * cos t)).
  - intros u t. auto_derive; [exact I|ring].
  - intros t. assert (C : continuity_2d_pt (fun _ v => cos v) x t).
    { apply (continuity_1d_2d_pt_comp cos (fun u v => v)); [apply continuity_cos|apply c2_snd]. }
    apply continuity_2d_pt_mult; [|exact C].
    apply (continuity_1d_2d_pt_comp cos (fun u v => u * cos v)); [apply continuity_cos|].
    apply continuity_2d_pt_mult; [apply c2_fst|exact C].
  - intros u. apply cont_ex_RInt. intros t. dcont.
Qed.

(** ** H = Y + K *)
Lemma H0_Y x : 0 < x -> StruveH0 x = BesselY 0 x + 2 / PI * KL 0 x.
Proof.
  intros Hx. unfold BesselY, StruveH0.
  rewrite (RI_ext (fun t => sin (x * sin t - 0 * t)) (fun t => sin (x * sin t))) by (intros; f_equal; ring).
  rewrite (sub_cos (fun s => sin (x * s))) by (intros; dcont).
  assert (L : is_lim (fun X => RInt (fun t => (exp (0 * t) + exp (- (0 * t)) * cos (0 * PI)) * exp (- (x * sinh t))) 0 X) p_infty (2 * KL 0 x)).
  { apply (is_lim_ext (fun X => 2 * RInt (fun t => sinh t ^ 0 * exp (- (x * sinh t))) 0 X)).
    - intros X. rewrite <- RI_scal.
      + apply RI_ext. intros t. rewrite !Rmult_0_l, Ropp_0, exp_0, cos_0. ring.
      + apply cont_ex_RInt. intros t. unfold sinh. dcont.
    - apply (is_lim_scal_l _ 2 p_infty (KL 0 x)). apply sinh_int_lim, mom0_lim, Hx. }
  rewrite (is_lim_unique _ _ _ L). cbn [real]. assert (P := PI_RGT_0). field. lra.
Qed.
Lemma H1_Y x : 0 < x -> StruveH1 x = BesselY 1 x + 2 / PI * (1 + KL 1 x).
Proof.
  intros Hx. rewrite H1_ss. unfold BesselY.
  assert (E : RInt (fun t => sin (x * sin t - 1 * t)) 0 PI = - (2 * cc x)).
  { rewrite (RI_ext _ (fun t => sin (x * sin t) * cos t - cos (x * sin t) * sin t)).
    2:{ intros t. rewrite Rmult_1_l, sin_minus. reflexivity. }
    rewrite RI_minus; [|apply cont_ex_RInt; intros; dcont|apply cont_ex_RInt; intros; dcont].
    rewrite (sub_cos (fun s => cos (x * s) * s)) by (intros; dcont). fold (cc x).
    assert (Z : is_RInt (fun t => sin (x * sin t) * cos t) 0 PI (minus (- (cos (x * sin PI) / x)) (- (cos (x * sin 0) / x)))).
    { apply (is_RInt_derive (fun t => - (cos (x * sin t) / x))).
      - intros t _. auto_derive; [exact I|]. field. lra.
      - intros t _. dcont. }
    apply (is_RInt_unique (V := R_CompleteNormedModule)) in Z. rewrite Z, sin_PI, sin_0.
    rewrite (minusR (- (cos (x * 0) / x))). rq. ring. }
  rewrite E.
  assert (L : is_lim (fun X => RInt (fun t => (exp (1 * t) + exp (- (1 * t)) * cos (1 * PI)) * exp (- (x * sinh t))) 0 X) p_infty (2 * KL 1 x)).
  { apply (is_lim_ext (fun X => 2 * RInt (fun t => sinh t ^ 1 * exp (- (x * sinh t))) 0 X)).
    - intros X. rewrite <- RI_scal.
      + apply RI_ext. intros t. rewrite !Rmult_1_l, cos_PI. unfold sinh. lra.
      + apply cont_ex_RInt. intros t. unfold sinh. dcont.
    - apply (is_lim_scal_l _ 2 p_infty (KL 1 x)). apply sinh_int_lim, mom1_lim, Hx. }
  rewrite (is_lim_unique _ _ _ L). cbn [real]. assert (P := PI_RGT_0). field. lra.
Qed.
