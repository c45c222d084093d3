(** Bessel functions: the derivative wrappers, and Bessel's integrals. *)
From Coq Require Import ZArith Reals Lra Lia Bool List.
From Coquelicot Require Import Coquelicot.
From Verif Require Import Outcome Num NumFun M_Special S_Special.

(** ** Differentiation under the integral sign *)
Lemma derive_under (f g : R -> R -> R) a b x :
  (forall u t, is_derive (fun v => f v t) u (g u t)) ->
  (forall t, continuity_2d_pt g x t) ->
  (forall u, ex_RInt (f u) a b) ->
  is_derive (fun u => RInt (f u) a b) x (RInt (g x) a b).
Proof.
  intros D C I.
  replace (RInt (g x) a b) with (RInt (fun t => Derive (fun u => f u t) x) a b).
  - apply (is_derive_RInt_param f a b x).
    + exists (mkposreal 1 Rlt_0_1). intros y _ t _. eexists. apply D.
    + intros t _. apply continuity_2d_pt_ext with (f := g); [|apply C].
      intros u v. symmetry. apply is_derive_unique, D.
    + exists (mkposreal 1 Rlt_0_1). intros y _. apply I.
  - apply RInt_ext. intros t _. apply is_derive_unique, D.
Qed.

Lemma c2_fst x t : continuity_2d_pt (fun u v => u) x t.
Proof. apply continuity_2d_pt_id1. Qed.
Lemma c2_snd x t : continuity_2d_pt (fun u v => v) x t.
Proof. apply continuity_2d_pt_id2. Qed.

(** Linearity of the integral, for real functions. *)
Lemma RI_ext (f g : R -> R) a b : (forall t, f t = g t) -> RInt f a b = RInt g a b.
Proof. intros H. apply RInt_ext. intros; apply H. Qed.
Lemma RI_scal (f : R -> R) a b k : ex_RInt f a b -> RInt (fun t => k * f t) a b = k * RInt f a b.
Proof. intros H. exact (RInt_scal f a b k H). Qed.
Lemma RI_plus (f g : R -> R) a b : ex_RInt f a b -> ex_RInt g a b ->
  RInt (fun t => f t + g t) a b = RInt f a b + RInt g a b.
Proof. intros H H'. exact (RInt_plus f g a b H H'). Qed.
Lemma RI_minus (f g : R -> R) a b : ex_RInt f a b -> ex_RInt g a b ->
  RInt (fun t => f t - g t) a b = RInt f a b - RInt g a b.
Proof. intros H H'. exact (RInt_minus f g a b H H'). Qed.
Lemma RI_opp (f : R -> R) a b : ex_RInt f a b -> RInt (fun t => - f t) a b = - RInt f a b.
Proof. intros H. exact (RInt_opp f a b H). Qed.
Lemma ex_scal (f : R -> R) a b k : ex_RInt f a b -> ex_RInt (fun t => k * f t) a b.
Proof. intros H. exact (ex_RInt_scal f a b k H). Qed.
Lemma ex_minus (f g : R -> R) a b : ex_RInt f a b -> ex_RInt g a b -> ex_RInt (fun t => f t - g t) a b.
Proof. intros H H'. exact (ex_RInt_minus f g a b H H'). Qed.

Definition phase (n x t : R) := n * t - x * sin t.
Lemma c2_phase n x t : continuity_2d_pt (phase n) x t.
Proof.
  unfold phase. apply continuity_2d_pt_minus.
  - apply continuity_2d_pt_mult; [apply continuity_2d_pt_const|apply c2_snd].
  - apply continuity_2d_pt_mult; [apply c2_fst|].
    apply (continuity_1d_2d_pt_comp sin (fun u v => v)); [apply continuity_sin|apply c2_snd].
Qed.

Lemma cont_ex_RInt (f : R -> R) a b : (forall t, continuous f t) -> ex_RInt f a b.
Proof. intros H. apply (ex_RInt_continuous (V := R_CompleteNormedModule)). intros; apply H. Qed.

Lemma phase_cont n x t : continuous (phase n x) t.
Proof.
  apply (ex_derive_continuous (K := R_AbsRing) (V := R_NormedModule)).
  unfold phase. auto_derive. exact I.
Qed.
Lemma cosphase_cont n x t : continuous (fun t => cos (phase n x t)) t.
Proof. apply (continuous_comp (phase n x) cos); [apply phase_cont|apply continuous_cos]. Qed.

Lemma ex_cosphase n x a b : ex_RInt (fun t => cos (phase n x t)) a b.
Proof. apply cont_ex_RInt; intros; apply cosphase_cont. Qed.

Lemma BesselJ_phase n x : BesselJ n x = / PI * RInt (fun t => cos (phase n x t)) 0 PI.
Proof. reflexivity. Qed.

Lemma J_derive n x : is_derive (BesselJ n) x ((BesselJ (n - 1) x - BesselJ (n + 1) x) / 2).
Proof.
  set (g := fun x t => (cos (phase (n - 1) x t) - cos (phase (n + 1) x t)) / 2).
  assert (D : is_derive (fun u => RInt (fun t => cos (phase n u t)) 0 PI) x (RInt (g x) 0 PI)).
  { apply (derive_under (fun u t => cos (phase n u t)) g).
    - intros u t. unfold g, phase.
      replace ((cos ((n - 1) * t - u * sin t) - cos ((n + 1) * t - u * sin t)) / 2)
        with (sin t * sin (n * t - u * sin t)).
      + auto_derive; [exact I|]. unfold Rminus. ring.
      + replace ((n - 1) * t - u * sin t) with ((n * t - u * sin t) - t) by ring.
        replace ((n + 1) * t - u * sin t) with ((n * t - u * sin t) + t) by ring.
        rewrite cos_minus, cos_plus. lra.
    - intros t. unfold g. unfold Rdiv. apply continuity_2d_pt_mult; [|apply continuity_2d_pt_const].
      apply continuity_2d_pt_minus;
        apply (continuity_1d_2d_pt_comp cos); try apply continuity_cos; apply c2_phase.
    - intros u. apply cont_ex_RInt. intros t. apply cosphase_cont. }
  assert (V : (BesselJ (n - 1) x - BesselJ (n + 1) x) / 2 = / PI * RInt (g x) 0 PI).
  { rewrite !BesselJ_phase. unfold g, Rdiv.
    rewrite (RI_ext (fun t => (cos (phase (n - 1) x t) - cos (phase (n + 1) x t)) * / 2)
      (fun t => / 2 * (cos (phase (n - 1) x t) - cos (phase (n + 1) x t)))) by (intros; ring).
    rewrite (RI_scal (fun t => cos (phase (n - 1) x t) - cos (phase (n + 1) x t))).
    - rewrite (RI_minus (fun t => cos (phase (n - 1) x t)) (fun t => cos (phase (n + 1) x t))) by apply ex_cosphase.
      ring.
    - apply (ex_minus (fun t => cos (phase (n - 1) x t)) (fun t => cos (phase (n + 1) x t))); apply ex_cosphase. }
  rewrite V.
  apply (is_derive_ext (fun u => scal (/ PI) (RInt (fun t => cos (phase n u t)) 0 PI))).
  { intros t. reflexivity. }
  apply (is_derive_scal (fun u => RInt (fun t => cos (phase n u t)) 0 PI) x (/ PI) (RInt (g x) 0 PI)) in D.
  exact D.
Qed.

Lemma sin_Zpi n : sin (IZR n * PI) = 0.
Proof. apply sin_eq_0_1. exists n. reflexivity. Qed.

Lemma J_recurrence (n : Z) x : x <> 0 ->
  BesselJ (IZR n - 1) x + BesselJ (IZR n + 1) x = 2 * IZR n / x * BesselJ (IZR n) x.
Proof.
  intros Hx. rewrite !BesselJ_phase. set (m := IZR n).
  assert (Z : RInt (fun t => (m - x * cos t) * cos (phase m x t)) 0 PI = 0).
  { assert (S : is_RInt (fun t => (m - x * cos t) * cos (phase m x t)) 0 PI (minus (sin (phase m x PI)) (sin (phase m x 0)))).
    { apply (is_RInt_derive (fun t => sin (phase m x t)) (fun t => (m - x * cos t) * cos (phase m x t))).
      - intros t _. unfold phase. auto_derive; [exact I|unfold Rminus; ring].
      - intros t _. apply (continuous_mult (K := R_AbsRing) (fun t => m - x * cos t) (fun t => cos (phase m x t))).
        + apply (ex_derive_continuous (K := R_AbsRing) (V := R_NormedModule)). auto_derive. exact I.
        + apply cosphase_cont. }
    apply (is_RInt_unique (V := R_CompleteNormedModule)) in S. rewrite S. unfold phase.
    rewrite sin_PI, sin_0, !Rmult_0_r, !Rminus_0_r, sin_0. unfold m. rewrite sin_Zpi.
    unfold minus, plus, opp; simpl. ring. }
  assert (E : RInt (fun t => cos (phase (m - 1) x t)) 0 PI + RInt (fun t => cos (phase (m + 1) x t)) 0 PI
              = 2 * RInt (fun t => cos t * cos (phase m x t)) 0 PI).
  { rewrite <- (RI_plus (fun t => cos (phase (m - 1) x t)) (fun t => cos (phase (m + 1) x t))) by apply ex_cosphase.
    rewrite <- (RI_scal (fun t => cos t * cos (phase m x t))).
    - apply RI_ext. intros t. unfold phase.
      replace ((m - 1) * t - x * sin t) with ((m * t - x * sin t) - t) by ring.
      replace ((m + 1) * t - x * sin t) with ((m * t - x * sin t) + t) by ring.
      rewrite cos_minus, cos_plus. ring.
    - apply cont_ex_RInt. intros t. apply (continuous_mult (K := R_AbsRing) cos (fun t => cos (phase m x t))); [apply continuous_cos|apply cosphase_cont]. }
  assert (W : m * RInt (fun t => cos (phase m x t)) 0 PI = x * RInt (fun t => cos t * cos (phase m x t)) 0 PI).
  { assert (X : RInt (fun t => (m - x * cos t) * cos (phase m x t)) 0 PI
      = m * RInt (fun t => cos (phase m x t)) 0 PI - x * RInt (fun t => cos t * cos (phase m x t)) 0 PI).
    { rewrite (RI_ext _ (fun t => m * cos (phase m x t) - x * (cos t * cos (phase m x t)))) by (intros; ring).
      assert (C2 : ex_RInt (fun t => cos t * cos (phase m x t)) 0 PI).
      { apply cont_ex_RInt. intros t. apply (continuous_mult (K := R_AbsRing) cos (fun t => cos (phase m x t))); [apply continuous_cos|apply cosphase_cont]. }
      rewrite (RI_minus (fun t => m * cos (phase m x t)) (fun t => x * (cos t * cos (phase m x t)))).
      - rewrite (RI_scal (fun t => cos (phase m x t))) by apply ex_cosphase.
        rewrite (RI_scal (fun t => cos t * cos (phase m x t))) by exact C2. reflexivity.
      - apply (ex_scal (fun t => cos (phase m x t))), ex_cosphase.
      - apply (ex_scal (fun t => cos t * cos (phase m x t))), C2. }
    rewrite Z in X. lra. }
  rewrite <- Rmult_plus_distr_l, E.
  replace (2 * m / x * (/ PI * RInt (fun t => cos (phase m x t)) 0 PI))
    with (2 / x * / PI * (m * RInt (fun t => cos (phase m x t)) 0 PI)) by (field; split; auto using PI_neq0).
  rewrite W. field. split; auto using PI_neq0.
Qed.

(** Reflection t -> PI - t. *)
Lemma RI_reflect (f : R -> R) : (forall t, continuous f t) -> RInt (fun t => f (PI - t)) 0 PI = RInt f 0 PI.
Proof.
  intros C.
  assert (H := RInt_comp_lin (V := R_CompleteNormedModule) f (-1) PI 0 PI).
  replace (-1 * 0 + PI) with PI in H by ring. replace (-1 * PI + PI) with 0 in H by ring.
  specialize (H (cont_ex_RInt f PI 0 C)).
  assert (S := opp_RInt_swap f 0 PI (cont_ex_RInt f 0 PI C)).
  assert (E : @eq R (RInt (fun t => -1 * f (-1 * t + PI)) 0 PI) (- RInt (fun t => f (PI - t)) 0 PI)).
  { rewrite (RI_scal (fun t => f (-1 * t + PI))).
    - rewrite (RI_ext (fun t => f (-1 * t + PI)) (fun t => f (PI - t))).
      + ring.
      + intros t. f_equal. ring.
    - apply cont_ex_RInt. intros t. apply (continuous_comp (fun y => -1 * y + PI) f); [|apply C].
      apply (ex_derive_continuous (K := R_AbsRing) (V := R_NormedModule)). auto_derive. exact I. }
  change (RInt (fun t => -1 * f (-1 * t + PI)) 0 PI = RInt f PI 0) in H.
  change (- RInt f 0 PI = RInt f PI 0) in S.
  rewrite E, <- S in H. lra.
Qed.

Lemma J_minus_one x : BesselJ (-1) x = - BesselJ 1 x.
Proof.
  rewrite !BesselJ_phase.
  rewrite <- (RI_reflect (fun t => cos (phase (-1) x t))) by (intros; apply cosphase_cont).
  rewrite (RI_ext (fun t => cos (phase (-1) x (PI - t))) (fun t => - cos (phase 1 x t))).
  - rewrite (RI_opp (fun t => cos (phase 1 x t))) by apply ex_cosphase. ring.
  - intros t. unfold phase. rewrite sin_PI_x.
    replace (-1 * (PI - t) - x * sin t) with ((1 * t - x * sin t) - PI) by ring.
    rewrite cos_minus, cos_PI, sin_PI. ring.
Qed.

Lemma BesselJ_relations (n : Z) x : x <> 0 -> bessel_relations BesselJ (IZR n) x.
Proof.
  intros Hx. split; [apply J_recurrence, Hx|]. split; [apply J_derive|apply J_minus_one].
Qed.

(** ** Modified functions *)
Definition ker (x t : R) := exp (x * cos t).
Lemma c2_ker x t : continuity_2d_pt ker x t.
Proof.
  unfold ker. apply (continuity_1d_2d_pt_comp exp (fun u v => u * cos v)).
  - apply derivable_continuous_pt, derivable_pt_exp.
  - apply continuity_2d_pt_mult; [apply c2_fst|].
    apply (continuity_1d_2d_pt_comp cos (fun u v => v)); [apply continuity_cos|apply c2_snd].
Qed.
Lemma ker_cont x t : continuous (ker x) t.
Proof.
  apply (ex_derive_continuous (K := R_AbsRing) (V := R_NormedModule)). unfold ker. auto_derive. exact I.
Qed.
Lemma kcos_cont n x t : continuous (fun t => ker x t * cos (n * t)) t.
Proof.
  apply (continuous_mult (K := R_AbsRing) (ker x) (fun t => cos (n * t))); [apply ker_cont|].
  apply (ex_derive_continuous (K := R_AbsRing) (V := R_NormedModule)). auto_derive. exact I.
Qed.
Lemma ex_kcos n x a b : ex_RInt (fun t => ker x t * cos (n * t)) a b.
Proof. apply cont_ex_RInt; intros; apply kcos_cont. Qed.

Lemma BesselI_ker n x : BesselI n x = / PI * RInt (fun t => ker x t * cos (n * t)) 0 PI.
Proof. reflexivity. Qed.

Lemma cos_n1 n t : cos ((n - 1) * t) = cos (n * t) * cos t + sin (n * t) * sin t.
Proof. replace ((n - 1) * t) with (n * t - t) by ring. apply cos_minus. Qed.
Lemma cos_p1 n t : cos ((n + 1) * t) = cos (n * t) * cos t - sin (n * t) * sin t.
Proof. replace ((n + 1) * t) with (n * t + t) by ring. apply cos_plus. Qed.

Lemma I_derive n x : is_derive (BesselI n) x ((BesselI (n - 1) x + BesselI (n + 1) x) / 2).
Proof.
  set (g := fun x t => ker x t * cos ((n - 1) * t) * / 2 + ker x t * cos ((n + 1) * t) * / 2).
  assert (D : is_derive (fun u => RInt (fun t => ker u t * cos (n * t)) 0 PI) x (RInt (g x) 0 PI)).
  { apply (derive_under (fun u t => ker u t * cos (n * t)) g).
    - intros u t. unfold g, ker. rewrite cos_n1, cos_p1. auto_derive; [exact I|]. field.
    - intros t. unfold g.
      assert (K : forall k, continuity_2d_pt (fun x t => ker x t * cos (k * t) * / 2) x t).
      { intros k. apply continuity_2d_pt_mult; [|apply continuity_2d_pt_const].
        apply continuity_2d_pt_mult; [apply c2_ker|].
        apply (continuity_1d_2d_pt_comp cos (fun u v => k * v)); [apply continuity_cos|].
        apply continuity_2d_pt_mult; [apply continuity_2d_pt_const|apply c2_snd]. }
      apply continuity_2d_pt_plus; apply K.
    - intros u. apply ex_kcos. }
  assert (V : (BesselI (n - 1) x + BesselI (n + 1) x) / 2 = / PI * RInt (g x) 0 PI).
  { rewrite !BesselI_ker. unfold g, Rdiv.
    rewrite (RI_ext (fun t => ker x t * cos ((n - 1) * t) * / 2 + ker x t * cos ((n + 1) * t) * / 2)
      (fun t => / 2 * (ker x t * cos ((n - 1) * t)) + / 2 * (ker x t * cos ((n + 1) * t)))) by (intros; ring).
    rewrite (RI_plus (fun t => / 2 * (ker x t * cos ((n - 1) * t))) (fun t => / 2 * (ker x t * cos ((n + 1) * t)))).
    - rewrite (RI_scal (fun t => ker x t * cos ((n - 1) * t))) by apply ex_kcos.
      rewrite (RI_scal (fun t => ker x t * cos ((n + 1) * t))) by apply ex_kcos. ring.
    - apply (ex_scal (fun t => ker x t * cos ((n - 1) * t))), ex_kcos.
    - apply (ex_scal (fun t => ker x t * cos ((n + 1) * t))), ex_kcos. }
  rewrite V.
  apply (is_derive_ext (fun u => scal (/ PI) (RInt (fun t => ker u t * cos (n * t)) 0 PI))).
  { intros t. reflexivity. }
  apply (is_derive_scal (fun u => RInt (fun t => ker u t * cos (n * t)) 0 PI) x (/ PI) (RInt (g x) 0 PI)) in D.
  exact D.
Qed.

Lemma I_diff n x : BesselI (n - 1) x - BesselI (n + 1) x = / PI * (2 * RInt (fun t => ker x t * (sin (n * t) * sin t)) 0 PI).
Proof.
  rewrite !BesselI_ker, <- Rmult_minus_distr_l. f_equal.
  rewrite <- (RI_minus (fun t => ker x t * cos ((n - 1) * t)) (fun t => ker x t * cos ((n + 1) * t))) by apply ex_kcos.
  rewrite <- (RI_scal (fun t => ker x t * (sin (n * t) * sin t))).
  - apply RI_ext. intros t. rewrite cos_n1, cos_p1. ring.
  - apply cont_ex_RInt. intros t.
    apply (continuous_mult (K := R_AbsRing) (ker x) (fun t => sin (n * t) * sin t)); [apply ker_cont|].
    apply (ex_derive_continuous (K := R_AbsRing) (V := R_NormedModule)). auto_derive. exact I.
Qed.

Lemma I_recurrence (n : Z) x : x <> 0 ->
  BesselI (IZR n - 1) x - BesselI (IZR n + 1) x = 2 * IZR n / x * BesselI (IZR n) x.
Proof.
  intros Hx. rewrite I_diff, BesselI_ker. set (m := IZR n).
  set (s := fun t => ker x t * (sin (m * t) * sin t)). set (c := fun t => ker x t * cos (m * t)).
  assert (Cs : forall t, continuous s t).
  { intros t. apply (continuous_mult (K := R_AbsRing) (ker x) (fun t => sin (m * t) * sin t)); [apply ker_cont|].
    apply (ex_derive_continuous (K := R_AbsRing) (V := R_NormedModule)). auto_derive. exact I. }
  assert (Z : RInt (fun t => m * c t - x * s t) 0 PI = 0).
  { assert (S : is_RInt (fun t => m * c t - x * s t) 0 PI (minus (ker x PI * sin (m * PI)) (ker x 0 * sin (m * 0)))).
    { apply (is_RInt_derive (fun t => ker x t * sin (m * t)) (fun t => m * c t - x * s t)).
      - intros t _. unfold c, s, ker. auto_derive; [exact I|ring].
      - intros t _. apply (continuous_minus (U := R_UniformSpace) (V := R_NormedModule) (fun t => m * c t) (fun t => x * s t)).
        + apply (continuous_scal_r (V := R_NormedModule) m c). apply kcos_cont.
        + apply (continuous_scal_r (V := R_NormedModule) x s). apply Cs. }
    apply (is_RInt_unique (V := R_CompleteNormedModule)) in S. rewrite S. unfold m. rewrite sin_Zpi, Rmult_0_r, Rmult_0_r, sin_0.
    unfold minus, plus, opp; simpl. ring. }
  rewrite (RI_minus (fun t => m * c t) (fun t => x * s t)) in Z.
  2:{ apply (ex_scal c), ex_kcos. } 2:{ apply (ex_scal s), cont_ex_RInt, Cs. }
  rewrite (RI_scal c) in Z by apply ex_kcos. rewrite (RI_scal s) in Z by (apply cont_ex_RInt, Cs).
  replace (2 * m / x * (/ PI * RInt c 0 PI)) with (2 / x * / PI * (m * RInt c 0 PI)) by (field; split; auto using PI_neq0).
  replace (m * RInt c 0 PI) with (x * RInt s 0 PI) by lra.
  field. split; auto using PI_neq0.
Qed.

Lemma I_minus_one x : BesselI (-1) x = BesselI 1 x.
Proof.
  rewrite !BesselI_ker. f_equal. apply RI_ext. intros t. f_equal.
  replace (-1 * t) with (- (1 * t)) by ring. apply cos_neg.
Qed.

Lemma BesselI_relations (n : Z) x : x <> 0 -> modified_i_relations BesselI (IZR n) x.
Proof.
  intros Hx. split; [apply I_recurrence, Hx|]. split; [apply I_derive|apply I_minus_one].
Qed.

Lemma BesselI_1_pos x : 0 < x -> 0 < BesselI 1 x.
Proof.
  intros Hx. assert (E := I_recurrence 1 x ltac:(lra)). rewrite I_diff in E.
  assert (P : 0 < RInt (fun t => ker x t * (sin (1 * t) * sin t)) 0 PI).
  { apply RInt_gt_0; [apply PI_RGT_0| |].
    - intros t [H1 H2]. apply Rmult_lt_0_compat; [apply exp_pos|]. rewrite Rmult_1_l.
      apply Rmult_lt_0_compat; apply sin_gt_0; assumption.
    - intros t _. apply (continuous_mult (K := R_AbsRing) (ker x) (fun t => sin (1 * t) * sin t)); [apply ker_cont|].
      apply (ex_derive_continuous (K := R_AbsRing) (V := R_NormedModule)). auto_derive. exact I. }
  set (r := RInt _ 0 PI) in *.
  assert (Q : BesselI 1 x = x * / PI * r).
  { apply (Rmult_eq_reg_l (2 * 1 / x)); [|apply Rgt_not_eq; unfold Rdiv; apply Rmult_lt_0_compat; [lra|apply Rinv_0_lt_compat; lra]].
    rewrite <- E. field. split; [apply PI_neq0|lra]. }
  rewrite Q. apply Rmult_lt_0_compat; [|exact P].
  apply Rmult_lt_0_compat; [exact Hx|]. apply Rinv_0_lt_compat, PI_RGT_0.
Qed.

(** (-1)^n I_n satisfies the relations of K_n. *)
Definition AltI (n x : R) : R := cos (n * PI) * BesselI n x.
Lemma cosZ n : cos ((IZR n - 1) * PI) = - cos (IZR n * PI) /\ cos ((IZR n + 1) * PI) = - cos (IZR n * PI).
Proof.
  split; [replace ((IZR n - 1) * PI) with (IZR n * PI - PI) by ring; rewrite cos_minus
         |replace ((IZR n + 1) * PI) with (IZR n * PI + PI) by ring; rewrite cos_plus];
    rewrite cos_PI, sin_PI; ring.
Qed.
Lemma AltI_relations (n : Z) x : x <> 0 -> modified_k_relations AltI (IZR n) x.
Proof.
  intros Hx. destruct (BesselI_relations n x Hx) as [R1 [R2 R3]]. destruct (cosZ n) as [C1 C2].
  unfold AltI. split; [|split].
  - rewrite C1, C2.
    replace (- cos (IZR n * PI) * BesselI (IZR n - 1) x - - cos (IZR n * PI) * BesselI (IZR n + 1) x)
      with (- cos (IZR n * PI) * (BesselI (IZR n - 1) x - BesselI (IZR n + 1) x)) by ring.
    rewrite R1. ring.
  - rewrite C1, C2.
    replace (- ((- cos (IZR n * PI) * BesselI (IZR n - 1) x + - cos (IZR n * PI) * BesselI (IZR n + 1) x) / 2))
      with (cos (IZR n * PI) * ((BesselI (IZR n - 1) x + BesselI (IZR n + 1) x) / 2)) by field.
    apply (is_derive_scal (BesselI (IZR n)) x (cos (IZR n * PI))) in R2. exact R2.
  - rewrite R3. replace (-1 * PI) with (- (1 * PI)) by ring. rewrite cos_neg. reflexivity.
Qed.

(** ** The wrappers *)
Lemma derivative_lemma (F : R -> R -> R) order x : x <> 0 -> bessel_relations F order x ->
  is_derive (F order) x (bessel_derivative (T := R) Ropp F order x).
Proof.
  intros Hx [R1 [R2 R3]].
  replace (bessel_derivative (T := R) Ropp F order x) with ((F (order - 1) x - F (order + 1) x) / 2); [exact R2|].
  unfold bessel_derivative. cbv [neq RNum RNum_at nofZ vsub vmull VNum_self nsub nmul ndiv].
  destruct (Reqb order 0) eqn:E.
  - apply Reqb_true in E. subst order. replace (0 - 1) with (-1) by ring. replace (0 + 1) with 1 by ring. rewrite R3. field.
  - replace (F (order + 1) x) with (2 * order / x * F order x - F (order - 1) x) by lra. field. exact Hx.
Qed.
Lemma i_derivative_lemma (F : R -> R -> R) order x : x <> 0 -> modified_i_relations F order x ->
  is_derive (F order) x (bessel_i_derivative (T := R) F order x).
Proof.
  intros Hx [R1 [R2 R3]].
  replace (bessel_i_derivative (T := R) F order x) with ((F (order - 1) x + F (order + 1) x) / 2); [exact R2|].
  unfold bessel_i_derivative. cbv [neq RNum RNum_at nofZ vsub vmull VNum_self nsub nmul ndiv].
  destruct (Reqb order 0) eqn:E.
  - apply Reqb_true in E. subst order. replace (0 - 1) with (-1) by ring. replace (0 + 1) with 1 by ring. rewrite R3. field.
  - replace (F (order + 1) x) with (F (order - 1) x - 2 * order / x * F order x) by lra. field. exact Hx.
Qed.
Lemma k_derivative_lemma (F : R -> R -> R) order x : x <> 0 -> modified_k_relations F order x ->
  is_derive (F order) x (bessel_k_derivative (T := R) Ropp F order x).
Proof.
  intros Hx [R1 [R2 R3]].
  replace (bessel_k_derivative (T := R) Ropp F order x) with (- ((F (order - 1) x + F (order + 1) x) / 2)); [exact R2|].
  unfold bessel_k_derivative. cbv [neq RNum RNum_at nofZ vsub vmull VNum_self nsub nmul ndiv].
  destruct (Reqb order 0) eqn:E.
  - apply Reqb_true in E. subst order. replace (0 - 1) with (-1) by ring. replace (0 + 1) with 1 by ring. rewrite R3. field.
  - replace (F (order + 1) x) with (F (order - 1) x + 2 * order / x * F order x) by lra. field. exact Hx.
Qed.
(** Hankel: the real and imaginary parts are J and Y. *)
Definition cneg (z : R * R) : R * R := (- fst z, - snd z).
Lemma hankel_lemma (J Y : R -> R -> R) order x : x <> 0 -> bessel_relations J order x -> bessel_relations Y order x ->
  let d := bessel_derivative (T := R) (VT := VNum_complex) cneg (fun o z => (J o z, Y o z)) order x in
  is_derive (J order) x (fst d) /\ is_derive (Y order) x (snd d).
Proof.
  intros Hx HJ HY d.
  assert (E : d = (bessel_derivative (T := R) Ropp J order x, bessel_derivative (T := R) Ropp Y order x)).
  { unfold d, bessel_derivative. destruct (neq order (nofZ 0)); reflexivity. }
  rewrite E. split; apply derivative_lemma; assumption.
Qed.

(** ** Integer arguments *)
Lemma quot_exact order x : x <> 0%Z -> IZR (Z.quot order x) = IZR order / IZR x <-> Z.rem order x = 0%Z.
Proof.
  intros Hx. assert (Hx' : IZR x <> 0) by (apply not_0_IZR; exact Hx).
  assert (Q := Z.quot_rem order x Hx).
  assert (QR : IZR order = IZR x * IZR (Z.quot order x) + IZR (Z.rem order x)).
  { rewrite <- mult_IZR, <- plus_IZR. f_equal. exact Q. }
  split.
  - intros E. apply eq_IZR. rewrite E in QR.
    replace (IZR x * (IZR order / IZR x)) with (IZR order) in QR by (field; exact Hx'). lra.
  - intros E. rewrite E in QR. rewrite QR. field. exact Hx'.
Qed.
Lemma trunc_iff q t f : q * f = t * f <-> q = t \/ f = 0.
Proof.
  split.
  - intros E. destruct (Req_dec f 0) as [Z|N]; [right; exact Z|left]. apply (Rmult_eq_reg_r f); assumption.
  - intros [->| ->]; ring.
Qed.

Section IntArgs.
Variables (F : R -> R -> R) (order x : Z).
Let G := fun o z : Z => F (IZR o) (IZR z).
Lemma int_zero_div : order <> 0%Z ->
  bessel_derivative_int (T := R) G order 0 = UB /\ bessel_i_derivative_int (T := R) G order 0 = UB /\
  bessel_k_derivative_int (T := R) G order 0 = UB.
Proof.
  intros H. apply Z.eqb_neq in H. unfold bessel_derivative_int, bessel_i_derivative_int, bessel_k_derivative_int.
  rewrite H. repeat split.
Qed.
Lemma int_lemma : x <> 0%Z -> order <> 0%Z ->
  (bessel_derivative_int (T := R) G order x = Ok (bessel_derivative (T := R) Ropp F (IZR order) (IZR x))
     <-> Z.rem order x = 0%Z \/ F (IZR order) (IZR x) = 0) /\
  (bessel_i_derivative_int (T := R) G order x = Ok (bessel_i_derivative (T := R) F (IZR order) (IZR x))
     <-> Z.rem order x = 0%Z \/ F (IZR order) (IZR x) = 0) /\
  (bessel_k_derivative_int (T := R) G order x = Ok (bessel_k_derivative (T := R) Ropp F (IZR order) (IZR x))
     <-> Z.rem order x = 0%Z \/ F (IZR order) (IZR x) = 0).
Proof.
  intros Hx Ho. rewrite <- (quot_exact order x Hx), <- trunc_iff.
  unfold bessel_derivative_int, bessel_i_derivative_int, bessel_k_derivative_int,
    bessel_derivative, bessel_i_derivative, bessel_k_derivative, int_quot, G.
  apply Z.eqb_neq in Hx. rewrite Hx. assert (Ho' := Ho). apply Z.eqb_neq in Ho. rewrite Ho.
  cbv [neq RNum RNum_at nofZ vsub vmull VNum_self nsub nmul ndiv nneg].
  assert (E : Reqb (IZR order) 0 = false) by (apply Reqb_false, not_0_IZR; exact Ho').
  rewrite E. rewrite minus_IZR. cbn [bind].
  repeat split; intros X; try (injection X; lra); f_equal; rewrite X; ring.
Qed.
Lemma int_order_zero : order = 0%Z ->
  bessel_derivative_int (T := R) G order x = Ok (bessel_derivative (T := R) Ropp F 0 (IZR x)) /\
  bessel_i_derivative_int (T := R) G order x = Ok (bessel_i_derivative (T := R) F 0 (IZR x)) /\
  bessel_k_derivative_int (T := R) G order x = Ok (bessel_k_derivative (T := R) Ropp F 0 (IZR x)).
Proof.
  intros ->. unfold bessel_derivative_int, bessel_i_derivative_int, bessel_k_derivative_int,
    bessel_derivative, bessel_i_derivative, bessel_k_derivative, G. cbn [Z.eqb].
  cbv [neq RNum RNum_at nofZ nneg].
  assert (E : Reqb 0 0 = true) by (apply Reqb_true; reflexivity). rewrite E. repeat split.
Qed.
End IntArgs.

Lemma int_refuted : exists order x : Z, x <> 0%Z /\
  (forall v, bessel_i_derivative_int (T := R) (fun o z => BesselI (IZR o) (IZR z)) order x = Ok v ->
     ~ is_derive (BesselI (IZR order)) (IZR x) v).
Proof.
  exists 1%Z, 2%Z. split; [discriminate|]. intros v E D.
  assert (R := BesselI_relations 1 2 ltac:(lra)).
  apply i_derivative_lemma in R; [|lra].
  assert (U : v = bessel_i_derivative (T := Rdefinitions.R) BesselI 1 2).
  { apply is_derive_unique in D. apply is_derive_unique in R. rewrite <- D, <- R. reflexivity. }
  rewrite U in E. destruct (int_lemma BesselI 1 2 ltac:(discriminate) ltac:(discriminate)) as [_ [H _]].
  destruct H as [H _]. specialize (H E). destruct H as [H|H]; [discriminate H|].
  assert (P := BesselI_1_pos 2 ltac:(lra)). lra.
Qed.
