(** Where Ei_approximation is defined; expEi. *)
From Coq Require Import ZArith Reals Lra Lia Bool List.
From Coquelicot Require Import Coquelicot.
From Verif Require Import Outcome Num NumFun M_Special S_Special L_Poly L_Special L_Cf L_EiTab L_EiVal.
Import ListNotations.
Open Scope R_scope.

Lemma sing_inc_check : zpos_on 12 24 1 (zder sing24) = true.
Proof. vm_compute. reflexivity. Qed.
Lemma sing_pos : zpos_at 1804 100 sing24 = true.
Proof. vm_compute. reflexivity. Qed.
Lemma sing_neg : zpos_at 1803 100 (zscale (-1) sing24) = true.
Proof. vm_compute. reflexivity. Qed.
Lemma sing_increasing a b : 12 <= a -> a < b -> b < 24 -> zev sing24 a < zev sing24 b.
Proof.
  intros Ha Hab Hb.
  destruct (MVT_gen (zev sing24) a b (zev (zder sing24))) as [c [[C1 C2] E]].
  - intros c _. apply zev_derive.
  - intros c _. apply continuity_pt_filterlim, zev_continuous.
  - rewrite Rmin_left in C1 by lra. rewrite Rmax_right in C2 by lra.
    assert (P := zpos_on_val _ _ _ _ c sing_inc_check ltac:(lra)).
    assert (0 < zev (zder sing24) c * (b - a)) by (apply Rmult_lt_0_compat; lra). lra.
Qed.
Lemma sing_root : exists s, 1803 / 100 < s < 1804 / 100 /\ zev sing24 s = 0.
Proof.
  assert (P := zpos_at_val _ _ _ sing_pos). assert (N := zpos_at_val _ _ _ sing_neg). rewrite zev_scale in N.
  destruct (IVT_gen (zev sing24) (1803 / 100) (1804 / 100) 0) as [s [[S1 S2] Z]].
  - intros c. apply continuity_pt_filterlim, zev_continuous.
  - rewrite Rmin_left, Rmax_right by lra. lra.
  - rewrite Rmin_left in S1 by lra. rewrite Rmax_right in S2 by lra. exists s. split; [|exact Z].
    split.
    + destruct S1 as [S1|S1]; [exact S1|]. subst s. lra.
    + destruct S2 as [S2|S2]; [exact S2|]. subst s. lra.
Qed.

Lemma cf_total (a b : list R) x : length a = 10%nat -> length b = 9%nat -> exists v, cf a b x = Ok v.
Proof.
  intros La Lb.
  do 11 (destruct a as [|? a]; try discriminate La). do 10 (destruct b as [|? b]; try discriminate Lb).
  eexists. cbn. reflexivity.
Qed.
Lemma units_length s l : length (units s l) = length l.
Proof. apply map_length. Qed.
Lemma Ei_ok x : 1 / 100000000 < x -> exists v, Ei_approximation (T := R) x = Ok v.
Proof.
  intros H.
  destruct (Rlt_le_dec x 6) as [L|L]; [eexists; apply Ei_6; lra|].
  destruct (Rlt_le_dec x 12) as [L1|L1]; [eexists; apply Ei_12; lra|].
  destruct (Rlt_le_dec x 24) as [L2|L2]; [|eexists; apply Ei_L; lra].
  destruct (Ei_guard x ltac:(lra)) as [G1 _].
  assert (E2 : Rltb x 6 = false) by (apply Rltb_false; lra). assert (E3 : Rltb x 12 = false) by (apply Rltb_false; lra).
  assert (E4 : Rleb 12 x = true) by (apply Rleb_true; lra). assert (E5 : Rltb x 24 = true) by (apply Rltb_true; lra).
  unfold Ei_approximation. rewrite G1. cbn [nlt nle nofZ RNum RNum_at]. rewrite E2, E3, E4, E5, !andb_false_r. cbn [andb].
  rewrite z24_a_eq, z24_b_eq. destruct (cf_total (units unit25 z24_a) (units unit25 z24_b) x) as [v E];
    [apply units_length|apply units_length|]. rewrite E. eexists. reflexivity.
Qed.

Lemma Ei_outcome x :
  (x <= 1 / 100000000 -> Ei_approximation (T := R) x = Exit 0) /\
  (1 / 100000000 < x -> exists v, Ei_approximation (T := R) x = Ok v).
Proof. split; [intros H; apply Ei_rejects, H|apply Ei_ok]. Qed.
Lemma E1_outcome x :
  (x <= 1 / 100000000 -> E1_approximation (T := R) x = Exit 0) /\
  (1 / 100000000 < x -> exists v, E1_approximation (T := R) x = Ok v).
Proof.
  split; [apply E1_rejects|]. intros H.
  destruct (Rlt_le_dec x 1) as [L|L]; [eexists; apply E1_low; lra|].
  destruct (Rlt_le_dec x 4) as [L1|L1]; [eexists; apply E1_mid; lra|eexists; apply E1_high; lra].
Qed.

Lemma Ei_defined_except : exists s, 1803 / 100 < s < 1804 / 100 /\
  (forall x, x <> s -> Ei_approximation (NT := PNum) (NF := PNumFm) (NR := PNumTr) (Some x) = defined (Ei_approximation (T := R) x)) /\
  Ei_approximation (NT := PNum) (NF := PNumFm) (NR := PNumTr) (Some s) = Ok None.
Proof.
  destruct sing_root as [s [Hs Z]]. exists s. split; [exact Hs|]. split; [|apply Ei_24_undefined; [lra|exact Z]].
  intros x Hx.
  destruct (Rle_lt_dec x (1 / 100000000)) as [L0|L0]; [destruct (Ei_rejects x L0) as [-> ->]; reflexivity|].
  destruct (Rlt_le_dec x 6) as [L|L]; [destruct (Ei_6 x ltac:(lra)) as [-> ->]; reflexivity|].
  destruct (Rlt_le_dec x 12) as [L1|L1]; [destruct (Ei_12 x ltac:(lra)) as [-> ->]; reflexivity|].
  destruct (Rlt_le_dec x 24) as [L2|L2]; [|destruct (Ei_L x ltac:(lra)) as [_ [-> ->]]; reflexivity].
  assert (NZ : zev sing24 x <> 0).
  { destruct (Rtotal_order x s) as [C|[C|C]]; [|contradiction|];
      [assert (I := sing_increasing x s ltac:(lra) C ltac:(lra))|assert (I := sing_increasing s x ltac:(lra) C ltac:(lra))]; lra. }
  destruct (Ei_24 x ltac:(lra) NZ) as [_ [-> ->]]. reflexivity.
Qed.

Lemma expEi_scaled (Ei : R -> R) x :
  (x < 24 -> expEi (T := R) Ei x = Ok (exp (- x) * Ei x)) /\
  (24 <= x -> expEi (T := R) Ei x = omap (Rmult (exp (- x))) (Ei_approximation (T := R) x)).
Proof.
  split; intros H.
  - unfold expEi. cbn [nlt nofZ RNum RNum_at]. assert (E : Rltb x 24 = true) by (apply Rltb_true; exact H). rewrite E. reflexivity.
  - rewrite expEi_L by exact H. destruct (Ei_L x H) as [_ [-> _]]. cbv [omap bind]. apply (f_equal Ok).
    rewrite exp_Ropp. assert (P := exp_pos x). set (r := zev NL x / (IZR unit25 * zev DL x)). field. split; lra.
Qed.
Lemma expEi_defined (Ei : option R -> option R) x : 24 <= x ->
  expEi (NT := PNum) (NR := PNumTr) Ei (Some x) = defined (expEi (T := R) (fun x => x) x).
Proof.
  intros H. rewrite expEi_L by exact H.
  destruct (cf_val unit25 unit25_nz zL_a zL_b x eq_refl eq_refl (zpos_from_all 24 _ x dens_checkL ltac:(lra))) as [_ [_ C2]].
  fold NL DL in C2. assert (L4 : Rltb x 24 = false) by (apply Rltb_false; lra).
  unfold expEi. cbn [nlt nofZ PNum pcmp]. rewrite L4, expei_alpha_peq, expei_beta_peq, C2. cbn [bind].
  rewrite !p_div by lra. reflexivity.
Qed.
Lemma Ei_not_defined : exists x, 1 / 100000000 < x /\
  Ei_approximation (NT := PNum) (NF := PNumFm) (NR := PNumTr) (Some x) <> defined (Ei_approximation (T := R) x).
Proof.
  destruct Ei_defined_except as [s [Hs [_ N]]]. exists s. split; [lra|]. rewrite N.
  destruct (Ei_ok s ltac:(lra)) as [v ->]. discriminate.
Qed.
