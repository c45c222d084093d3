(** E1 approximation. *)
From Coq Require Import ZArith Reals Lra Lia Bool List.
From Verif Require Import Outcome Num NumFun M_Basics M_Series M_Cheb M_Special S_Special.
Import ListNotations.

Ltac un := cbv [nadd nsub nmul ndiv nneg nlt nle neq nofZ npi RNum RNum_at nlit nfabs RNumFm nexp nlog npow RNumTr] in *.

(** ** Partial arithmetic agrees with real arithmetic *)
Lemma p_lit p q : IZR q <> 0 -> nlit (T := option R) (H := PNum) p q = Some (nlit (T := R) p q).
Proof.
  intros H. unfold nlit. cbn. destruct (Reqb (IZR q) 0) eqn:E; [apply Reqb_true in E; contradiction|reflexivity].
Qed.
Lemma p_div a b : b <> 0 -> ndiv (Num := PNum) (Some a) (Some b) = Some (a / b)%R.
Proof.
  intros H. cbn. destruct (Reqb b 0) eqn:E; [apply Reqb_true in E; contradiction|reflexivity].
Qed.
Lemma p_vat (l : list R) i : vat (map Some l) i = defined (vat l i).
Proof.
  unfold vat, defined. rewrite nth_error_map. destruct (nth_error l i); reflexivity.
Qed.

Ltac plist := cbn [map]; repeat (rewrite p_lit by (apply not_0_IZR; discriminate)); reflexivity.

Lemma rejected_R x : rejected (T := R) x = Rleb x (1 / 100000000).
Proof.
  unfold rejected, IsClose. un.
  assert (E : Rabs 0 = 0) by (apply Rabs_R0). rewrite E.
  replace (1 / 100000000 + 1 / 100000 * 0) with (1 / 100000000) by ring. rewrite Rminus_0_r.
  destruct (Rleb x (1 / 100000000)) eqn:L.
  - apply Rleb_true in L. destruct (Rltb x 0) eqn:N; [apply orb_true_r|].
    apply Rltb_false in N. rewrite Rabs_right by lra. rewrite orb_false_r. apply Rleb_true. exact L.
  - apply Rleb_false in L. rewrite Rabs_right by lra.
    apply orb_false_iff. split; [apply Rleb_false; exact L|apply Rltb_false; lra].
Qed.
Lemma rejected_P x : rejected (T := option R) (NT := PNum) (NF := PNumFm) (Some x) = rejected (T := R) x.
Proof.
  unfold rejected, IsClose. rewrite !p_lit by (apply not_0_IZR; discriminate). reflexivity.
Qed.

(** ** Loops *)
Lemma p_horner_loop (c : list R) x k r :
  horner_loop (NT := PNum) (map Some c) (Some x) k (Some r) = defined (horner_loop c x k r).
Proof.
  revert r. induction k as [|k IH]; intros r; cbn [horner_loop]; [reflexivity|].
  rewrite p_vat. destruct (vat c k); try reflexivity. cbn [bind defined omap]. apply IH.
Qed.
Lemma p_horner (c : list R) x : horner (NT := PNum) (map Some c) (Some x) = defined (horner c x).
Proof.
  unfold horner. rewrite map_length, p_vat. destruct (vat c (length c - 1)); try reflexivity.
  cbn [bind defined omap]. apply p_horner_loop.
Qed.
Lemma p_inv_frac (p q : list R) x j n xn a b : x <> 0 ->
  inv_frac (NT := PNum) (map Some p) (map Some q) (Some x) j n (Some xn) (Some a) (Some b) =
  omap (fun nd => (Some (fst nd), Some (snd nd))) (inv_frac p q x j n xn a b).
Proof.
  intros Hx. revert j xn a b. induction n as [|n IH]; intros; cbn [inv_frac]; [reflexivity|].
  rewrite !p_vat. destruct (vat p j); try reflexivity. cbn [bind defined omap].
  destruct (vat q j); try reflexivity. cbn [bind defined omap]. rewrite p_div by exact Hx. apply IH.
Qed.

Lemma e1_lists : e1a_p (NT := PNum) = map Some e1a_p /\ e1a_q (NT := PNum) = map Some e1a_q /\
  e1b_p (NT := PNum) = map Some e1b_p /\ e1b_q (NT := PNum) = map Some e1b_q /\
  e1c_p (NT := PNum) = map Some e1c_p /\ e1c_q (NT := PNum) = map Some e1c_q.
Proof.
  unfold e1a_p, e1a_q, e1b_p, e1b_q, e1c_p, e1c_q. repeat split; plist.
Qed.

(** ** Values of E1 *)
Fixpoint pev (c : list R) (u : R) : R := match c with [] => 0 | a :: c' => a + u * pev c' u end.

Lemma vat_app {A} (l1 l2 : list A) a : vat (l1 ++ a :: l2) (length l1) = Ok a.
Proof. unfold vat. rewrite nth_error_app2 by lia. rewrite Nat.sub_diag. reflexivity. Qed.

Lemma inv_frac_val (p q p1 q1 : list R) x xn a b : x <> 0 -> length p = length q -> length p1 = length q1 ->
  inv_frac (p1 ++ p) (q1 ++ q) x (length p1) (length p) xn a b =
  Ok (a + xn * pev p (/ x), b + xn * pev q (/ x)).
Proof.
  intros Hx. revert q p1 q1 xn a b. induction p as [|c p IH]; intros [|d q] p1 q1 xn a b L L1; try discriminate L.
  - cbn [length inv_frac pev]. do 2 f_equal; ring.
  - cbn [length inv_frac].
    replace (vat (p1 ++ c :: p) (length p1)) with (Ok c) by (symmetry; apply vat_app).
    replace (vat (q1 ++ d :: q) (length p1)) with (Ok d) by (rewrite L1; symmetry; apply vat_app).
    cbn [bind].
    replace (p1 ++ c :: p) with ((p1 ++ [c]) ++ p) by (rewrite <- app_assoc; reflexivity).
    replace (q1 ++ d :: q) with ((q1 ++ [d]) ++ q) by (rewrite <- app_assoc; reflexivity).
    replace (S (length p1)) with (length (p1 ++ [c])) by (rewrite app_length; cbn; lia).
    rewrite IH; [|cbn in L; lia|rewrite !app_length; cbn; lia].
    cbn [pev]. un. do 2 f_equal; field; exact Hx.
Qed.

Lemma inv_frac_all (p q : list R) x : x <> 0 -> length p = length q ->
  inv_frac p q x 0 (length p) 1 0 0 = Ok (pev p (/ x), pev q (/ x)).
Proof.
  intros Hx L. etransitivity; [exact (inv_frac_val p q [] [] x 1 0 0 Hx L eq_refl)|]. do 2 f_equal; ring.
Qed.

Lemma horner_loop_val (c1 c2 : list R) x r : horner_loop (c1 ++ c2) x (length c1) r = Ok (pev c1 x + x ^ length c1 * r).
Proof.
  revert c2 r. induction c1 as [|a c1 IH] using rev_ind; intros c2 r.
  - cbn. f_equal. ring.
  - rewrite app_length. cbn [length]. rewrite Nat.add_1_r. cbn [horner_loop].
    rewrite <- app_assoc. cbn [app]. rewrite vat_app. cbn [bind]. rewrite IH. f_equal.
    assert (E : forall l b, pev (l ++ [b]) x = pev l x + x ^ length l * b).
    { induction l as [|h l IHl]; intros b; cbn; [ring|]. rewrite IHl. ring. }
    rewrite E. un. cbn [pow]. ring.
Qed.
Lemma horner_pev (c : list R) x : c <> [] -> horner c x = Ok (pev c x).
Proof.
  intros H. destruct (exists_last H) as [l [a ->]]. unfold horner. rewrite app_length. cbn [length].
  replace (length l + 1 - 1)%nat with (length l) by lia.
  rewrite vat_app. cbn [bind]. rewrite horner_loop_val. f_equal.
  induction l as [|h l IH]; cbn; [ring|].
  rewrite <- IH by (destruct l; discriminate). ring.
Qed.

Lemma E1_low x : 1 / 100000000 < x < 1 ->
  E1_approximation (T := R) x = Ok (- ln x + pev e1a_p x / pev e1a_q x).
Proof.
  intros H. unfold E1_approximation. rewrite rejected_R.
  destruct (Rleb x (1 / 100000000)) eqn:E; [apply Rleb_true in E; lra|].
  rewrite !horner_pev by discriminate. un.
  destruct (Rltb 0 x) eqn:E1; [|apply Rltb_false in E1; lra].
  destruct (Rltb x 1) eqn:E2; [|apply Rltb_false in E2; lra].
  reflexivity.
Qed.
Lemma E1_mid x : 1 <= x < 4 ->
  E1_approximation (T := R) x = Ok (exp (- x) * (pev e1b_p (/ x) / pev e1b_q (/ x))).
Proof.
  intros H. unfold E1_approximation. rewrite rejected_R.
  destruct (Rleb x (1 / 100000000)) eqn:E; [apply Rleb_true in E; lra|].
  change (inv_frac e1b_p e1b_q x 0 9 (nofZ 1) (nofZ 0) (nofZ 0)) with (inv_frac e1b_p e1b_q x 0 (length e1b_p) 1 0 0).
  rewrite (inv_frac_all e1b_p e1b_q x); [|lra|reflexivity]. cbn [nlt nle RNum RNum_at nofZ].
  destruct (Rltb x 1) eqn:E2; [apply Rltb_true in E2; lra|]. rewrite andb_false_r.
  destruct (Rleb 1 x) eqn:E1; [|apply Rleb_false in E1; lra].
  destruct (Rltb x 4) eqn:E3; [|apply Rltb_false in E3; lra].
  reflexivity.
Qed.
Lemma E1_high x : 4 <= x ->
  E1_approximation (T := R) x = Ok (exp (- x) / x * (1 + 1 / x * pev e1c_p (/ x) / pev e1c_q (/ x))).
Proof.
  intros H. unfold E1_approximation. rewrite rejected_R.
  destruct (Rleb x (1 / 100000000)) eqn:E; [apply Rleb_true in E; lra|].
  change (inv_frac e1c_p e1c_q x 0 10 (nofZ 1) (nofZ 0) (nofZ 0)) with (inv_frac e1c_p e1c_q x 0 (length e1c_p) 1 0 0).
  rewrite (inv_frac_all e1c_p e1c_q x); [|lra|reflexivity]. cbn [nlt nle RNum RNum_at nofZ].
  destruct (Rltb x 1) eqn:E2; [apply Rltb_true in E2; lra|]. rewrite andb_false_r.
  destruct (Rltb x 4) eqn:E3; [apply Rltb_true in E3; lra|]. rewrite andb_false_r.
  reflexivity.
Qed.
Lemma E1_rejects x : x <= 1 / 100000000 -> E1_approximation (T := R) x = Exit 0.
Proof.
  intros H. unfold E1_approximation. rewrite rejected_R.
  destruct (Rleb x (1 / 100000000)) eqn:E; [reflexivity|apply Rleb_false in E; lra].
Qed.

(** Denominators. *)
Lemma pev_pos (c : list R) u : 0 <= u -> Forall (fun a => 0 < a) c -> c <> [] -> 0 < pev c u.
Proof.
  intros Hu H N. destruct c as [|a c]; [contradiction|]. clear N.
  revert a H. induction c as [|b c IH]; intros a H; inversion H as [|? ? H1 H2]; subst; cbn [pev].
  - lra.
  - assert (P := IH b H2). cbn [pev] in P. assert (0 <= u * (b + u * pev c u)) by (apply Rmult_le_pos; lra). lra.
Qed.
Ltac posl := repeat constructor; un; lra.
Lemma e1a_q_pos u : 0 <= u -> 0 < pev e1a_q u.
Proof. intros H. apply pev_pos; [exact H|unfold e1a_q; posl|discriminate]. Qed.
Lemma e1b_q_pos u : 0 <= u -> 0 < pev e1b_q u.
Proof. intros H. apply pev_pos; [exact H|unfold e1b_q; posl|discriminate]. Qed.
Lemma e1c_q_pos u : 0 <= u -> 0 < pev e1c_q u.
Proof. intros H. apply pev_pos; [exact H|unfold e1c_q; posl|discriminate]. Qed.

Lemma E1_defined x :
  E1_approximation (T := option R) (NT := PNum) (NF := PNumFm) (NR := PNumTr) (Some x) = defined (E1_approximation (T := R) x).
Proof.
  destruct e1_lists as [A1 [A2 [B1 [B2 [C1 C2]]]]].
  destruct (Rle_lt_dec x (1 / 100000000)) as [L|L].
  { rewrite E1_rejects by exact L. unfold E1_approximation. rewrite rejected_P, rejected_R.
    destruct (Rleb x (1 / 100000000)) eqn:E; [reflexivity|apply Rleb_false in E; lra]. }
  assert (RJ : rejected (T := option R) (NT := PNum) (NF := PNumFm) (Some x) = false).
  { rewrite rejected_P, rejected_R. apply Rleb_false. exact L. }
  assert (Hu : 0 < / x) by (apply Rinv_0_lt_compat; lra).
  unfold E1_approximation at 1. rewrite RJ, A1, A2, B1, B2, C1, C2, !p_horner.
  cbn [nlt nle nofZ PNum pcmp].
  change (@Some R 1) with (nofZ (Num := PNum) 1). change (@Some R 0) with (nofZ (Num := PNum) 0).
  cbn [nofZ PNum].
  rewrite !p_inv_frac by lra.
  change 9%nat with (length (A := R) e1b_p) at 1. change 10%nat with (length (A := R) e1c_p) at 1.
  rewrite !inv_frac_all by (try reflexivity; lra). rewrite !horner_pev by discriminate.
  destruct (Rlt_dec x 1) as [H1|H1].
  { rewrite E1_low by lra.
    destruct (Rltb 0 x) eqn:E1; [|apply Rltb_false in E1; lra].
    destruct (Rltb x 1) eqn:E2; [|apply Rltb_false in E2; lra].
    cbn [andb defined omap bind nlog PNumTr pguard].
    destruct (Rleb x 0) eqn:E3; [apply Rleb_true in E3; lra|].
    rewrite p_div by (apply Rgt_not_eq, e1a_q_pos; lra). reflexivity. }
  destruct (Rltb x 1) eqn:E2; [apply Rltb_true in E2; lra|]. rewrite andb_false_r.
  destruct (Rlt_dec x 4) as [H4|H4].
  { rewrite E1_mid by lra.
    destruct (Rleb 1 x) eqn:E1; [|apply Rleb_false in E1; lra].
    destruct (Rltb x 4) eqn:E3; [|apply Rltb_false in E3; lra].
    cbn [andb defined omap bind fst snd].
    rewrite p_div by (apply Rgt_not_eq, e1b_q_pos; lra). reflexivity. }
  rewrite E1_high by lra.
  destruct (Rltb x 4) eqn:E3; [apply Rltb_true in E3; lra|]. rewrite andb_false_r.
  cbn [defined omap bind fst snd nneg nexp PNum PNumTr option_map].
  rewrite (p_div 1 x) by lra. rewrite (p_div (exp (- x)) x) by lra.
  cbn [nmul PNum pmap2]. rewrite p_div by (apply Rgt_not_eq, e1c_q_pos; lra). reflexivity.
Qed.
