(** Lemmas on Chebyshev series. *)
From Coq Require Import List Arith ZArith Reals Lra Lia Bool.
From Coquelicot Require Import Coquelicot.
From Verif Require Import Outcome Num NumFun M_Series S_Series L_Series M_Cheb S_Cheb L_Basics L_Basics2.
Import ListNotations.
Local Open Scope R_scope.

Ltac rn := cbv [nadd nsub nmul ndiv nofZ nlit npi RNum RNum_at ncos npow RNumTr].

(** *** Loops *)
Lemma fold_seq (g : nat -> R) : forall k s a,
  fold_left (fun acc r => acc + g r) (seq s k) a = a + bsum k (fun r => g (s + r)%nat).
Proof.
  induction k as [|k IH]; intros s a; cbn [seq fold_left bsum]; [ring|].
  rewrite IH.
  change (bsum k (fun r => g (s + r)%nat) + g (s + k)%nat) with (bsum (S k) (fun r => g (s + r)%nat)).
  rewrite bsum_shift, Nat.add_0_r.
  rewrite (bsum_ext k (fun r => g (S s + r)%nat) (fun i => g (s + S i)%nat)); [ring|].
  intros. f_equal. lia.
Qed.
Lemma fold_seq_gen (F : R -> nat -> R) (G : nat -> R) k a :
  (forall acc r, F acc r = acc + G r) -> fold_left F (seq 0 k) a = a + bsum k G.
Proof.
  intros H. transitivity (fold_left (fun acc r => acc + G r) (seq 0 k) a); [|apply (fold_seq G k 0 a)].
  generalize (seq 0 k) as l. intros l. revert a. induction l as [|r l IH]; intros b; cbn [fold_left]; [reflexivity|].
  now rewrite H, IH.
Qed.
Lemma acc_loop_ok n a (g : nat -> R) : acc_loop n a g = a + bsum (n + 1) g.
Proof. unfold acc_loop. rn. now apply fold_seq_gen. Qed.
Lemma bsum_split i k h : bsum (i + k) h = bsum i h + bsum k (fun r => h (i + r)%nat).
Proof. induction k as [|k IH]; [rewrite Nat.add_0_r; simpl; ring|]. rewrite Nat.add_succ_r. cbn [bsum]. rewrite IH. ring. Qed.
Lemma acc_from_ok i n (g : nat -> R) : (i <= n)%nat ->
  acc_loop_from i n 0 g = bsum (n + 1) (fun r => if (i <=? r)%nat then g r else 0).
Proof.
  intros H. unfold acc_loop_from. rn. rewrite fold_seq.
  replace (n + 1)%nat with (i + (n + 1 - i))%nat at 2 by lia. rewrite bsum_split.
  rewrite (bsum_ext i _ (fun _ => 0)), bsum_0.
  - f_equal. apply bsum_ext. intros r _. rewrite (proj2 (Nat.leb_le i (i + r))) by lia. reflexivity.
  - intros r Hr. rewrite (proj2 (Nat.leb_gt i r)) by lia. reflexivity.
Qed.

(** *** Chebyshev polynomials *)
Lemma cheb_SS n x : cheb (S (S n)) x = 2 * x * cheb (S n) x - cheb n x.
Proof. reflexivity. Qed.
Lemma two_step (P : nat -> Prop) : P 0%nat -> P 1%nat -> (forall n, P n -> P (S n) -> P (S (S n))) -> forall n, P n.
Proof.
  intros H0 H1 HS n. enough (P n /\ P (S n)) by tauto.
  induction n as [|n [IH1 IH2]]; auto.
Qed.
Lemma chebyshev_loop_ok x : forall k j, chebyshev_loop k x (cheb j x) (cheb (S j) x) = cheb (S (j + k)) x.
Proof.
  induction k as [|k IH]; intros j; cbn [chebyshev_loop]; [now rewrite Nat.add_0_r|].
  unfold chebyshev_next. rn. rewrite <- cheb_SS, IH. f_equal. lia.
Qed.
Lemma chebyshev_t_ok n x : chebyshev_t n x = cheb n x.
Proof. destruct n as [|n]; [reflexivity|]. unfold chebyshev_t. apply (chebyshev_loop_ok x n 0). Qed.
Lemma cheb_cos n t : cheb n (cos t) = cos (INR n * t).
Proof.
  induction n as [| |n IH1 IH2] using two_step.
  - simpl. now rewrite Rmult_0_l, cos_0.
  - simpl. f_equal. ring.
  - rewrite cheb_SS, IH1, IH2. rewrite !S_INR.
    replace ((INR n + 1 + 1) * t) with ((INR n + 1) * t + t) by ring.
    replace (INR n * t) with ((INR n + 1) * t - t) by ring.
    rewrite cos_plus, cos_minus. ring.
Qed.
(** Second kind. *)
Fixpoint chebu (n : nat) (x : R) : R :=
  match n with O => 1 | S p => match p with O => 2 * x | S q => 2 * x * chebu p x - chebu q x end end.
Lemma chebu_loop_ok x : forall k j, chebyshev_loop k x (chebu j x) (chebu (S j) x) = chebu (S (j + k)) x.
Proof.
  induction k as [|k IH]; intros j; cbn [chebyshev_loop]; [now rewrite Nat.add_0_r|].
  unfold chebyshev_next. rn.
  change (2 * x * chebu (S j) x - chebu j x) with (chebu (S (S j)) x). rewrite IH. f_equal. lia.
Qed.
Lemma chebyshev_u_ok n x : chebyshev_u n x = chebu n x.
Proof. destruct n as [|n]; [reflexivity|]. unfold chebyshev_u. apply (chebu_loop_ok x n 0). Qed.
Lemma cheb_chebu n x : cheb (S n) x = chebu (S n) x - x * chebu n x.
Proof.
  induction n as [| |n IH1 IH2] using two_step; [simpl; ring|simpl; ring|].
  rewrite cheb_SS, IH1, IH2.
  change (chebu (S (S (S n))) x) with (2 * x * chebu (S (S n)) x - chebu (S n) x).
  change (chebu (S (S n)) x) with (2 * x * chebu (S n) x - chebu n x). ring.
Qed.
Definition dcheb (n : nat) (x : R) : R := match n with O => 0 | S k => INR n * chebu k x end.
Lemma t_prime_ok n x : chebyshev_t_prime n x = dcheb n x.
Proof.
  destruct n as [|n]; [reflexivity|]. unfold chebyshev_t_prime, dcheb. rewrite chebyshev_u_ok.
  rn. now rewrite <- INR_IZR_INZ.
Qed.
Lemma cheb_deriv n x : derivable_pt_lim (cheb n) x (dcheb n x).
Proof.
  induction n as [| |n IH1 IH2] using two_step.
  - apply derivable_pt_lim_const.
  - replace (dcheb 1 x) with 1 by (simpl; ring). apply derivable_pt_lim_id.
  - replace (dcheb (S (S n)) x)
      with ((2 * 1 * cheb (S n) x + 2 * x * dcheb (S n) x) - dcheb n x).
    + apply (derivable_pt_lim_minus (fun t => 2 * t * cheb (S n) t) (cheb n)); [|exact IH1].
      apply (derivable_pt_lim_mult (fun t => 2 * t) (cheb (S n))); [|exact IH2].
      apply (derivable_pt_lim_scal id). apply derivable_pt_lim_id.
    + rewrite cheb_chebu. unfold dcheb. destruct n as [|n]; [simpl; ring|].
      rewrite !S_INR.
      change (chebu (S (S n)) x) with (2 * x * chebu (S n) x - chebu n x). ring.
Qed.

(** *** Clenshaw *)
Lemma clenshaw_loop_ok c x : forall j b1 b2,
  clenshaw_loop c x j b1 b2 =
  nth 0 c 0 / 2 + bsum j (fun i => nth (S i) c 0 * cheb (S i) x) + b1 * cheb (S j) x - b2 * cheb j x.
Proof.
  induction j as [|j IH]; intros b1 b2; cbn [clenshaw_loop].
  - rn. cbn [bsum cheb]. field.
  - rewrite IH. rn. cbn [bsum]. rewrite (cheb_SS j). ring.
Qed.
Lemma clenshaw_ok c x :
  clenshaw c x = match length c with O => 0 | S n => nth 0 c 0 / 2 + bsum n (fun i => nth (S i) c 0 * cheb (S i) x) end.
Proof.
  unfold clenshaw. destruct (length c) as [|[|n]]; [reflexivity| |].
  - rn. simpl. ring.
  - rewrite clenshaw_loop_ok. rn. cbn [bsum]. ring.
Qed.
Lemma clenshaw_sum_ok n (a : nat -> R) x : clenshaw_sum n a x = bsum (n + 1) (fun i => a i * cheb i x).
Proof.
  unfold clenshaw_sum. rewrite clenshaw_ok. rewrite Nat.add_1_r.
  cbn [seq map double_first length]. rewrite map_length, seq_length.
  cbn [nth]. rewrite bsum_shift. rn. change (cheb 0 x) with 1.
  rewrite (bsum_ext n _ (fun i => a (S i) * cheb (S i) x)); [field|].
  intros i Hi. f_equal.
  rewrite (nth_indep _ 0 (a 0%nat)) by (rewrite map_length, seq_length; lia).
  rewrite map_nth, seq_nth by lia. reflexivity.
Qed.

(** *** Conversion coefficients *)
Lemma factorial_ok n : factorial n = INR (fact n).
Proof.
  induction n as [|n IH]; [reflexivity|]. cbn [factorial]. rewrite IH. rn.
  rewrite <- INR_IZR_INZ, <- mult_INR. reflexivity.
Qed.
(** Coefficient of x^k in the polynomial of order l = k + 2m. *)
Definition lam (k m : nat) : R :=
  match k, m with
  | O, O => 1
  | _, _ => (-1) ^ m * powerRZ 2 (Z.of_nat k - 1) * INR (k + 2 * m) * (INR (fact (k + m - 1)) / (INR (fact m) * INR (fact k)))
  end.
Lemma tc_even k m : transformation_coefficient (k + 2 * m) k = lam k m.
Proof.
  unfold transformation_coefficient.
  replace (k + 2 * m + k)%nat with ((k + m) * 2)%nat by lia.
  rewrite Nat.mod_mul, Nat.div_mul by lia.
  replace (k + 2 * m - k)%nat with (m * 2)%nat by lia. rewrite Nat.div_mul by lia.
  destruct (Nat.eqb_spec (k + 2 * m) 0) as [E|E]; cbn [andb].
  - replace k with 0%nat by lia. replace m with 0%nat by lia. reflexivity.
  - assert (lam k m = (-1) ^ m * powerRZ 2 (Z.of_nat k - 1) * INR (k + 2 * m) * (INR (fact (k + m - 1)) / (INR (fact m) * INR (fact k)))) as ->.
    { destruct k, m; reflexivity || (exfalso; lia). }
    cbn [Nat.eqb]. rn. rewrite !factorial_ok. rewrite <- !INR_IZR_INZ, Rcpow_nat.
    f_equal. f_equal. f_equal. rewrite Rcpow_pos by lra.
    rewrite powerRZ_Rpower by lra. f_equal. rewrite minus_IZR, <- INR_IZR_INZ. reflexivity.
Qed.
Lemma tc_odd l k : Nat.odd (l + k) = true -> transformation_coefficient l k = 0.
Proof.
  intros H. unfold transformation_coefficient.
  assert (E : ((l + k) mod 2 = 1)%nat).
  { apply Nat.odd_spec in H as [q Hq]. rewrite Hq. rewrite Nat.add_comm, Nat.mul_comm, Nat.mod_add; auto. }
  rewrite E. destruct ((l =? 0)%nat && (k =? 0)%nat) eqn:Z.
  - apply andb_true_iff in Z as [Z1 Z2]. apply Nat.eqb_eq in Z1, Z2. subst. discriminate.
  - reflexivity.
Qed.
Lemma lam_0 m : lam 0 m = (-1) ^ m.
Proof.
  destruct m as [|m]; [reflexivity|]. unfold lam.
  replace (0 + 2 * S m)%nat with (2 * S m)%nat by lia. rewrite mult_INR.
  replace (0 + S m - 1)%nat with m by lia.
  change (fact (S m)) with (S m * fact m)%nat. rewrite mult_INR.
  assert (INR (S m) <> 0) by (apply not_0_INR; lia). pose proof (INR_fact_neq_0 m).
  simpl (powerRZ _ _). simpl (fact 0). change (INR 2) with 2. rewrite Rmult_1_r.
  change (INR 1) with 1. generalize ((-1) ^ S m). intros. field. auto.
Qed.
Lemma lam_top k : lam (S k) 0 = 2 ^ k.
Proof.
  unfold lam. replace (S k + 2 * 0)%nat with (S k) by lia. replace (S k + 0 - 1)%nat with k by lia.
  replace (Z.of_nat (S k) - 1)%Z with (Z.of_nat k) by lia. rewrite <- pow_powerRZ.
  change (fact (S k)) with (S k * fact k)%nat. rewrite mult_INR.
  assert (INR (S k) <> 0) by (apply not_0_INR; lia). pose proof (INR_fact_neq_0 k). simpl (fact 0).
  simpl (INR 1). field. auto.
Qed.
Lemma lam_rec k m : lam (S k) (S m) = 2 * lam k (S m) - lam (S k) m.
Proof.
  destruct m as [|m].
  - (* m = 1 *) rewrite lam_top. unfold lam.
    replace (match k with 0%nat | _ => _ end) with
      ((-1) ^ 1 * powerRZ 2 (Z.of_nat k - 1) * INR (k + 2 * 1) * (INR (fact (k + 1 - 1)) / (INR (fact 1) * INR (fact k))))
      by (destruct k; reflexivity).
    replace (S k + 1 - 1)%nat with (S k) by lia. replace (k + 1 - 1)%nat with k by lia.
    replace (Z.of_nat (S k) - 1)%Z with (Z.of_nat k) by lia.
    unfold Z.sub. rewrite powerRZ_add by lra. rewrite <- pow_powerRZ. rewrite !plus_INR, S_INR.
    pose proof (INR_fact_neq_0 k). pose proof (INR_fact_neq_0 (S k)). simpl. field. auto.
  - unfold lam.
    replace (match k with 0%nat | _ => _ end) with
      ((-1) ^ S (S m) * powerRZ 2 (Z.of_nat k - 1) * INR (k + 2 * S (S m)) * (INR (fact (k + S (S m) - 1)) / (INR (fact (S (S m))) * INR (fact k))))
      by (destruct k; reflexivity).
    replace (S k + S (S m) - 1)%nat with (S (k + S m)) by lia.
    replace (k + S (S m) - 1)%nat with (k + S m)%nat by lia.
    replace (S k + S m - 1)%nat with (k + S m)%nat by lia.
    replace (Z.of_nat (S k) - 1)%Z with (Z.of_nat k) by lia.
    unfold Z.sub. rewrite powerRZ_add by lra. rewrite <- pow_powerRZ.
    change (fact (S (k + S m))) with (S (k + S m) * fact (k + S m))%nat.
    change (fact (S (S m))) with (S (S m) * fact (S m))%nat.
    change (fact (S k)) with (S k * fact k)%nat.
    rewrite !mult_INR, !plus_INR, !mult_INR, !S_INR, !plus_INR, !S_INR.
    pose proof (INR_fact_neq_0 k). pose proof (INR_fact_neq_0 (S m)).
    pose proof (pos_INR m). pose proof (pos_INR k).
    set (F := INR (fact (k + S m))). set (G := INR (fact (S m))) in *. set (K := INR (fact k)) in *.
    simpl. field. repeat split; auto; lra.
Qed.

(** Coefficient with zeros above the diagonal. *)
Definition tcz (l k : nat) : R := if (k <=? l)%nat then transformation_coefficient l k else 0.
Lemma tcz_cases l k : (exists m, l = (k + 2 * m)%nat /\ tcz l k = lam k m) \/
  ((l < k)%nat /\ tcz l k = 0) \/ (Nat.odd (l + k) = true /\ tcz l k = 0).
Proof.
  unfold tcz. destruct (Nat.leb_spec k l) as [H|H]; [|right; left; auto].
  destruct (Nat.odd (l + k)) eqn:E.
  - right; right. split; auto. now apply tc_odd.
  - left. exists ((l - k) / 2)%nat.
    assert (Ev : Nat.even (l + k) = true) by (rewrite <- Nat.negb_odd, E; reflexivity).
    apply Nat.even_spec in Ev as [q Hq].
    assert (L : l = (k + 2 * (q - k))%nat) by lia.
    replace ((l - k) / 2)%nat with (q - k)%nat by (rewrite L at 1; replace (k + 2 * (q - k) - k)%nat with ((q - k) * 2)%nat by lia; now rewrite Nat.div_mul).
    split; [exact L|]. rewrite L at 1. apply tc_even.
Qed.
Lemma tcz_lt l k : (l < k)%nat -> tcz l k = 0.
Proof. intros H. unfold tcz. rewrite (proj2 (Nat.leb_gt k l)) by lia. reflexivity. Qed.
Lemma tcz_even k m : tcz (k + 2 * m) k = lam k m.
Proof. unfold tcz. rewrite (proj2 (Nat.leb_le k (k + 2 * m))) by lia. apply tc_even. Qed.
Lemma tcz_odd l k : Nat.odd (l + k) = true -> tcz l k = 0.
Proof. intros H. unfold tcz. destruct (k <=? l)%nat; auto. now apply tc_odd. Qed.
Lemma odd_SS n : Nat.odd (S (S n)) = Nat.odd n.
Proof. reflexivity. Qed.
Lemma tcz_rec0 l : tcz (S (S l)) 0 = - tcz l 0.
Proof.
  destruct (tcz_cases l 0) as [(m & E & ->)|[(E & _)|(E & ->)]]; [|lia|].
  - subst l. replace (S (S (0 + 2 * m))) with (0 + 2 * S m)%nat by lia. rewrite tcz_even, !lam_0. simpl. ring.
  - rewrite tcz_odd; [ring|]. rewrite <- E. reflexivity.
Qed.
Lemma tcz_rec l k : tcz (S (S l)) (S k) = 2 * tcz (S l) k - tcz l (S k).
Proof.
  destruct (tcz_cases (S l) k) as [(m & E & ->)|[(E & ->)|(E & ->)]].
  - replace (S (S l)) with (S k + 2 * m)%nat by lia. rewrite tcz_even.
    destruct m as [|m].
    + rewrite tcz_lt by lia. destruct k as [|k]; [lia|]. rewrite !lam_top. simpl. ring.
    + replace l with (S k + 2 * m)%nat by lia. rewrite tcz_even, lam_rec. ring.
  - rewrite !tcz_lt by lia. ring.
  - assert (E2 : Nat.odd (l + S k) = true) by (rewrite <- E; f_equal; lia).
    rewrite (tcz_odd l (S k)) by exact E2. rewrite tcz_odd; [ring|].
    replace (S (S l) + S k)%nat with (S (S (l + S k))) by lia. now rewrite odd_SS.
Qed.
Lemma cheb_poly_gen n : forall N x, (n < N)%nat -> cheb n x = pvf N (tcz n) x.
Proof.
  induction n as [| |n IH1 IH2] using two_step; intros N x HN.
  - destruct N as [|N]; [lia|]. unfold pvf. rewrite bsum_shift.
    rewrite (bsum_ext N _ (fun _ => 0)), bsum_0 by (intros; rewrite tcz_lt by lia; ring).
    change (tcz 0 0) with 1. simpl. ring.
  - destruct N as [|[|N]]; [lia|lia|]. unfold pvf. rewrite !bsum_shift.
    rewrite (bsum_ext N _ (fun _ => 0)), bsum_0 by (intros; rewrite tcz_lt by lia; ring).
    rewrite (tcz_odd 1 0) by reflexivity. change 1%nat with (1 + 2 * 0)%nat at 2. rewrite tcz_even, lam_top. simpl. ring.
  - rewrite cheb_SS. destruct N as [|N]; [lia|]. rewrite (IH1 (S N)), (IH2 N) by lia.
    unfold pvf. rewrite !bsum_shift.
    rewrite (bsum_ext N (fun i => tcz (S (S n)) (S i) * x ^ S i)
      (fun i => 2 * x * (tcz (S n) i * x ^ i) + (-1) * (tcz n (S i) * x ^ S i))).
    + rewrite bsum_plus, bsum_scal, bsum_scal, tcz_rec0. simpl. ring.
    + intros i _. rewrite tcz_rec. simpl. ring.
Qed.
Lemma cheb_poly n x : cheb n x = bsum (n + 1) (fun k => transformation_coefficient n k * x ^ k).
Proof.
  rewrite (cheb_poly_gen n (n + 1) x) by lia. apply bsum_ext. intros k Hk. unfold tcz.
  rewrite (proj2 (Nat.leb_le k n)) by lia. reflexivity.
Qed.
