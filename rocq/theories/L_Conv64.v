(** Conversion of Chebyshev series to power series in binary64. *)
From Coq Require Import List Arith ZArith Reals Bool Lia Lra Psatz.
From Flocq Require Import Core.Core IEEE754.BinarySingleNaN.
From Verif Require Import Outcome Num NumFun F64 L_F64 L_Linspace64 L_F64Err M_Series S_Series L_Series S_Angles S_Double S_Rot64 L_Series64
  L_Interp64 L_Special64 L_Apx M_Cheb S_Cheb L_Cheb L_Cheb2 L_Cheb3 S_Ser64 L_Ser64 L_E1d S_Der64 L_Der64 S_DCheb64 L_DCheb64 S_Conv64.
From Verif Require L_Gen64.
Import ListNotations.
Local Open Scope R_scope.

(** ** The polynomials *)
Lemma coef_zero n : forall k, (n < k)%nat -> cheb_coef n k = 0%Z.
Proof.
  induction n as [n IH] using lt_wf_ind. intros k H. destruct n as [|[|q]]; [destruct k; [lia|reflexivity]|destruct k as [|[|k]]; [lia|lia|reflexivity]|].
  change (cheb_coef (S (S q)) k) with (2 * match k with O => 0 | S l => cheb_coef (S q) l end - cheb_coef q k)%Z.
  destruct k as [|k]; [lia|]. rewrite !IH by lia. reflexivity.
Qed.
Lemma coef_top n : (1 <= cheb_coef n n)%Z.
Proof.
  induction n as [n IH] using lt_wf_ind. destruct n as [|[|q]]; [cbn; lia|cbn; lia|].
  change (cheb_coef (S (S q)) (S (S q))) with (2 * cheb_coef (S q) (S q) - cheb_coef q (S (S q)))%Z.
  rewrite (coef_zero q) by lia. specialize (IH (S q) ltac:(lia)). lia.
Qed.
Lemma bsum_shift1 n f : bsum (S n) f = f 0%nat + bsum n (fun k => f (S k)).
Proof. induction n as [|n IH]; [simpl; ring|]. change (bsum (S (S n)) f) with (bsum (S n) f + f (S n)). rewrite IH. simpl. ring. Qed.
Lemma cheb_powers n : forall N x, (n < N)%nat -> cheb n x = bsum N (fun k => IZR (cheb_coef n k) * x ^ k).
Proof.
  induction n as [n IH] using lt_wf_ind. intros N x H. destruct n as [|[|q]].
  - destruct N as [|N]; [lia|]. rewrite bsum_shift1, (bsum_ext N _ (fun _ => 0)) by (intros; cbn [cheb_coef]; ring).
    rewrite L_Ser64.bsum_const. cbn [cheb cheb_coef pow]. ring.
  - destruct N as [|[|N]]; [lia|lia|]. rewrite !bsum_shift1, (bsum_ext N _ (fun _ => 0)) by (intros; cbn [cheb_coef]; ring).
    rewrite L_Ser64.bsum_const. cbn [cheb cheb_coef pow]. ring.
  - destruct N as [|N]; [lia|].
    change (cheb (S (S q)) x) with (2 * x * cheb (S q) x - cheb q x).
    rewrite (IH (S q) ltac:(lia) N x ltac:(lia)), (IH q ltac:(lia) (S N) x ltac:(lia)).
    rewrite (bsum_ext (S N) (fun k => IZR (cheb_coef (S (S q)) k) * x ^ k)
      (fun k => match k with O => 0 | S l => 2 * x * (IZR (cheb_coef (S q) l) * x ^ l) end - IZR (cheb_coef q k) * x ^ k)).
    + rewrite (bsum_shift1 N (fun k => match k with O => 0 | S l => 2 * x * (IZR (cheb_coef (S q) l) * x ^ l) end - IZR (cheb_coef q k) * x ^ k)), (bsum_shift1 N (fun k => IZR (cheb_coef q k) * x ^ k)).
      rewrite (bsum_ext N (fun k => 2 * x * (IZR (cheb_coef (S q) k) * x ^ k) - IZR (cheb_coef q (S k)) * x ^ S k) (fun k => 2 * x * (IZR (cheb_coef (S q) k) * x ^ k) + (-1) * (IZR (cheb_coef q (S k)) * x ^ S k))) by (intros; ring).
      rewrite L_Ser64.bsum_plus, !L_Ser64.bsum_scal. ring.
    + intros k _. change (cheb_coef (S (S q)) k) with (2 * match k with O => 0 | S l => cheb_coef (S q) l end - cheb_coef q k)%Z.
      rewrite minus_IZR, mult_IZR. destruct k as [|k]; [simpl; ring|]. simpl. ring.
Qed.
Lemma power_of n (c : nat -> R) u : bsum (n + 1) (fun i => power_coef n c i * u ^ i) = bsum (n + 1) (fun r => c r * cheb r u).
Proof.
  unfold power_coef. rewrite (bsum_ext (n + 1) (fun r => c r * cheb r u) (fun r => bsum (n + 1) (fun i => c r * IZR (cheb_coef r i) * u ^ i))).
  - rewrite bsum_swap. apply bsum_ext. intros i _. now rewrite bsum_scal_r.
  - intros r Hr. rewrite (cheb_powers r (n + 1)) by lia. rewrite <- L_Ser64.bsum_scal. apply bsum_ext. intros. ring.
Qed.

(** ** The conversion coefficients *)
Definition pw (b k : Z) : f64 := if (0 <=? k)%Z then f64_ofZ (b ^ k) else Bdiv mode_NE (f64_ofZ 1) (f64_ofZ (b ^ (- k))).
Definition tcd (lj kj : nat) : f64 :=
  if ((lj =? 0) && (kj =? 0))%bool then nofZ 1
  else if (lj + kj) mod 2 =? 1 then nofZ 0
  else (pw (-1) (Z.of_nat ((lj - kj) / 2)) * pw 2 (Z.of_nat kj - 1) * nofZ (Z.of_nat lj)
        * (factorial ((lj + kj) / 2 - 1) / (factorial ((lj - kj) / 2) * factorial kj)))%num.
Definition ranks : list (nat * nat) := flat_map (fun l => map (fun k => (l, k)) (seq 0 (l + 1))) (seq 0 19).
Lemma ranks_in l k : (k <= l <= 18)%nat -> In (l, k) ranks.
Proof.
  intros H. unfold ranks. apply in_flat_map. exists l. split; [apply in_seq; lia|]. apply in_map_iff. exists k. split; [reflexivity|]. apply in_seq. lia.
Qed.
Definition same (x y : f64) : bool := match Bcompare x y with Some Eq => is_finite x | _ => false end.
Lemma tcd_all : forallb (fun p => same (tcd (fst p) (snd p)) (f64_ofZ (cheb_coef (fst p) (snd p))) && (Z.abs (cheb_coef (fst p) (snd p)) <? 2 ^ 53)%Z) ranks = true.
Proof. vm_compute. reflexivity. Qed.
Lemma same_val x y : same x y = true -> is_finite y = true -> is_finite x = true /\ val x = val y.
Proof.
  unfold same. intros H Fy. destruct (is_finite x) eqn:Fx; [|destruct (Bcompare x y) as [[]|]; discriminate]. split; [reflexivity|].
  rewrite Bcompare_correct in H by assumption. destruct (Rcompare_spec (val x) (val y)); try discriminate. assumption.
Qed.
Lemma pred_all : forallb (fun k => same ((nofZ (Z.of_nat k) : f64) -! nofZ 1) (f64_ofZ (Z.of_nat k - 1)) && Bool.eqb (Bsign ((nofZ (Z.of_nat k) : f64) -! nofZ 1)) (Bsign (f64_ofZ (Z.of_nat k - 1)))) (seq 0 19) = true.
Proof. vm_compute. reflexivity. Qed.

Lemma pred_exact k : (k <= 18)%nat -> (nofZ (Z.of_nat k) : f64) -! nofZ 1 = f64_ofZ (Z.of_nat k - 1).
Proof.
  intros H. assert (C := pred_all). rewrite forallb_forall in C. specialize (C k ltac:(apply in_seq; lia)). apply andb_prop in C. destruct C as (C1 & C2).
  destruct (ofZ_ok (Z.of_nat k - 1)) as (F & _); [lia|]. destruct (same_val _ _ C1 F) as (F1 & V1). apply eqb_prop in C2. now apply B2R_Bsign_inj.
Qed.
Lemma pw_val b k : b = (-1)%Z \/ b = 2%Z -> (b = (-1)%Z -> (0 <= k)%Z) -> (-1 <= k <= 18)%Z -> is_finite (pw b k) = true /\ val (pw b k) = powerRZ (IZR b) k.
Proof.
  intros Hb Hn Hk. unfold pw. destruct (Z.leb_spec 0 k) as [P|P].
  - destruct (ofZ_ok (b ^ k)) as (F & V).
    { destruct Hb as [->| ->].
      - rewrite Z.abs_pow. replace (Z.abs (-1)) with 1%Z by reflexivity. rewrite Z.pow_1_l by lia. lia.
      - rewrite Z.abs_eq by (apply Z.pow_nonneg; lia). apply Z.pow_lt_mono_r; lia. }
    split; [exact F|]. rewrite V. rewrite <- (Z2Nat.id k) at 1 2 by lia. rewrite <- pow_powerRZ, pow_IZR. reflexivity.
  - assert (k = -1)%Z by lia. subst k. destruct Hb as [->| ->]; [lia|]. destruct L_Gen64.half_ok as (F & V). change (2 ^ - -1)%Z with 2%Z. split; [exact F|]. rewrite V. simpl. field.
Qed.
Lemma tc_same (TT : NumTr f64) l k : pow_exact TT -> (k <= l <= 18)%nat -> transformation_coefficient l k = tcd l k.
Proof.
  intros HP H. unfold transformation_coefficient, tcd. cbv zeta. destruct ((l =? 0) && (k =? 0))%bool; [reflexivity|]. destruct ((l + k) mod 2 =? 1); [reflexivity|].
  assert (D : (((l - k) / 2) <= 9)%nat) by (apply (Nat.le_trans _ (18 / 2)); [apply Nat.div_le_mono; lia|cbn; lia]).
  f_equal. f_equal. f_equal.
  - destruct (pw_val (-1) (Z.of_nat ((l - k) / 2))) as (F & V); [auto|lia|lia|]. exact (HP (-1)%Z (Z.of_nat ((l - k) / 2)) _ ltac:(lia) ltac:(lia) ltac:(lia) F V).
  - destruct (pw_val 2 (Z.of_nat k - 1)) as (F & V); [auto|lia|lia|]. change (nsub (nofZ (Z.of_nat k)) (nofZ 1)) with ((nofZ (Z.of_nat k) : f64) -! nofZ 1).
    rewrite pred_exact by lia. exact (HP 2%Z (Z.of_nat k - 1)%Z _ ltac:(lia) ltac:(lia) ltac:(lia) F V).
Qed.
Lemma tc_exact (TT : NumTr f64) l k : pow_exact TT -> (k <= l <= 18)%nat ->
  is_finite (transformation_coefficient l k) = true /\ val (transformation_coefficient l k) = IZR (cheb_coef l k).
Proof.
  intros HP H. rewrite tc_same by assumption. assert (C := tcd_all). rewrite forallb_forall in C. specialize (C _ (ranks_in l k H)). cbn [fst snd] in C.
  apply andb_prop in C. destruct C as (C1 & C2). apply Z.ltb_lt in C2. destruct (ofZ_ok _ C2) as (F & V). destruct (same_val _ _ C1 F) as (F1 & V1). split; [exact F1|]. now rewrite V1.
Qed.

(** ** One axis *)
Lemma ls_zero_seq (f : nat -> R) i : (forall r, (r < i)%nat -> f r = 0) -> ls f (seq 0 i) = 0.
Proof. intros H. rewrite ls_seq, (bsum_ext i f (fun _ => 0)) by exact H. rewrite L_Ser64.bsum_const. ring. Qed.
Lemma ls_from (f : nat -> R) i n : (i <= n)%nat -> (forall r, (r < i)%nat -> f r = 0) -> ls f (seq i (n + 1 - i)) = bsum (n + 1) f.
Proof.
  intros H Z. rewrite <- ls_seq. replace (n + 1)%nat with (i + (n + 1 - i))%nat at 2 by lia. rewrite seq_app, ls_app, (ls_zero_seq f i Z). cbn [Nat.add]. ring.
Qed.
Lemma abs_coef_cases l k : Rabs (IZR (cheb_coef l k)) = 0 \/ 1 <= Rabs (IZR (cheb_coef l k)).
Proof.
  destruct (Z.eq_dec (cheb_coef l k) 0) as [->|H]; [left; apply Rabs_R0|right]. rewrite <- abs_IZR. apply (IZR_le 1). lia.
Qed.
Lemma size_tiny n c i : (i <= n)%nat -> (forall r, (r <= n)%nat -> tiny <= c r) -> tiny <= power_size n c i.
Proof.
  intros H Hc. unfold power_size. assert (P : 0 < tiny) by apply bpow_gt_0.
  assert (A : c i * Rabs (IZR (cheb_coef i i)) <= bsum (n + 1) (fun r => (if (r <=? n)%nat then c r else 0) * Rabs (IZR (cheb_coef r i)))).
  { assert (X := L_Ser64.bsum_single (n + 1) (fun r => (if (r <=? n)%nat then c r else 0) * Rabs (IZR (cheb_coef r i))) i ltac:(lia)).
    cbv beta in X. rewrite (proj2 (Nat.leb_le i n) H) in X. apply X. intros j. apply Rmult_le_pos; [|apply Rabs_pos]. destruct (Nat.leb_spec j n) as [L|L]; [specialize (Hc j L); lra|lra]. }
  rewrite (bsum_ext (n + 1) (fun r => c r * Rabs (IZR (cheb_coef r i))) (fun r => (if (r <=? n)%nat then c r else 0) * Rabs (IZR (cheb_coef r i)))).
  - apply Rle_trans with (2 := A). assert (T := IZR_le _ _ (coef_top i)). rewrite Rabs_pos_eq by lra. specialize (Hc i H). apply Rle_trans with (c i * 1); [lra|]. apply Rmult_le_compat_l; lra.
  - intros r Hr. rewrite (proj2 (Nat.leb_le r n)) by lia. reflexivity.
Qed.
Lemma axis_step (TT : NumTr f64) i n (c : nat -> f64) (C B : nat -> R) E : pow_exact TT -> (i <= n <= 18)%nat ->
  (forall r, (r <= n)%nat -> is_finite (c r) = true /\ Rabs (C r) <= B r /\ Rabs (val (c r) - C r) <= E * B r /\ tiny <= B r) ->
  0 <= E <= / 10 -> power_size n B i <= / 2 * big ->
  let v := acc_loop_from i n (nofZ 0) (fun r => (c r * transformation_coefficient r i)%num) in
  is_finite v = true /\ Rabs (power_coef n C i) <= power_size n B i /\ Rabs (val v - power_coef n C i) <= (E + 32 * u53) * power_size n B i.
Proof.
  intros HP Hi H HE HB v. assert (U := u_tiny). assert (PT : 0 < tiny) by apply bpow_gt_0.
  assert (Z1 : forall r, (r < i)%nat -> C r * IZR (cheb_coef r i) = 0) by (intros r Hr; rewrite coef_zero by lia; ring).
  assert (Z2 : forall r, (r < i)%nat -> B r * Rabs (IZR (cheb_coef r i)) = 0) by (intros r Hr; rewrite coef_zero by lia; rewrite Rabs_R0; ring).
  assert (S1 := ls_from (fun r => C r * IZR (cheb_coef r i)) i n ltac:(lia) Z1). assert (S2 := ls_from (fun r => B r * Rabs (IZR (cheb_coef r i))) i n ltac:(lia) Z2).
  fold (power_coef n C i) in S1. fold (power_size n B i) in S2.
  assert (SZ : power_size n B i >= 0).
  { apply Rle_ge. rewrite <- S2, ls_from by (try lia; exact Z2). apply Rle_trans with (bsum (n + 1) (fun _ => 0)); [rewrite L_Ser64.bsum_const; lra|].
    apply bsum_le. intros r Hr. apply Rmult_le_pos; [|apply Rabs_pos]. destruct (H r ltac:(lia)) as (_ & _ & _ & X). lra. }
  assert (LN : INR (length (seq i (n + 1 - i))) <= 19). { rewrite seq_length. replace 19 with (INR 19) by (simpl; lra). apply le_INR. lia. }
  assert (TE : forall r, In r (seq i (n + 1 - i)) -> is_finite (c r *! transformation_coefficient r i) = true /\ Rabs (C r * IZR (cheb_coef r i)) <= B r * Rabs (IZR (cheb_coef r i)) /\
    Rabs (val (c r *! transformation_coefficient r i) - C r * IZR (cheb_coef r i)) <= (E + 2 * u53) * (B r * Rabs (IZR (cheb_coef r i)))).
  { intros r Hr. apply in_seq in Hr. destruct (H r ltac:(lia)) as (F & HC & EC & T). destruct (tc_exact TT r i HP ltac:(lia)) as (FT & VT).
    assert (TB : B r * Rabs (IZR (cheb_coef r i)) <= power_size n B i).
    { rewrite <- S2. clear - H Hr Hi PT. assert (X : In r (seq i (n + 1 - i))) by (apply in_seq; lia). assert (G : forall q, In q (seq i (n + 1 - i)) -> 0 <= B q * Rabs (IZR (cheb_coef q i))).
      { intros q Hq. apply in_seq in Hq. apply Rmult_le_pos; [|apply Rabs_pos]. destruct (H q ltac:(lia)) as (_ & _ & _ & Y). lra. }
      revert X G. generalize (seq i (n + 1 - i)). intros l. induction l as [|a l IH]; intros X G; [destruct X|]. cbn [ls fold_right]. fold (ls (fun r => B r * Rabs (IZR (cheb_coef r i))) l).
      assert (N : 0 <= ls (fun r => B r * Rabs (IZR (cheb_coef r i))) l). { clear - G. induction l as [|b l IH]; [cbn; lra|]. cbn [ls fold_right]. fold (ls (fun r => B r * Rabs (IZR (cheb_coef r i))) l).
        assert (0 <= B b * Rabs (IZR (cheb_coef b i))) by (apply G; right; left; reflexivity). assert (0 <= ls (fun r => B r * Rabs (IZR (cheb_coef r i))) l) by (apply IH; intros q [->|Hq]; apply G; [left; reflexivity|right; right; exact Hq]). lra. }
      destruct X as [->|X]; [lra|]. assert (0 <= B a * Rabs (IZR (cheb_coef a i))) by (apply G; left; reflexivity). assert (Y := IH X (fun q Hq => G q (or_intror Hq))). lra. }
    destruct (prod_near (c r) (transformation_coefficient r i) (C r) (IZR (cheb_coef r i)) (B r) (Rabs (IZR (cheb_coef r i))) E 0 F FT HC) as (P1 & P2 & P3).
    - lra.
    - exact EC.
    - rewrite VT, Rminus_diag_eq, Rabs_R0 by reflexivity. lra.
    - lra.
    - lra.
    - destruct (abs_coef_cases r i) as [Z|Z]; [left; rewrite Z; ring|right]. apply Rle_trans with (tiny * 1); [lra|]. apply Rmult_le_compat; lra.
    - assert (0 < big) by apply bpow_gt_0. lra.
    - split; [exact P1|]. split; [exact P2|]. replace (E + 2 * u53) with (E + 0 + E * 0 + 2 * u53) by ring. exact P3. }
  destruct (sum_near (fun r => c r *! transformation_coefficient r i) (fun r => C r * IZR (cheb_coef r i)) (fun r => B r * Rabs (IZR (cheb_coef r i))) (seq i (n + 1 - i)) (E + 2 * u53) TE) as (F & A & D).
  - lra.
  - rewrite S2. exact HB.
  - assert (INR (length (seq i (n + 1 - i))) * u53 <= 19 * u53) by (apply Rmult_le_compat_r; lra). lra.
  - rewrite S1, S2 in *. split; [exact F|]. split; [exact A|]. apply Rle_trans with (1 := D). apply Rmult_le_compat_r; [lra|].
    assert (INR (length (seq i (n + 1 - i))) * u53 <= 19 * u53) by (apply Rmult_le_compat_r; lra). lra.
Qed.
