(** Binary search and sortedness on real abscissae. *)
From Coq Require Import List Arith Lia Bool Reals Lra.
From Verif Require Import Outcome Num StdAlgo S_Interp1d.
Import ListNotations.
Open Scope R_scope.

Lemma lower_bound_le_length {T} `{Num T} (l : list T) x : (lower_bound l x <= length l)%nat.
Proof. apply bsearch_spec. Qed.

Lemma upper_bound_le_length {T} `{Num T} (l : list T) x : (upper_bound l x <= length l)%nat.
Proof. apply bsearch_spec. Qed.

Lemma increasing_lt xs i j : increasing xs -> (i < j < length xs)%nat -> nth i xs 0 < nth j xs 0.
Proof. intros H. apply H. Qed.

Lemma increasing_le xs i j : increasing xs -> (i <= j < length xs)%nat -> nth i xs 0 <= nth j xs 0.
Proof.
  intros H Hij. destruct (Nat.eq_dec i j) as [->|Hne]; [lra|].
  left. apply H. lia.
Qed.

Lemma increasing_lt_inv xs i j : increasing xs -> (i < length xs)%nat -> (j < length xs)%nat ->
  nth i xs 0 < nth j xs 0 -> (i < j)%nat.
Proof.
  intros H Hi Hj Hlt. destruct (le_lt_dec j i) as [Hle|]; auto.
  pose proof (increasing_le xs j i H ltac:(lia)). lra.
Qed.

Lemma increasing_tail a xs : increasing (a :: xs) -> increasing xs.
Proof. intros H i j Hij. apply (H (S i) (S j)). simpl. lia. Qed.

Lemma increasing_is_sorted xs : increasing xs -> @is_sorted R RNum xs = true.
Proof.
  induction xs as [|a [|b xs] IH]; intros H; simpl; auto.
  rewrite (proj2 (Rltb_false b a)).
  - apply IH. eapply increasing_tail; eauto.
  - left. apply (H 0%nat 1%nat). simpl. lia.
Qed.

Lemma nth_dflt {A} (l : list A) i d d' : (i < length l)%nat -> nth i l d = nth i l d'.
Proof. apply nth_indep. Qed.

Lemma lower_bound_at xs x k :
  (k <= length xs)%nat ->
  (forall i, (i < k)%nat -> nth i xs 0 < x) ->
  (forall i, (k <= i < length xs)%nat -> x <= nth i xs 0) ->
  lower_bound xs x = k.
Proof.
  intros Hk H1 H2. unfold lower_bound. apply bsearch_partition; auto.
  - intros i Hi. apply Rltb_true. rewrite (nth_indep _ x 0) by lia. auto.
  - intros i Hi. apply Rltb_false. rewrite (nth_indep _ x 0) by lia. auto.
Qed.

Lemma upper_bound_at xs x k :
  (k <= length xs)%nat ->
  (forall i, (i < k)%nat -> nth i xs 0 <= x) ->
  (forall i, (k <= i < length xs)%nat -> x < nth i xs 0) ->
  upper_bound xs x = k.
Proof.
  intros Hk H1 H2. unfold upper_bound. apply bsearch_partition; auto.
  - intros i Hi. apply negb_true_iff. apply Rltb_false. rewrite (nth_indep _ x 0) by lia. auto.
  - intros i Hi. apply negb_false_iff. apply Rltb_true. rewrite (nth_indep _ x 0) by lia. auto.
Qed.

(** [nth i xs 0 < x <= nth (S i) xs 0] selects index [S i]. *)
Lemma lower_bound_cell xs x i :
  increasing xs -> (S i < length xs)%nat ->
  nth i xs 0 < x <= nth (S i) xs 0 -> lower_bound xs x = S i.
Proof.
  intros H Hi Hx. apply lower_bound_at; [lia| |].
  - intros j Hj. pose proof (increasing_le xs j i H ltac:(lia)). lra.
  - intros j Hj. pose proof (increasing_le xs (S i) j H ltac:(lia)). lra.
Qed.

Lemma lower_bound_first xs x :
  increasing xs -> x <= nth 0 xs 0 -> lower_bound xs x = 0%nat.
Proof.
  intros H Hx. apply lower_bound_at; [lia|lia|].
  intros j Hj. pose proof (increasing_le xs 0 j H ltac:(lia)). lra.
Qed.

Lemma lower_bound_last xs x :
  increasing xs -> (0 < length xs)%nat -> nth (length xs - 1) xs 0 < x -> lower_bound xs x = length xs.
Proof.
  intros H Hn Hx. apply lower_bound_at; [lia| |lia].
  intros j Hj. pose proof (increasing_le xs j (length xs - 1) H ltac:(lia)). lra.
Qed.

(** [nth i xs 0 <= x < nth (S i) xs 0] selects index [S i]. *)
Lemma upper_bound_cell xs x i :
  increasing xs -> (S i < length xs)%nat ->
  nth i xs 0 <= x < nth (S i) xs 0 -> upper_bound xs x = S i.
Proof.
  intros H Hi Hx. apply upper_bound_at; [lia| |].
  - intros j Hj. pose proof (increasing_le xs j i H ltac:(lia)). lra.
  - intros j Hj. pose proof (increasing_le xs (S i) j H ltac:(lia)). lra.
Qed.

(** Every point of the range is in a cell. *)
Lemma cell_exists xs x :
  (2 <= length xs)%nat ->
  nth 0 xs 0 <= x <= nth (length xs - 1) xs 0 ->
  exists i, (S i < length xs)%nat /\ nth i xs 0 <= x <= nth (S i) xs 0.
Proof.
  intros Hn Hx.
  assert (Hk : forall k, (S k < length xs)%nat -> x <= nth (S k) xs 0 ->
    exists i, (S i < length xs)%nat /\ nth i xs 0 <= x <= nth (S i) xs 0).
  { induction k as [|k IH]; intros Hk1 Hk2.
    - exists 0%nat. split; [lia|]. lra.
    - destruct (Rle_dec (nth (S k) xs 0) x) as [Hle|Hnle].
      + exists (S k). split; [lia|]. lra.
      + apply IH; [lia|lra]. }
  apply (Hk (length xs - 2)%nat); [lia|].
  replace (S (length xs - 2)) with (length xs - 1)%nat by lia. lra.
Qed.

(** Half-open version for strictly interior search. *)
Lemma cell_exists_ho xs x :
  (2 <= length xs)%nat ->
  nth 0 xs 0 <= x < nth (length xs - 1) xs 0 ->
  exists i, (S i < length xs)%nat /\ nth i xs 0 <= x < nth (S i) xs 0.
Proof.
  intros Hn Hx.
  assert (Hk : forall k, (S k < length xs)%nat -> x < nth (S k) xs 0 ->
    exists i, (S i < length xs)%nat /\ nth i xs 0 <= x < nth (S i) xs 0).
  { induction k as [|k IH]; intros Hk1 Hk2.
    - exists 0%nat. split; [lia|]. lra.
    - destruct (Rle_dec (nth (S k) xs 0) x) as [Hle|Hnle].
      + exists (S k). split; [lia|]. lra.
      + apply IH; [lia|lra]. }
  apply (Hk (length xs - 2)%nat); [lia|].
  replace (S (length xs - 2)) with (length xs - 1)%nat by lia. lra.
Qed.
