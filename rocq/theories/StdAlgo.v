(** Standard-library algorithms used by the headers, as implemented by
    libstdc++ (so they have a definite result on unsorted ranges too). *)
From Coq Require Import List Arith Lia Bool.
From Verif Require Import Outcome Num.
Import ListNotations.

(** The halving loop shared by [std::lower_bound] and [std::upper_bound]
    (libstdc++ bits/stl_algobase.h [__lower_bound], bits/stl_algo.h
    [__upper_bound]).  [go_right i] tells whether the element at index [i]
    sends the search to its right.  [fuel] bounds the number of iterations;
    [len] strictly decreases, so [fuel = len] is always enough. *)
Fixpoint bsearch_loop (go_right : nat -> bool) (fuel first len : nat) : nat :=
  match fuel with
  | O => first
  | S f =>
      if len =? 0 then first
      else
        let half := len / 2 in
        let middle := first + half in
        if go_right middle
        then bsearch_loop go_right f (middle + 1) (len - half - 1)
        else bsearch_loop go_right f first half
  end.

Definition bsearch (go_right : nat -> bool) (n : nat) : nat :=
  bsearch_loop go_right n 0 n.

(** [std::lower_bound(l.begin(), l.end(), x) - l.begin()].  The default [x]
    of [nth] is never used: the loop only inspects indices below [length l]
    ([bsearch_ext]). *)
Definition lower_bound {T} `{Num T} (l : list T) (x : T) : nat :=
  bsearch (fun i => nlt (nth i l x) x) (length l).

(** [std::upper_bound(l.begin(), l.end(), x) - l.begin()]. *)
Definition upper_bound {T} `{Num T} (l : list T) (x : T) : nat :=
  bsearch (fun i => negb (nlt x (nth i l x))) (length l).

(** [std::is_sorted]: no element is less than its predecessor. *)
Fixpoint is_sorted {T} `{Num T} (l : list T) : bool :=
  match l with
  | a :: ((b :: _) as l') => if nlt b a then false else is_sorted l'
  | _ => true
  end.

(** [*std::min_element] / [*std::max_element] of a non-empty range: the first
    smallest / first largest element. *)
Fixpoint min_element {T} `{Num T} (m : T) (l : list T) : T :=
  match l with
  | [] => m
  | a :: l' => min_element (if nlt a m then a else m) l'
  end.
Fixpoint max_element {T} `{Num T} (m : T) (l : list T) : T :=
  match l with
  | [] => m
  | a :: l' => max_element (if nlt m a then a else m) l'
  end.

(** ** Facts about the search loop *)
Local Arguments Nat.div : simpl never.

(** The loop stops at a position whose left neighbour went right and whose
    own element did not: no assumption on [p]. *)
Lemma bsearch_loop_spec p fuel first len :
  len <= fuel ->
  let k := bsearch_loop p fuel first len in
  first <= k <= first + len /\
  (first < k -> p (k - 1) = true) /\
  (k < first + len -> p k = false).
Proof.
  revert first len. induction fuel as [|f IH]; intros first len Hf; simpl.
  - assert (len = 0) by lia. subst. repeat split; lia.
  - destruct (Nat.eqb_spec len 0) as [->|Hn].
    + repeat split; lia.
    + assert (Hh : len / 2 < len) by (apply Nat.div_lt; lia).
      destruct (p (first + len / 2)) eqn:E.
      * destruct (IH (first + len / 2 + 1) (len - len / 2 - 1) ltac:(lia)) as (H1 & H2 & H3).
        split; [lia|]. split.
        -- intros _. destruct (Nat.eq_dec (bsearch_loop p f (first + len / 2 + 1) (len - len / 2 - 1)) (first + len / 2 + 1)) as [Heq|Hne].
           ++ rewrite Heq. replace (first + len / 2 + 1 - 1) with (first + len / 2) by lia. exact E.
           ++ apply H2. lia.
        -- intros Hk. apply H3. lia.
      * destruct (IH first (len / 2) ltac:(lia)) as (H1 & H2 & H3).
        split; [lia|]. split; [exact H2|].
        intros Hk. destruct (Nat.eq_dec (bsearch_loop p f first (len / 2)) (first + len / 2)) as [Heq|Hne].
        -- rewrite Heq. exact E.
        -- apply H3. lia.
Qed.

Lemma bsearch_spec p n :
  bsearch p n <= n /\
  (0 < bsearch p n -> p (bsearch p n - 1) = true) /\
  (bsearch p n < n -> p (bsearch p n) = false).
Proof.
  unfold bsearch. destruct (bsearch_loop_spec p n 0 n (le_n n)) as (H1 & H2 & H3).
  simpl in *. repeat split; auto; lia.
Qed.

(** Only indices below [n] are inspected. *)
Lemma bsearch_loop_ext p q fuel first len :
  (forall i, first <= i < first + len -> p i = q i) ->
  bsearch_loop p fuel first len = bsearch_loop q fuel first len.
Proof.
  revert first len. induction fuel as [|f IH]; intros first len He; simpl; [reflexivity|].
  destruct (Nat.eqb_spec len 0) as [->|Hn]; [reflexivity|].
  assert (Hh : len / 2 < len) by (apply Nat.div_lt; lia).
  rewrite (He (first + len / 2)) by lia.
  destruct (q (first + len / 2)); apply IH; intros i Hi; apply He; lia.
Qed.

Lemma bsearch_ext p q n : (forall i, i < n -> p i = q i) -> bsearch p n = bsearch q n.
Proof. intros H. apply bsearch_loop_ext. intros i Hi. apply H. lia. Qed.

(** On a partitioned range the result is the partition point. *)
Lemma bsearch_partition p n k :
  k <= n -> (forall i, i < k -> p i = true) -> (forall i, k <= i < n -> p i = false) ->
  bsearch p n = k.
Proof.
  intros Hk Ht Hf. destruct (bsearch_spec p n) as (H1 & H2 & H3).
  destruct (lt_eq_lt_dec (bsearch p n) k) as [[Hlt|Heq]|Hgt]; auto.
  - specialize (H3 ltac:(lia)). rewrite Ht in H3 by lia. discriminate.
  - specialize (H2 ltac:(lia)). rewrite Hf in H2 by lia. discriminate.
Qed.
