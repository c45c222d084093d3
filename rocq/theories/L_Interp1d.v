(** Lemmas about the 1D interpolation model. *)
From Coq Require Import List Arith Lia Bool Reals Lra.
From Verif Require Import Outcome Num StdAlgo M_Interp1d S_Interp1d L_Search.
Import ListNotations.
Open Scope R_scope.

(** ** Coefficients over R *)
Definition ca (xs ys : list R) (i : nat) : R :=
  (nth i ys 0 - nth (i - 1) ys 0) / (nth i xs 0 - nth (i - 1) xs 0).
Definition cb (xs ys : list R) (i : nat) : R :=
  (nth (i - 1) ys 0 * nth i xs 0 - nth (i - 1) xs 0 * nth i ys 0) / (nth i xs 0 - nth (i - 1) xs 0).

Lemma coef_loop_R xs ys n : forall k a b,
  (length xs <= length ys)%nat -> (1 <= k)%nat -> (k + n <= length xs)%nat ->
  coef_loop xs ys (seq k n) a b =
    ((a ++ map (ca xs ys) (seq k n), b ++ map (cb xs ys) (seq k n)), Ok tt).
Proof.
  induction n as [|n IH]; intros k a b Hl Hk Hkn; simpl.
  - rewrite !app_nil_r. reflexivity.
  - rewrite !(vat_lt _ _ 0) by lia. simpl.
    rewrite IH by lia. rewrite <- !app_assoc. reflexivity.
Qed.

Lemma on_line_coef x0 y0 x1 y1 x : x0 < x1 ->
  on_line x0 y0 x1 y1 x ((y1 - y0) / (x1 - x0) * x + (y0 * x1 - x0 * y1) / (x1 - x0)).
Proof. intros H. unfold on_line. field. lra. Qed.

Lemma on_line_unique x0 y0 x1 y1 x v v' : x0 < x1 ->
  on_line x0 y0 x1 y1 x v -> on_line x0 y0 x1 y1 x v' -> v = v'.
Proof.
  unfold on_line. intros H H1 H2. rewrite <- H2 in H1.
  apply Rmult_eq_reg_r in H1; lra.
Qed.

Lemma on_line_left x0 y0 x1 y1 v : x0 < x1 -> on_line x0 y0 x1 y1 x0 v -> v = y0.
Proof. intros H H1. apply (on_line_unique x0 y0 x1 y1 x0); auto. unfold on_line. ring. Qed.
Lemma on_line_right x0 y0 x1 y1 v : x0 < x1 -> on_line x0 y0 x1 y1 x1 v -> v = y1.
Proof. intros H H1. apply (on_line_unique x0 y0 x1 y1 x1); auto. unfold on_line. ring. Qed.

(** The value on a chord is a convex combination of the ends. *)
Lemma on_line_convex x0 y0 x1 y1 x v : x0 < x1 -> x0 <= x <= x1 ->
  on_line x0 y0 x1 y1 x v ->
  exists t, 0 <= t <= 1 /\ x = x0 + t * (x1 - x0) /\ v = y0 + t * (y1 - y0).
Proof.
  intros H Hx Hl. exists ((x - x0) / (x1 - x0)).
  assert (Ht : (x - x0) / (x1 - x0) * (x1 - x0) = x - x0) by (field; lra).
  repeat split.
  - apply Rmult_le_reg_r with (x1 - x0); lra.
  - apply Rmult_le_reg_r with (x1 - x0); lra.
  - lra.
  - apply (on_line_unique x0 y0 x1 y1 x); auto. unfold on_line.
    replace (y0 + (x - x0) / (x1 - x0) * (y1 - y0) - y0) with ((y1 - y0) * ((x - x0) / (x1 - x0))) by ring.
    rewrite Rmult_assoc, Ht. reflexivity.
Qed.

Lemma on_line_between x0 y0 x1 y1 x v : x0 < x1 -> x0 <= x <= x1 ->
  on_line x0 y0 x1 y1 x v -> Rmin y0 y1 <= v <= Rmax y0 y1.
Proof.
  intros H Hx Hl. destruct (on_line_convex _ _ _ _ _ _ H Hx Hl) as (t & Ht & _ & ->).
  pose proof (Rmin_l y0 y1). pose proof (Rmin_r y0 y1).
  pose proof (Rmax_l y0 y1). pose proof (Rmax_r y0 y1).
  split; nra.
Qed.

(** ** Initialisation *)
Definition linear_kind (m : interp_method) : option lin_kind :=
  match m with
  | LINEAR => Some KLinear
  | LINEAR_EXTRAPOLATE => Some KExtrapolate
  | LINEAR_SATURATE => Some KSaturate
  | _ => None
  end.

Definition obj (k : lin_kind) (xs ys : list R) (a b : list R) : interp1d R R :=
  mkI1 k (Some xs) (Some ys) (length xs)
       (Some (nth 0 xs 0)) (Some (nth (length xs - 1) xs 0)) a b.

Definition coefs_a xs ys := map (ca xs ys) (seq 1 (length xs - 1)).
Definition coefs_b xs ys := map (cb xs ys) (seq 1 (length xs - 1)).

Lemma init1d_ok bm o xs ys :
  (bm = Debug -> length xs = length ys /\ is_sorted xs = true) ->
  (1 <= length xs <= length ys)%nat ->
  init1d bm o (Some xs) (Some ys) =
    (obj (i_kind o) xs ys (i_a o ++ coefs_a xs ys) (i_b o ++ coefs_b xs ys), Ok tt).
Proof.
  intros Hd Hl. unfold init1d, init_base.
  assert (Hc : bind (cassert bm (length xs =? length ys)%nat) (fun _ => cassert bm (is_sorted xs)) = Ok tt).
  { destruct bm; simpl; auto. destruct (Hd eq_refl) as [H1 H2].
    rewrite H1, Nat.eqb_refl. simpl. rewrite H2. reflexivity. }
  rewrite Hc. rewrite !(vat_lt xs _ 0) by lia. simpl.
  rewrite coef_loop_R by lia. reflexivity.
Qed.

Lemma new1d_ok bm m k xs ys :
  linear_kind m = Some k ->
  (bm = Debug -> length xs = length ys /\ is_sorted xs = true) ->
  (1 <= length xs <= length ys)%nat ->
  new1d bm m xs ys = Ok (obj k xs ys (coefs_a xs ys) (coefs_b xs ys)).
Proof.
  intros Hm Hd Hl. unfold new1d.
  destruct m; simpl in Hm; inversion Hm; subst; simpl; rewrite init1d_ok by auto; reflexivity.
Qed.

Lemma new1d_increasing bm m k xs ys :
  linear_kind m = Some k -> increasing xs -> (1 <= length xs)%nat -> length ys = length xs ->
  new1d bm m xs ys = Ok (obj k xs ys (coefs_a xs ys) (coefs_b xs ys)).
Proof.
  intros. apply new1d_ok; auto; [|lia]. intros _. split; [auto|]. apply increasing_is_sorted; auto.
Qed.

(** ** Evaluation *)
Lemma eval_base_index xs ys a b k x j :
  lower_bound xs x = j -> (max 1 j - 1 < length a)%nat -> length b = length a ->
  eval_base (obj k xs ys a b) x =
    Ok (nth (max 1 j - 1) a 0 * x + nth (max 1 j - 1) b 0).
Proof.
  intros Hj Ha Hb. unfold eval_base. simpl. rewrite Hj.
  replace (if (j =? 0)%nat then 1%nat else j) with (max 1 j) by (destruct j as [|[|j]]; reflexivity).
  rewrite !(vat_lt _ _ 0) by lia. reflexivity.
Qed.

Lemma coefs_a_nth xs ys j : (S j < length xs)%nat -> nth j (coefs_a xs ys) 0 = ca xs ys (S j).
Proof.
  intros H. unfold coefs_a. rewrite (nth_indep _ 0 (ca xs ys 0)) by (rewrite map_length, seq_length; lia).
  rewrite map_nth. rewrite seq_nth by lia. reflexivity.
Qed.
Lemma coefs_b_nth xs ys j : (S j < length xs)%nat -> nth j (coefs_b xs ys) 0 = cb xs ys (S j).
Proof.
  intros H. unfold coefs_b. rewrite (nth_indep _ 0 (cb xs ys 0)) by (rewrite map_length, seq_length; lia).
  rewrite map_nth. rewrite seq_nth by lia. reflexivity.
Qed.
Lemma coefs_a_length xs ys : length (coefs_a xs ys) = (length xs - 1)%nat.
Proof. unfold coefs_a. rewrite map_length, seq_length. reflexivity. Qed.
Lemma coefs_b_length xs ys : length (coefs_b xs ys) = (length xs - 1)%nat.
Proof. unfold coefs_b. rewrite map_length, seq_length. reflexivity. Qed.

(** Selecting cell [j] evaluates its chord. *)
Lemma chord_line xs ys j x : increasing xs -> (S j < length xs)%nat ->
  on_line (nth j xs 0) (nth j ys 0) (nth (S j) xs 0) (nth (S j) ys 0) x
          (nth j (coefs_a xs ys) 0 * x + nth j (coefs_b xs ys) 0).
Proof.
  intros Hi Hj. rewrite coefs_a_nth, coefs_b_nth by auto. unfold ca, cb.
  replace (S j - 1)%nat with j by lia. apply on_line_coef. apply Hi. lia.
Qed.

(** Which cell is selected by a point at or before the last abscissa. *)
Lemma sel_cell xs x : increasing xs -> (2 <= length xs)%nat ->
  x <= nth (length xs - 1) xs 0 ->
  exists j, (S j < length xs)%nat /\ (max 1 (lower_bound xs x) - 1)%nat = j /\
    x <= nth (S j) xs 0 /\ (nth 0 xs 0 < x -> nth j xs 0 < x) /\ (x <= nth 0 xs 0 -> j = 0%nat).
Proof.
  intros Hi Hn Hx. destruct (Rle_dec x (nth 0 xs 0)) as [Hle|Hnle].
  - exists 0%nat. rewrite lower_bound_first by auto. simpl. repeat split; try lia; try lra.
    pose proof (Hi 0%nat 1%nat ltac:(lia)). lra.
  - assert (exists i, (S i < length xs)%nat /\ nth i xs 0 < x <= nth (S i) xs 0) as (i & Hil & Hix).
    { destruct (cell_exists xs x Hn ltac:(lra)) as (i & Hil & Hix).
      destruct (Rlt_dec (nth i xs 0) x) as [|Hn']; [exists i; split; [auto|lra]|].
      assert (x = nth i xs 0) by lra. destruct i as [|i]; [lra|].
      exists i. split; [lia|]. pose proof (Hi i (S i) ltac:(lia)). lra. }
    exists i. rewrite (lower_bound_cell xs x i) by auto.
    replace (max 1 (S i) - 1)%nat with i by lia. repeat split; auto; try lra.
Qed.

Lemma eval_base_line xs ys k x : increasing xs -> (2 <= length xs)%nat ->
  x <= nth (length xs - 1) xs 0 ->
  exists j v, (S j < length xs)%nat /\
    eval_base (obj k xs ys (coefs_a xs ys) (coefs_b xs ys)) x = Ok v /\
    on_line (nth j xs 0) (nth j ys 0) (nth (S j) xs 0) (nth (S j) ys 0) x v /\
    x <= nth (S j) xs 0 /\ (nth 0 xs 0 < x -> nth j xs 0 < x) /\ (x <= nth 0 xs 0 -> j = 0%nat).
Proof.
  intros Hi Hn Hx. destruct (sel_cell xs x Hi Hn Hx) as (j & Hj & Hsel & H1 & H2 & H3).
  exists j. eexists. split; [auto|]. split.
  - rewrite (eval_base_index xs ys _ _ k x (lower_bound xs x)); auto.
    + rewrite Hsel, coefs_a_length. lia.
    + rewrite coefs_a_length, coefs_b_length. reflexivity.
  - rewrite Hsel. split; [|auto]. apply chord_line; auto.
Qed.

(** Consecutive chords agree at the shared abscissa, so the polyline is a function. *)
Lemma on_polyline_unique xs ys x v v' : increasing xs ->
  on_polyline xs ys x v -> on_polyline xs ys x v' -> v = v'.
Proof.
  intros Hi (i & Hil & Hix & Hv) (j & Hjl & Hjx & Hv').
  assert (Hord : forall i j v v', (i < j)%nat ->
     (S i < length xs)%nat -> nth i xs 0 <= x <= nth (S i) xs 0 ->
     on_line (nth i xs 0) (nth i ys 0) (nth (S i) xs 0) (nth (S i) ys 0) x v ->
     (S j < length xs)%nat -> nth j xs 0 <= x <= nth (S j) xs 0 ->
     on_line (nth j xs 0) (nth j ys 0) (nth (S j) xs 0) (nth (S j) ys 0) x v' -> v = v').
  { clear - Hi. intros i j v v' Hlt Hil Hix Hv Hjl Hjx Hv'.
    pose proof (increasing_le xs (S i) j Hi ltac:(lia)) as Hle.
    assert (Hxx : x = nth (S i) xs 0) by lra. assert (Hxj : x = nth j xs 0) by lra.
    assert (S i = j).
    { destruct (Nat.eq_dec (S i) j); auto. pose proof (Hi (S i) j ltac:(lia)). lra. }
    subst j. rewrite Hxx in Hv, Hv'.
    apply on_line_right in Hv; [|apply Hi; lia].
    apply on_line_left in Hv'; [|apply Hi; lia]. congruence. }
  destruct (lt_eq_lt_dec i j) as [[Hlt|Heq]|Hgt].
  - eapply Hord; [exact Hlt|..]; eauto.
  - subst j. eapply on_line_unique; [|exact Hv|exact Hv']. apply Hi. lia.
  - symmetry. eapply Hord; [exact Hgt|..]; eauto.
Qed.

Lemma polyline_node xs ys i : (2 <= length xs)%nat -> (i < length xs)%nat -> increasing xs ->
  on_polyline xs ys (nth i xs 0) (nth i ys 0).
Proof.
  intros Hn Hi Hinc. destruct (Nat.eq_dec i 0) as [->|Hne].
  - exists 0%nat. split; [lia|]. pose proof (Hinc 0%nat 1%nat ltac:(lia)).
    split; [lra|]. unfold on_line. ring.
  - exists (i - 1)%nat. replace (S (i - 1)) with i by lia. split; [lia|].
    pose proof (Hinc (i - 1)%nat i ltac:(lia)). split; [lra|]. unfold on_line. ring.
Qed.

(** Range guard of a point inside. *)
Lemma in_range_guard xs x : nth 0 xs 0 <= x <= nth (length xs - 1) xs 0 ->
  Rltb x (nth 0 xs 0) || Rltb (nth (length xs - 1) xs 0) x = false.
Proof.
  intros H. apply orb_false_iff. split; apply Rltb_false; lra.
Qed.

Lemma eval1d_in_range m k xs ys bm x :
  linear_kind m = Some k -> increasing xs -> (2 <= length xs)%nat -> length ys = length xs ->
  nth 0 xs 0 <= x <= nth (length xs - 1) xs 0 ->
  exists o v, new1d bm m xs ys = Ok o /\ eval1d o x = Ok v /\ on_polyline xs ys x v.
Proof.
  intros Hm Hi Hn Hl Hx. rewrite (new1d_increasing bm m k) by (auto; lia).
  destruct (eval_base_line xs ys k x Hi Hn ltac:(lra)) as (j & v & Hj & Hev & Hline & H1 & H2 & H3).
  eexists. exists v. split; [reflexivity|]. split.
  - unfold eval1d. cbn [i_kind i_xmin i_xmax obj]. destruct k.
    + simpl. rewrite in_range_guard by auto. exact Hev.
    + exact Hev.
    + simpl. rewrite in_range_guard by auto. exact Hev.
  - exists j. split; [auto|]. split; [|auto]. split; [|auto].
    destruct (Rlt_dec (nth 0 xs 0) x) as [H|H]; [left; apply H2; auto|].
    rewrite H3 by lra. lra.
Qed.

(** Every value of the in-range evaluation is the polyline value. *)
Lemma eval1d_polyline m xs ys bm o x v :
  (exists k, linear_kind m = Some k) -> increasing xs -> (2 <= length xs)%nat -> length ys = length xs ->
  new1d bm m xs ys = Ok o -> on_polyline xs ys x v -> eval1d o x = Ok v.
Proof.
  intros (k & Hm) Hi Hn Hl Ho Hp.
  assert (Hx : nth 0 xs 0 <= x <= nth (length xs - 1) xs 0).
  { destruct Hp as (i & Hil & Hix & _).
    pose proof (increasing_le xs 0 i Hi ltac:(lia)).
    pose proof (increasing_le xs (S i) (length xs - 1) Hi ltac:(lia)). lra. }
  destruct (eval1d_in_range m k xs ys bm x Hm Hi Hn Hl Hx) as (o' & v' & Ho' & He & Hp').
  rewrite Ho in Ho'. injection Ho' as <-. rewrite He.
  rewrite (on_polyline_unique xs ys x v v'); auto.
Qed.

(** ** Property lemmas *)

Lemma is_linear_kind m : is_linear m -> exists k, linear_kind m = Some k.
Proof. intros [->|[->| ->]]; simpl; eauto. Qed.

Lemma nodes_lemma bm m xs ys i :
  is_linear m -> increasing xs -> (2 <= length xs)%nat -> length ys = length xs ->
  (i < length xs)%nat ->
  exists o, new1d bm m xs ys = Ok o /\ eval1d o (nth i xs 0) = Ok (nth i ys 0).
Proof.
  intros Hm Hi Hn Hl Hil. destruct (is_linear_kind m Hm) as (k & Hk).
  pose proof (new1d_increasing bm m k xs ys Hk Hi ltac:(lia) Hl) as Ho.
  eexists. split; [exact Ho|]. eapply eval1d_polyline; eauto. apply polyline_node; auto.
Qed.

Lemma chord_lemma bm m xs ys i x :
  is_linear m -> increasing xs -> (2 <= length xs)%nat -> length ys = length xs ->
  (S i < length xs)%nat -> nth i xs 0 <= x <= nth (S i) xs 0 ->
  exists o v, new1d bm m xs ys = Ok o /\ eval1d o x = Ok v /\
    on_line (nth i xs 0) (nth i ys 0) (nth (S i) xs 0) (nth (S i) ys 0) x v /\
    Rmin (nth i ys 0) (nth (S i) ys 0) <= v <= Rmax (nth i ys 0) (nth (S i) ys 0).
Proof.
  intros Hm Hi Hn Hl Hil Hx. destruct (is_linear_kind m Hm) as (k & Hk).
  pose proof (new1d_increasing bm m k xs ys Hk Hi ltac:(lia) Hl) as Ho.
  pose proof (chord_line xs ys i x Hi Hil) as Hline.
  eexists. eexists. split; [exact Ho|]. split; [|split; [exact Hline|]].
  - eapply eval1d_polyline; eauto. exists i. auto.
  - eapply on_line_between; [|exact Hx|exact Hline]. apply Hi. lia.
Qed.

Lemma linear_guard_lemma bm xs ys x :
  increasing xs -> (2 <= length xs)%nat -> length ys = length xs ->
  exists o, new1d bm LINEAR xs ys = Ok o /\
    ((x < nth 0 xs 0 \/ nth (length xs - 1) xs 0 < x) -> eval1d o x = Exit 1) /\
    (nth 0 xs 0 <= x <= nth (length xs - 1) xs 0 -> exists v, eval1d o x = Ok v).
Proof.
  intros Hi Hn Hl. pose proof (new1d_increasing bm LINEAR KLinear xs ys eq_refl Hi ltac:(lia) Hl) as Ho.
  eexists. split; [exact Ho|]. split.
  - intros Hx. unfold eval1d, obj; simpl. unfold nlt; simpl.
    destruct Hx as [Hx|Hx].
    + rewrite (proj2 (Rltb_true _ _) Hx). reflexivity.
    + rewrite (proj2 (Rltb_true (nth (length xs - 1) xs 0) x) Hx). rewrite orb_true_r. reflexivity.
  - intros Hx. destruct (eval1d_in_range LINEAR KLinear xs ys bm x eq_refl Hi Hn Hl Hx) as (o' & v & Ho' & He & _).
    rewrite Ho in Ho'. injection Ho' as <-. eauto.
Qed.

Lemma clamp_cases lo hi x : lo <= hi ->
  (x < lo /\ clamp lo hi x = lo) \/ (hi < x /\ clamp lo hi x = hi) \/ (lo <= x <= hi /\ clamp lo hi x = x).
Proof.
  intros H. unfold clamp, Rmin, Rmax. destruct (Rle_dec hi x); destruct (Rle_dec lo _); lra.
Qed.
Lemma clamp_range lo hi x : lo <= hi -> lo <= clamp lo hi x <= hi.
Proof. intros H. destruct (clamp_cases lo hi x H) as [[? ->]|[[? ->]|[? ->]]]; lra. Qed.
Lemma clamp_id lo hi x : lo <= x <= hi -> clamp lo hi x = x.
Proof. intros H. destruct (clamp_cases lo hi x ltac:(lra)) as [[? ?]|[[? ?]|[? ?]]]; lra. Qed.

Lemma saturate_eval bm xs ys x o :
  increasing xs -> (2 <= length xs)%nat -> length ys = length xs ->
  new1d bm LINEAR_SATURATE xs ys = Ok o ->
  exists v, eval1d o x = Ok v /\
    on_polyline xs ys (clamp (nth 0 xs 0) (nth (length xs - 1) xs 0) x) v.
Proof.
  intros Hi Hn Hl Ho.
  pose proof (new1d_increasing bm LINEAR_SATURATE KSaturate xs ys eq_refl Hi ltac:(lia) Hl) as Ho'.
  rewrite Ho in Ho'. injection Ho' as ->.
  assert (Hle : nth 0 xs 0 <= nth (length xs - 1) xs 0) by (apply increasing_le; auto; lia).
  set (c := clamp (nth 0 xs 0) (nth (length xs - 1) xs 0) x).
  assert (Hc : nth 0 xs 0 <= c <= nth (length xs - 1) xs 0) by (apply clamp_range; auto).
  destruct (eval1d_in_range LINEAR_SATURATE KSaturate xs ys bm c eq_refl Hi Hn Hl Hc) as (o' & v & Ho' & He & Hp).
  rewrite Ho in Ho'. injection Ho' as <-.
  exists v. split; [|exact Hp].
  rewrite <- He. unfold eval1d. cbn [i_kind i_xmin i_xmax obj]. unfold nlt; simpl.
  rewrite (in_range_guard xs c Hc).
  destruct (clamp_cases _ _ x Hle) as [[Hx Hcx]|[[Hx Hcx]|[Hx Hcx]]]; fold c in Hcx; rewrite Hcx.
  - rewrite (proj2 (Rltb_true _ _) Hx). reflexivity.
  - rewrite (proj2 (Rltb_true _ _) Hx), orb_true_r.
    rewrite (proj2 (Rltb_false x (nth 0 xs 0)) ltac:(lra)). reflexivity.
  - rewrite in_range_guard by auto. reflexivity.
Qed.

Lemma polyline_bounds xs ys x v lo hi : increasing xs -> length ys = length xs ->
  on_polyline xs ys x v -> (forall y, In y ys -> lo <= y <= hi) -> lo <= v <= hi.
Proof.
  intros Hi Hl (i & Hil & Hix & Hv) Hb.
  destruct (on_line_convex _ _ _ _ _ _ (Hi i (S i) ltac:(lia)) Hix Hv) as (t & Ht & _ & ->).
  pose proof (Hb (nth i ys 0) ltac:(apply nth_In; lia)).
  pose proof (Hb (nth (S i) ys 0) ltac:(apply nth_In; lia)). nra.
Qed.

Lemma saturate_lemma bm xs ys x :
  increasing xs -> (2 <= length xs)%nat -> length ys = length xs ->
  exists o v, new1d bm LINEAR_SATURATE xs ys = Ok o /\ eval1d o x = Ok v /\
    on_polyline xs ys (clamp (nth 0 xs 0) (nth (length xs - 1) xs 0) x) v /\
    (x <= nth 0 xs 0 -> v = nth 0 ys 0) /\
    (nth (length xs - 1) xs 0 <= x -> v = nth (length xs - 1) ys 0) /\
    (forall lo hi, (forall y, In y ys -> lo <= y <= hi) -> lo <= v <= hi).
Proof.
  intros Hi Hn Hl.
  pose proof (new1d_increasing bm LINEAR_SATURATE KSaturate xs ys eq_refl Hi ltac:(lia) Hl) as Ho.
  destruct (saturate_eval bm xs ys x _ Hi Hn Hl Ho) as (v & He & Hp).
  assert (Hle : nth 0 xs 0 <= nth (length xs - 1) xs 0) by (apply increasing_le; auto; lia).
  eexists. exists v. split; [exact Ho|]. split; [exact He|]. split; [exact Hp|].
  split; [|split].
  - intros Hx. eapply on_polyline_unique; [exact Hi|exact Hp|].
    replace (clamp _ _ x) with (nth 0 xs 0).
    + apply polyline_node; auto; lia.
    + destruct (clamp_cases _ _ x Hle) as [[? ->]|[[? ->]|[? ->]]]; lra.
  - intros Hx. eapply on_polyline_unique; [exact Hi|exact Hp|].
    replace (clamp _ _ x) with (nth (length xs - 1) xs 0).
    + apply polyline_node; auto; lia.
    + destruct (clamp_cases _ _ x Hle) as [[? ->]|[[? ->]|[? ->]]]; lra.
  - intros lo hi Hb. eapply polyline_bounds; eauto.
Qed.

Lemma extrapolate_below_lemma bm xs ys x :
  increasing xs -> (2 <= length xs)%nat -> length ys = length xs -> x <= nth 1 xs 0 ->
  exists o v, new1d bm LINEAR_EXTRAPOLATE xs ys = Ok o /\ eval1d o x = Ok v /\
    on_line (nth 0 xs 0) (nth 0 ys 0) (nth 1 xs 0) (nth 1 ys 0) x v.
Proof.
  intros Hi Hn Hl Hx.
  pose proof (new1d_increasing bm LINEAR_EXTRAPOLATE KExtrapolate xs ys eq_refl Hi ltac:(lia) Hl) as Ho.
  assert (Hxl : x <= nth (length xs - 1) xs 0).
  { pose proof (increasing_le xs 1 (length xs - 1) Hi ltac:(lia)). lra. }
  destruct (eval_base_line xs ys KExtrapolate x Hi Hn Hxl) as (j & v & Hj & He & Hline & H1 & H2 & H3).
  eexists. exists v. split; [exact Ho|]. split; [exact He|].
  assert (j = 0%nat) as ->; [|exact Hline].
  destruct (Rle_dec x (nth 0 xs 0)); [auto|].
  pose proof (increasing_lt_inv xs j 1 Hi ltac:(lia) ltac:(lia)
    ltac:(pose proof (H2 ltac:(lra)); lra)). lia.
Qed.

Lemma extrapolate_above_lemma bm xs ys x :
  increasing xs -> (1 <= length xs)%nat -> length ys = length xs ->
  nth (length xs - 1) xs 0 < x ->
  exists o, new1d bm LINEAR_EXTRAPOLATE xs ys = Ok o /\ eval1d o x = Throw OutOfRange.
Proof.
  intros Hi Hn Hl Hx.
  pose proof (new1d_increasing bm LINEAR_EXTRAPOLATE KExtrapolate xs ys eq_refl Hi ltac:(lia) Hl) as Ho.
  eexists. split; [exact Ho|]. unfold eval1d, obj, eval_base; simpl.
  rewrite (lower_bound_last xs x Hi ltac:(lia) Hx).
  destruct (length xs) eqn:E; [lia|]. simpl. rewrite vat_ge; [reflexivity|].
  rewrite coefs_a_length. lia.
Qed.

(** Monotonicity and Lipschitz bound of the polyline. *)
Lemma polyline_mono xs ys x x' v v' : increasing xs -> length ys = length xs -> nondecreasing ys ->
  on_polyline xs ys x v -> on_polyline xs ys x' v' -> x <= x' -> v <= v'.
Proof.
  intros Hi Hl Hy Hp Hp' Hxx.
  pose proof Hp as (i & Hil & Hix & Hv). pose proof Hp' as (j & Hjl & Hjx & Hv').
  assert (Hyi := Hy i (S i) ltac:(lia)). assert (Hyj := Hy j (S j) ltac:(lia)).
  assert (Hxi := Hi i (S i) ltac:(lia)). assert (Hxj := Hi j (S j) ltac:(lia)).
  destruct (on_line_convex _ _ _ _ _ _ Hxi Hix Hv) as (t & Ht & Htx & Hve).
  destruct (on_line_convex _ _ _ _ _ _ Hxj Hjx Hv') as (t' & Ht' & Htx' & Hve').
  destruct (lt_eq_lt_dec i j) as [[Hlt|Heq]|Hgt].
  - assert (Hm := Hy (S i) j ltac:(lia)). nra.
  - subst j. assert (t <= t'); [|nra].
    apply Rmult_le_reg_r with (nth (S i) xs 0 - nth i xs 0); lra.
  - assert (Hle := increasing_le xs (S j) i Hi ltac:(lia)).
    assert (Hxeq : x' = x) by lra. rewrite Hxeq in Hp'. right. eapply on_polyline_unique; eauto.
Qed.

Lemma nodes_lipschitz K xs ys n : forall i, increasing xs -> slopes_bounded K xs ys ->
  (i + n < length xs)%nat ->
  Rabs (nth (i + n) ys 0 - nth i ys 0) <= K * (nth (i + n) xs 0 - nth i xs 0).
Proof.
  induction n as [|n IH]; intros i Hi Hs Hin.
  - rewrite Nat.add_0_r, !Rminus_diag_eq by reflexivity. rewrite Rabs_R0. lra.
  - specialize (IH i Hi Hs ltac:(lia)). specialize (Hs (i + n)%nat ltac:(lia)).
    replace (i + S n)%nat with (S (i + n)) by lia.
    replace (nth (S (i + n)) ys 0 - nth i ys 0) with
      ((nth (S (i + n)) ys 0 - nth (i + n) ys 0) + (nth (i + n) ys 0 - nth i ys 0)) by ring.
    eapply Rle_trans; [apply Rabs_triang|]. lra.
Qed.

Lemma Rabs_scale_le t K d e : 0 <= t -> Rabs d <= K * e -> Rabs (t * d) <= K * (t * e).
Proof.
  intros Ht Hd. rewrite Rabs_mult, (Rabs_right t) by lra.
  replace (K * (t * e)) with (t * (K * e)) by ring. apply Rmult_le_compat_l; auto.
Qed.

Lemma polyline_lipschitz K xs ys x x' v v' : increasing xs -> slopes_bounded K xs ys ->
  on_polyline xs ys x v -> on_polyline xs ys x' v' -> x <= x' -> Rabs (v' - v) <= K * (x' - x).
Proof.
  intros Hi Hs Hp Hp' Hxx.
  pose proof Hp as (i & Hil & Hix & Hv). pose proof Hp' as (j & Hjl & Hjx & Hv').
  assert (Hxi := Hi i (S i) ltac:(lia)). assert (Hxj := Hi j (S j) ltac:(lia)).
  destruct (on_line_convex _ _ _ _ _ _ Hxi Hix Hv) as (t & Ht & Htx & Hve).
  destruct (on_line_convex _ _ _ _ _ _ Hxj Hjx Hv') as (t' & Ht' & Htx' & Hve').
  destruct (lt_eq_lt_dec i j) as [[Hlt|Heq]|Hgt].
  - pose proof (nodes_lipschitz K xs ys (j - S i) (S i) Hi Hs ltac:(lia)) as Hm.
    replace (S i + (j - S i))%nat with j in Hm by lia.
    pose proof (Rabs_scale_le (1 - t) K _ _ ltac:(lra) (Hs i Hil)) as Ha.
    pose proof (Rabs_scale_le t' K _ _ ltac:(lra) (Hs j Hjl)) as Hb.
    set (A := (1 - t) * (nth (S i) ys 0 - nth i ys 0)) in *.
    set (B := nth j ys 0 - nth (S i) ys 0) in *.
    set (C := t' * (nth (S j) ys 0 - nth j ys 0)) in *.
    assert (HABC : v' - v = A + B + C) by (rewrite Hve, Hve'; unfold A, B, C; ring).
    rewrite HABC.
    assert (Rabs (A + B + C) <= Rabs A + Rabs B + Rabs C).
    { eapply Rle_trans; [apply Rabs_triang|]. pose proof (Rabs_triang A B). lra. }
    assert (K * (x' - x) = K * ((1 - t) * (nth (S i) xs 0 - nth i xs 0)) +
       K * (nth j xs 0 - nth (S i) xs 0) + K * (t' * (nth (S j) xs 0 - nth j xs 0))).
    { rewrite Htx, Htx'. ring. }
    lra.
  - subst j. assert (Htt : 0 <= t' - t).
    { assert (t <= t'); [|lra]. apply Rmult_le_reg_r with (nth (S i) xs 0 - nth i xs 0); lra. }
    pose proof (Rabs_scale_le (t' - t) K _ _ Htt (Hs i Hil)) as Ha.
    replace (v' - v) with ((t' - t) * (nth (S i) ys 0 - nth i ys 0)) by (rewrite Hve, Hve'; ring).
    replace (x' - x) with ((t' - t) * (nth (S i) xs 0 - nth i xs 0)) by (rewrite Htx, Htx'; ring).
    exact Ha.
  - assert (Hle := increasing_le xs (S j) i Hi ltac:(lia)).
    assert (Hxeq : x' = x) by lra. rewrite Hxeq in *.
    rewrite (on_polyline_unique xs ys x v v' Hi Hp Hp').
    rewrite !Rminus_diag_eq by reflexivity. rewrite Rabs_R0. lra.
Qed.

Lemma clamp_mono lo hi x x' : lo <= hi -> x <= x' -> clamp lo hi x <= clamp lo hi x'.
Proof.
  intros H Hx.
  destruct (clamp_cases lo hi x H) as [[? ->]|[[? ->]|[? ->]]];
  destruct (clamp_cases lo hi x' H) as [[? ->]|[[? ->]|[? ->]]]; lra.
Qed.
Lemma clamp_lip lo hi x x' : lo <= hi -> x <= x' -> clamp lo hi x' - clamp lo hi x <= x' - x.
Proof.
  intros H Hx.
  destruct (clamp_cases lo hi x H) as [[? ->]|[[? ->]|[? ->]]];
  destruct (clamp_cases lo hi x' H) as [[? ->]|[[? ->]|[? ->]]]; lra.
Qed.

Lemma saturate_mono_lemma bm xs ys o x x' :
  increasing xs -> (2 <= length xs)%nat -> length ys = length xs ->
  new1d bm LINEAR_SATURATE xs ys = Ok o -> nondecreasing ys -> x <= x' ->
  exists v v', eval1d o x = Ok v /\ eval1d o x' = Ok v' /\ v <= v'.
Proof.
  intros Hi Hn Hl Ho Hy Hx.
  destruct (saturate_eval bm xs ys x o Hi Hn Hl Ho) as (v & He & Hp).
  destruct (saturate_eval bm xs ys x' o Hi Hn Hl Ho) as (v' & He' & Hp').
  exists v, v'. repeat split; auto. eapply polyline_mono; eauto. apply clamp_mono; auto.
  apply increasing_le; auto; lia.
Qed.

Lemma saturate_lipschitz_lemma bm xs ys o K x x' :
  increasing xs -> (2 <= length xs)%nat -> length ys = length xs ->
  new1d bm LINEAR_SATURATE xs ys = Ok o -> slopes_bounded K xs ys ->
  exists v v', eval1d o x = Ok v /\ eval1d o x' = Ok v' /\ Rabs (v' - v) <= K * Rabs (x' - x).
Proof.
  intros Hi Hn Hl Ho Hs.
  assert (HK : 0 <= K).
  { pose proof (Hs 0%nat ltac:(lia)) as H0. pose proof (Hi 0%nat 1%nat ltac:(lia)).
    pose proof (Rabs_pos (nth 1 ys 0 - nth 0 ys 0)).
    destruct (Rle_dec 0 K); auto. exfalso. nra. }
  assert (Hle : nth 0 xs 0 <= nth (length xs - 1) xs 0) by (apply increasing_le; auto; lia).
  assert (Hgen : forall x x', x <= x' ->
    exists v v', eval1d o x = Ok v /\ eval1d o x' = Ok v' /\ Rabs (v' - v) <= K * (x' - x)).
  { clear x x'. intros x x' Hx.
    destruct (saturate_eval bm xs ys x o Hi Hn Hl Ho) as (v & He & Hp).
    destruct (saturate_eval bm xs ys x' o Hi Hn Hl Ho) as (v' & He' & Hp').
    exists v, v'. repeat split; auto.
    pose proof (polyline_lipschitz K xs ys _ _ v v' Hi Hs Hp Hp' (clamp_mono _ _ x x' Hle Hx)).
    pose proof (clamp_lip _ _ x x' Hle Hx). nra. }
  destruct (Rle_dec x x') as [Hx|Hx].
  - rewrite (Rabs_right (x' - x)) by lra. apply Hgen; auto.
  - destruct (Hgen x' x ltac:(lra)) as (v & v' & H1 & H2 & H3).
    exists v', v. repeat split; auto.
    rewrite (Rabs_left (x' - x)) by lra. rewrite Rabs_minus_sym.
    replace (- (x' - x)) with (x - x') by ring. exact H3.
Qed.

(** ** Vector evaluation, for any scalar type *)
Lemma eval_vec_lemma {T V} `{NT : Num T} `{VT : VNum T V} (o : interp1d T V) xv :
  (forall vs, eval1d_vec o xv = Ok vs <-> Forall2 (fun x v => eval1d o x = Ok v) xv vs) /\
  (forall pre x post vs, xv = pre ++ x :: post ->
     Forall2 (fun x v => eval1d o x = Ok v) pre vs ->
     (forall v, eval1d o x <> Ok v) ->
     eval1d_vec o xv = omap (fun _ => []) (eval1d o x)).
Proof.
  unfold eval1d_vec. split.
  - intros vs. split.
    + apply mapM_Ok_inv.
    + intros H. induction H as [|x v xv vs Hx _ IH]; simpl; [reflexivity|].
      rewrite Hx. simpl. rewrite IH. reflexivity.
  - intros pre x post vs -> Hpre Hx. revert vs Hpre.
    induction pre as [|p pre IH]; intros vs Hpre; simpl.
    + destruct (eval1d o x) eqn:E; simpl; try reflexivity. destruct (Hx a); reflexivity.
    + inversion Hpre as [|? v ? vs' Hp Hpre']; subst. rewrite Hp. simpl.
      rewrite (IH _ Hpre'). destruct (eval1d o x) eqn:E; simpl; try reflexivity.
      destruct (Hx a); reflexivity.
Qed.

(** ** Homomorphic images of the ordinates, for any scalar type *)
Section Hom.
Context {T V W : Type} `{NT : Num T} `{VV : VNum T V} `{VW : VNum T W}.
Context (h : V -> W).
Context (h_add : forall a b, h (vadd a b) = vadd (h a) (h b)).
Context (h_sub : forall a b, h (vsub a b) = vsub (h a) (h b)).
Context (h_mulr : forall a x, h (vmulr a x) = vmulr (h a) x).
Context (h_mull : forall x a, h (vmull x a) = vmull x (h a)).
Context (h_div : forall a x, h (vdivr a x) = vdivr (h a) x).

Definition hobj (o : interp1d T V) : interp1d T W :=
  mkI1 (i_kind o) (i_x o) (option_map (map h) (i_y o)) (i_ndata o) (i_xmin o) (i_xmax o)
       (map h (i_a o)) (map h (i_b o)).

Lemma vat_map (l : list V) i : vat (map h l) i = omap h (vat l i).
Proof. unfold vat. rewrite nth_error_map. destruct (nth_error l i); reflexivity. Qed.

Lemma coef_loop_hom xs ys is : forall a b,
  coef_loop xs (map h ys) is (map h a) (map h b) =
  let '((a', b'), r) := coef_loop xs ys is a b in ((map h a', map h b'), r).
Proof.
  induction is as [|i is IH]; intros a b; simpl; [reflexivity|].
  rewrite !vat_map.
  destruct (vat xs (i - 1)) as [xi|e|c| |]; simpl; try reflexivity.
  destruct (vat xs i) as [xii|e|c| |]; simpl; try reflexivity.
  destruct (vat ys (i - 1)) as [yi|e|c| |]; simpl; try reflexivity.
  destruct (vat ys i) as [yii|e|c| |]; simpl; try reflexivity.
  rewrite <- h_sub, <- h_div, <- h_mulr, <- h_mull, <- h_sub, <- h_div.
  rewrite <- IH. rewrite !map_app. reflexivity.
Qed.

Lemma init1d_hom bm o xs ys :
  init1d bm (hobj o) (Some xs) (Some (map h ys)) =
  let '(o', r) := init1d bm o (Some xs) (Some ys) in (hobj o', r).
Proof.
  unfold init1d, init_base. rewrite map_length.
  destruct (let* _ := cassert bm (length xs =? length ys)%nat in cassert bm (is_sorted xs)) as [u|e|c| |];
    try reflexivity.
  destruct (vat xs 0) as [xm|e|c| |]; try reflexivity.
  destruct (vat xs (length xs - 1)) as [xM|e|c| |]; try reflexivity.
  simpl. rewrite coef_loop_hom.
  destruct (coef_loop xs ys (seq 1 (length xs - 1)) (i_a o) (i_b o)) as [[a b] r]. reflexivity.
Qed.

Lemma eval1d_hom o x : eval1d (hobj o) x = omap h (eval1d o x).
Proof.
  assert (Hb : forall x, eval_base (hobj o) x = omap h (eval_base o x)).
  { intros x'. unfold eval_base. simpl. destruct (i_x o) as [xs|]; [|reflexivity].
    rewrite !vat_map. destruct (vat (i_a o) _) as [a|e|c| |]; simpl; try reflexivity.
    destruct (vat (i_b o) _) as [b|e|c| |]; simpl; try reflexivity.
    unfold omap; simpl. rewrite h_add, h_mulr. reflexivity. }
  unfold eval1d. simpl. destruct (i_kind o).
  - destruct (i_xmin o), (i_xmax o); try reflexivity. destruct (_ || _); [reflexivity|apply Hb].
  - apply Hb.
  - destruct (i_xmin o), (i_xmax o); try reflexivity. apply Hb.
Qed.

Lemma new1d_hom bm m xs ys :
  new1d bm m xs (map h ys) = omap hobj (new1d bm m xs ys).
Proof.
  unfold new1d. destruct m; simpl; try reflexivity;
    match goal with |- context [blank1d ?k] =>
      change (@blank1d T W k) with (hobj (@blank1d T V k)) end;
    rewrite init1d_hom; destruct (init1d bm _ (Some xs) (Some ys)) as [o' r];
    destruct r; reflexivity.
Qed.
End Hom.

Section Complex.
Local Existing Instance VNum_complex.
Lemma complex_lemma {T} `{NT : Num T} bm m (xs : list T) (ys : list (T * T)) x :
  (let* o := new1d bm m xs ys in eval1d o x) =
  (let* o1 := new1d (VT := VNum_self) bm m xs (map fst ys) in
   let* o2 := new1d (VT := VNum_self) bm m xs (map snd ys) in
   let* re := eval1d o1 x in
   let* im := eval1d o2 x in Ok (re, im)).
Proof.
  rewrite (new1d_hom (@fst T T)) by reflexivity.
  rewrite (new1d_hom (@snd T T)) by reflexivity.
  destruct (new1d bm m xs ys) as [o|e|c| |]; simpl; try reflexivity.
  rewrite (eval1d_hom (@fst T T)) by reflexivity.
  rewrite (eval1d_hom (@snd T T)) by reflexivity.
  destruct (eval1d o x) as [[re im]|e|c| |]; reflexivity.
Qed.

End Complex.

(** ** No undefined behaviour, for any scalar type *)
Definition initialised {T V} (o : interp1d T V) : Prop :=
  exists xs xm xM, i_x o = Some xs /\ i_xmin o = Some xm /\ i_xmax o = Some xM.

Lemma init1d_initialised {T V} `{NT : Num T} `{VT : VNum T V} bm (o o' : interp1d T V) x y :
  init1d bm o x y = (o', Ok tt) -> initialised o'.
Proof.
  unfold init1d, init_base. intros H.
  destruct x as [xs|]; [|discriminate]. destruct y as [ys|]; [|discriminate].
  destruct (let* _ := cassert bm (length xs =? length ys)%nat in cassert bm (is_sorted xs)) as [u|e|c| |];
    try discriminate.
  destruct (vat xs 0) as [xm|e|c| |]; try discriminate.
  destruct (vat xs (length xs - 1)) as [xM|e|c| |]; try discriminate.
  simpl in H.
  destruct (coef_loop xs ys (seq 1 (length xs - 1)) (i_a o) (i_b o)) as [[a b] r].
  injection H as <- _. exists xs, xm, xM. auto.
Qed.

Lemma eval_no_ub {T V} `{NT : Num T} `{VT : VNum T V} (o : interp1d T V) x :
  initialised o ->
  (exists v, eval1d o x = Ok v) \/ eval1d o x = Throw OutOfRange \/
  (i_kind o = KLinear /\ eval1d o x = Exit 1).
Proof.
  intros (xs & xm & xM & H1 & H2 & H3).
  assert (Hb : forall x, (exists v, eval_base o x = Ok v) \/ eval_base o x = Throw OutOfRange).
  { intros x'. unfold eval_base. rewrite H1. unfold vat.
    destruct (nth_error (i_a o) _); simpl; auto.
    destruct (nth_error (i_b o) _); simpl; eauto. }
  unfold eval1d. rewrite H2, H3. destruct (i_kind o).
  - destruct (_ || _); auto. destruct (Hb x); auto.
  - destruct (Hb x); auto.
  - destruct (Hb (if (x <? xm)%num || (xM <? x)%num then if (x <? xm)%num then xm else xM else x)); auto.
Qed.

Lemma no_ub_lemma {T V} `{NT : Num T} `{VT : VNum T V} bm (o o' : interp1d T V) x y q :
  init1d bm o x y = (o', Ok tt) ->
  (exists v, eval1d o' q = Ok v) \/ eval1d o' q = Throw OutOfRange \/
  (i_kind o' = KLinear /\ eval1d o' q = Exit 1).
Proof. intros H. apply eval_no_ub. eapply init1d_initialised; eauto. Qed.

(** ** Re-initialisation *)
Lemma reinit_obj bm m k xs1 ys1 xs2 ys2 o1 o2 :
  linear_kind m = Some k ->
  increasing xs1 -> (2 <= length xs1)%nat -> length ys1 = length xs1 ->
  increasing xs2 -> (2 <= length xs2)%nat -> length ys2 = length xs2 ->
  new1d bm m xs1 ys1 = Ok o1 -> init1d bm o1 (Some xs2) (Some ys2) = (o2, Ok tt) ->
  o2 = obj k xs2 ys2 (coefs_a xs1 ys1 ++ coefs_a xs2 ys2) (coefs_b xs1 ys1 ++ coefs_b xs2 ys2).
Proof.
  intros Hm Hi1 Hn1 Hl1 Hi2 Hn2 Hl2 H1 H2.
  rewrite (new1d_increasing bm m k) in H1 by (auto; lia). injection H1 as <-.
  rewrite init1d_ok in H2; [injection H2 as <-; reflexivity| |lia].
  intros _. split; [auto|apply increasing_is_sorted; auto].
Qed.

Lemma reinit_lemma bm m xs1 ys1 xs2 ys2 o1 o2 j x :
  is_linear m ->
  increasing xs1 -> (2 <= length xs1)%nat -> length ys1 = length xs1 ->
  increasing xs2 -> (2 <= length xs2)%nat -> length ys2 = length xs2 ->
  new1d bm m xs1 ys1 = Ok o1 -> init1d bm o1 (Some xs2) (Some ys2) = (o2, Ok tt) ->
  (S j < length xs2)%nat -> (S j < length xs1)%nat ->
  nth j xs2 0 < x <= nth (S j) xs2 0 ->
  exists v, eval1d o2 x = Ok v /\
    on_line (nth j xs1 0) (nth j ys1 0) (nth (S j) xs1 0) (nth (S j) ys1 0) x v.
Proof.
  intros Hlm Hi1 Hn1 Hl1 Hi2 Hn2 Hl2 H1 H2 Hj2 Hj1 Hx.
  destruct (is_linear_kind m Hlm) as (k & Hm).
  assert (Ho := reinit_obj bm m k xs1 ys1 xs2 ys2 o1 o2 Hm Hi1 Hn1 Hl1 Hi2 Hn2 Hl2 H1 H2).
  assert (Hb : eval_base o2 x = Ok (nth j (coefs_a xs1 ys1) 0 * x + nth j (coefs_b xs1 ys1) 0)).
  { rewrite Ho. rewrite (eval_base_index _ _ _ _ k x (S j)).
    - replace (max 1 (S j) - 1)%nat with j by lia.
      rewrite !app_nth1 by (rewrite ?coefs_a_length, ?coefs_b_length; lia). reflexivity.
    - apply lower_bound_cell; auto.
    - rewrite app_length, !coefs_a_length. lia.
    - rewrite !app_length, !coefs_a_length, !coefs_b_length. lia. }
  eexists. split; [|apply chord_line; auto].
  assert (Hr : nth 0 xs2 0 <= x <= nth (length xs2 - 1) xs2 0).
  { pose proof (increasing_le xs2 0 j Hi2 ltac:(lia)).
    pose proof (increasing_le xs2 (S j) (length xs2 - 1) Hi2 ltac:(lia)). lra. }
  rewrite <- Hb. rewrite Ho. unfold eval1d. cbn [i_kind i_xmin i_xmax obj].
  destruct k; [| reflexivity |]; unfold nlt; simpl; rewrite in_range_guard by auto; reflexivity.
Qed.

(** ** Guards of Initialize *)
Lemma is_sorted_iff xs : is_sorted xs = true <-> nondecreasing xs.
Proof.
  split.
  - intros H. assert (Hadj : forall i, (S i < length xs)%nat -> nth i xs 0 <= nth (S i) xs 0).
    { revert H. induction xs as [|a [|b xs] IH]; intros H i Hi; simpl in Hi; try lia.
      simpl in H. destruct (Rltb b a) eqn:E; [discriminate|]. apply Rltb_false in E.
      destruct i as [|i]; [exact E|]. apply (IH H i). simpl. lia. }
    intros i j Hij. destruct Hij as [Hij Hj]. induction Hij as [|j Hij IH]; [lra|].
    specialize (IH ltac:(lia)). pose proof (Hadj j Hj). lra.
  - induction xs as [|a [|b xs] IH]; intros H; simpl; auto.
    rewrite (proj2 (Rltb_false b a)).
    + apply IH. intros i j Hij. apply (H (S i) (S j)). simpl. simpl in Hij. lia.
    + apply (H 0%nat 1%nat). simpl. lia.
Qed.

Lemma debug_guard_lemma m xs ys :
  is_linear m ->
  (new1d Debug m xs ys = Abort <-> (length xs <> length ys \/ ~ nondecreasing xs)).
Proof.
  intros Hm. rewrite <- is_sorted_iff.
  assert (Hgen : forall k, linear_kind m = Some k ->
    (new1d Debug m xs ys = Abort <-> length xs <> length ys \/ is_sorted xs <> true)).
  { intros k Hk. destruct (Nat.eq_dec (length xs) (length ys)) as [Hl|Hl].
    - destruct (is_sorted xs) eqn:Es.
      + split; [|intros [?|?]; congruence].
        destruct (Nat.eq_dec (length xs) 0) as [H0|H0].
        * destruct xs; [|simpl in H0; lia]. destruct ys; [|simpl in Hl; lia].
          intros Habs. exfalso. destruct m; simpl in Hk; inversion Hk; subst; discriminate.
        * rewrite (new1d_ok Debug m k) by (auto; lia). discriminate.
      + split; [right; discriminate|]. intros _.
        unfold new1d. destruct m; simpl in Hk; inversion Hk; subst; simpl;
          unfold init1d, init_base; simpl; rewrite Hl, Nat.eqb_refl; simpl; rewrite Es; reflexivity.
    - split; [left; auto|]. intros _.
      assert (Hne : (length xs =? length ys)%nat = false) by (apply Nat.eqb_neq; auto).
      unfold new1d. destruct m; simpl in Hk; inversion Hk; subst; simpl;
        unfold init1d, init_base; simpl; rewrite Hne; reflexivity. }
  destruct (is_linear_kind m Hm) as (k & Hk). apply (Hgen k Hk).
Qed.

Lemma empty_lemma bm m ys : is_linear m -> (bm = Debug -> ys = []) ->
  @new1d R R _ _ bm m [] ys = Throw OutOfRange.
Proof.
  intros Hm Hd. unfold new1d.
  destruct Hm as [->|[->| ->]]; simpl; unfold init1d, init_base;
    (destruct bm; [rewrite (Hd eq_refl)|]; reflexivity).
Qed.

Lemma coef_loop_short xs ys n : forall k a b,
  (1 <= k)%nat -> (k + n <= length xs)%nat -> (length ys < k + n)%nat -> (1 <= n)%nat ->
  exists a' b', coef_loop xs ys (seq k n) a b = ((a', b'), @Throw unit OutOfRange).
Proof.
  induction n as [|n IH]; intros k a b Hk Hkn Hy Hn; [lia|].
  simpl. rewrite !(vat_lt xs _ 0) by lia. simpl.
  destruct (le_lt_dec (length ys) (k - 1)) as [H|H].
  - rewrite (vat_ge ys (k - 1)) by lia. simpl. eauto.
  - rewrite (vat_lt ys (k - 1) 0) by lia. simpl.
    destruct (le_lt_dec (length ys) k) as [H'|H'].
    + rewrite (vat_ge ys k) by lia. simpl. eauto.
    + rewrite (vat_lt ys k 0) by lia. simpl. apply IH; lia.
Qed.

Lemma release_guard_lemma m xs ys : is_linear m -> (1 <= length xs)%nat ->
  ((2 <= length xs)%nat -> (length ys < length xs)%nat -> new1d Release m xs ys = Throw OutOfRange) /\
  ((length xs <= length ys)%nat -> exists o, new1d Release m xs ys = Ok o).
Proof.
  intros Hm Hn. destruct (is_linear_kind m Hm) as (k & Hk). split.
  - intros Hn2 Hlt.
    assert (Hinit : forall o, exists o', init1d Release o (Some xs) (Some ys) = (o', Throw OutOfRange)).
    { intros o. unfold init1d, init_base. simpl. rewrite !(vat_lt xs _ 0) by lia. simpl.
      destruct (coef_loop_short xs ys (length xs - 1) 1 (i_a o) (i_b o)) as (a' & b' & ->); try lia.
      eauto. }
    unfold new1d. destruct m; simpl in Hk; inversion Hk; subst; simpl;
      match goal with |- context [init1d Release ?o _ _] => destruct (Hinit o) as (o' & ->) end; reflexivity.
  - intros Hle. rewrite (new1d_ok Release m k); eauto; discriminate.
Qed.

Lemma one_sample_lemma bm m a y : is_linear m ->
  exists o, new1d bm m [a] [y] = Ok o /\
    forall x, eval1d o x = Throw OutOfRange \/ (m = LINEAR /\ x <> a /\ eval1d o x = Exit 1).
Proof.
  intros Hm. destruct (is_linear_kind m Hm) as (k & Hk).
  rewrite (new1d_ok bm m k) by (auto; simpl; auto).
  eexists. split; [reflexivity|]. intros x.
  assert (Hb : forall x, eval_base (obj k [a] [y] (coefs_a [a] [y]) (coefs_b [a] [y])) x = Throw OutOfRange).
  { intros x'. unfold eval_base, obj, coefs_a. simpl.
    rewrite vat_ge by (simpl; lia). reflexivity. }
  unfold eval1d. cbn [i_kind i_xmin i_xmax obj].
  destruct m; simpl in Hk; inversion Hk; subst; cbn [nth length Nat.sub].
  - unfold nlt; simpl. destruct (Rltb x a || Rltb a x) eqn:E; [|left; apply Hb].
    right. split; [reflexivity|]. split; [|reflexivity].
    apply orb_true_iff in E as [E|E]; apply Rltb_true in E; lra.
  - left. apply Hb.
  - left. apply Hb.
Qed.

Lemma factory_lemma : forall (T V : Type) (NT : Num T) (VT : VNum T V) bm m (xs : list T) (ys : list V) q,
  (is_linear m -> exists o : interp1d T V, make1d m = Ok o /\ eval1d o q = UB /\ get_xmin o = UB /\ get_xmax o = UB) /\
  (~ is_linear m -> make1d (T := T) (V := V) m = Exit 1 /\ new1d bm m xs ys = Exit 1).
Proof.
  intros T V NT VT bm m xs ys q. unfold is_linear. split; intros H.
  - destruct m; try (exfalso; intuition discriminate); eexists; repeat split.
  - destruct m; try (exfalso; apply H; auto; fail); split; reflexivity.
Qed.
