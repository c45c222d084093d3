(** Lemmas on the simplex interpolation of linterp. *)
From Coq Require Import List Arith ZArith Lia Bool Reals Lra Permutation.
From Verif Require Import Outcome Num StdAlgo S_Interp1d L_Search M_Grid S_Grid L_Grid.
Import ListNotations.
Local Open Scope R_scope.

Definition upd (d x : nat) (vs : list nat) : list nat := firstn d vs ++ [x] ++ skipn (S d) vs.

Lemma upd_length d x vs : (d < length vs)%nat -> length (upd d x vs) = length vs.
Proof. intros H. unfold upd. rewrite !app_length, firstn_length, skipn_length. simpl. lia. Qed.

Lemma upd_nth d x vs k : (d < length vs)%nat ->
  nth k (upd d x vs) 0%nat = if (k =? d)%nat then x else nth k vs 0%nat.
Proof.
  revert d k. induction vs as [|v vs IH]; intros d k H; simpl in H; [lia|].
  destruct d as [|d].
  - unfold upd. simpl. destruct k; reflexivity.
  - change (upd (S d) x (v :: vs)) with (v :: upd d x vs). destruct k as [|k]; [reflexivity|].
    simpl. apply IH. lia.
Qed.

Lemma upd_bits d vs : (d < length vs)%nat -> Forall (fun b => (b <= 1)%nat) vs ->
  Forall (fun b => (b <= 1)%nat) (upd d (nth d vs 0 - 1)%nat vs).
Proof.
  intros Hd H. apply Forall_forall. intros b Hb.
  apply (In_nth _ _ 0%nat) in Hb as (k & Hk & <-). rewrite upd_length in Hk by auto.
  rewrite upd_nth by auto. rewrite Forall_forall in H.
  destruct (k =? d)%nat; [|apply H; apply nth_In; auto].
  assert (nth d vs 0 <= 1)%nat by (apply H; apply nth_In; auto). lia.
Qed.

(** Value of the walk, given the vertex values [D]. *)
Fixpoint walk (D : list nat -> R) (ys : list R) (order : list nat) (vs : list nat) : R :=
  match order with
  | [] => 0
  | d :: order' =>
      let vs' := upd d (nth d vs 0 - 1)%nat vs in
      (1 - nth d ys 0) * (D vs' - D vs) + walk D ys order' vs'
  end.

Lemma simplex_walk_value bm gs data cs ys D order vs y :
  (forall v, length v = length gs -> Forall (fun b => (b <= 1)%nat) v -> get_f_val bm gs data cs v = Ok (D v)) ->
  length vs = length gs -> Forall (fun b => (b <= 1)%nat) vs -> Forall (fun d => (d < length gs)%nat) order ->
  simplex_walk bm gs data cs ys order vs y (D vs) = Ok (y + walk D ys order vs).
Proof.
  intros HD. revert vs y. induction order as [|d order IH]; intros vs y Hl Hb Ho; cbn [simplex_walk walk].
  - f_equal. lra.
  - inversion Ho; subst. fold (upd d (nth d vs 0 - 1)%nat vs).
    assert (Hl' : length (upd d (nth d vs 0 - 1)%nat vs) = length gs) by (rewrite upd_length; lia).
    assert (Hb' := upd_bits d vs ltac:(lia) Hb).
    rewrite (HD (upd d (nth d vs 0 - 1)%nat vs)) by auto. cbn [bind]. rewrite IH by auto. f_equal.
    change nadd with Rplus. change nmul with Rmult. change nsub with Rminus. change (nofZ 1) with 1.
    change (nofZ 0) with 0. lra.
Qed.

(** Telescoping when all local coordinates vanish. *)
Lemma walk_zero D ys order vs : (forall d, In d order -> nth d ys 0 = 0) ->
  walk D ys order vs = D (fold_left (fun v d => upd d (nth d v 0 - 1)%nat v) order vs) - D vs.
Proof.
  revert vs. induction order as [|d order IH]; intros vs H; simpl; [lra|].
  rewrite IH by (intros; apply H; right; auto). rewrite (H d) by (left; auto). lra.
Qed.

Lemma fold_upd_length order vs : Forall (fun d => (d < length vs)%nat) order ->
  length (fold_left (fun v d => upd d (nth d v 0 - 1)%nat v) order vs) = length vs.
Proof.
  revert vs. induction order as [|d order IH]; intros vs H; simpl; auto. inversion H; subst.
  rewrite IH; [apply upd_length; auto|]. rewrite upd_length; auto.
Qed.

Lemma fold_upd_nth order vs k : Forall (fun d => (d < length vs)%nat) order -> NoDup order ->
  nth k (fold_left (fun v d => upd d (nth d v 0 - 1)%nat v) order vs) 0%nat =
  if in_dec Nat.eq_dec k order then (nth k vs 0 - 1)%nat else nth k vs 0%nat.
Proof.
  revert vs. induction order as [|d order IH]; intros vs H ND; simpl; auto.
  inversion H; inversion ND; subst. rewrite IH; [|rewrite upd_length; auto|auto].
  rewrite upd_nth by auto.
  destruct (Nat.eq_dec d k) as [->|Hne].
  - rewrite Nat.eqb_refl. destruct (in_dec Nat.eq_dec k order); [contradiction|reflexivity].
  - replace (k =? d)%nat with false by (symmetry; apply Nat.eqb_neq; lia).
    destruct (in_dec Nat.eq_dec k order); reflexivity.
Qed.

(** Additive data. *)
Lemma sum_perm l l' : Permutation l l' -> sum l = sum l'.
Proof. induction 1; simpl; lra. Qed.

Lemma sum_seq_update f (v v' : list nat) d s n :
  (s <= d < s + n)%nat -> (forall k, k <> d -> nth k v' 0%nat = nth k v 0%nat) ->
  sum (map (fun k => f k (nth k v' 0%nat)) (seq s n)) - sum (map (fun k => f k (nth k v 0%nat)) (seq s n)) =
  f d (nth d v' 0%nat) - f d (nth d v 0%nat).
Proof.
  revert s. induction n as [|n IH]; intros s Hd Hk; [lia|]. simpl.
  destruct (Nat.eq_dec s d) as [->|Hne].
  - assert (E : forall m t, (d < t)%nat -> sum (map (fun k => f k (nth k v' 0%nat)) (seq t m)) =
                      sum (map (fun k => f k (nth k v 0%nat)) (seq t m))).
    { induction m as [|m IHm]; intros t Ht; simpl; auto. rewrite Hk by lia. rewrite IHm by lia. auto. }
    rewrite (E n (S d)) by lia. lra.
  - specialize (IH (S s) ltac:(lia) Hk). rewrite (Hk s) by auto. lra.
Qed.

Lemma walk_additive D f c n ys order vs :
  (forall v, length v = n -> Forall (fun b => (b <= 1)%nat) v ->
     D v = c + sum (map (fun k => f k (nth k v 0%nat)) (seq 0 n))) ->
  length vs = n -> Forall (fun b => (b <= 1)%nat) vs -> Forall (fun d => (d < n)%nat) order -> NoDup order ->
  (forall d, In d order -> nth d vs 0%nat = 1%nat) ->
  walk D ys order vs = sum (map (fun d => (1 - nth d ys 0) * (f d 0%nat - f d 1%nat)) order).
Proof.
  intros HD. revert vs. induction order as [|d order IH]; intros vs Hl Hb Ho ND H1; simpl; auto.
  inversion Ho; inversion ND; subst. set (vs' := upd d (nth d vs 0 - 1)%nat vs).
  assert (Hl' : length vs' = length vs) by (apply upd_length; auto).
  assert (Hb' : Forall (fun b => (b <= 1)%nat) vs') by (apply upd_bits; auto).
  rewrite IH; auto.
  - rewrite (HD vs) by auto. rewrite (HD vs') by auto. f_equal. f_equal.
    assert (Hv' : forall k, k <> d -> nth k vs' 0%nat = nth k vs 0%nat).
    { intros k Hk. unfold vs'. rewrite upd_nth by auto. apply Nat.eqb_neq in Hk. rewrite Hk. auto. }
    pose proof (sum_seq_update f vs vs' d 0 (length vs) ltac:(lia) Hv') as E.
    unfold vs' at 2 in E. rewrite upd_nth, Nat.eqb_refl in E by auto.
    rewrite (H1 d) in E by (left; auto). simpl in E. lra.
  - intros k Hk. unfold vs'. rewrite upd_nth by auto.
    destruct (Nat.eqb_spec k d) as [->|Hne]; [contradiction|]. apply H1. right; auto.
Qed.

(** ** Assembling *)
Lemma cell_frac_y01 g x cy : good_axis g -> cell_frac g x = Ok cy -> 0 <= snd cy <= 1.
Proof.
  intros Hg. unfold cell_frac. intros H. apply bind_ok in H as (c & _ & H).
  destruct (c =? -1)%Z; [injection H as <-; simpl; lra|].
  destruct (c =? _)%Z; [injection H as <-; simpl; lra|].
  apply bind_ok in H as (g0 & _ & H). apply bind_ok in H as (g1 & _ & H). injection H as <-. cbn [snd].
  change ((x - g0) / (g1 - g0))%num with ((x - g0) / (g1 - g0)).
  generalize ((x - g0) / (g1 - g0)). intros y.
  change (nlt y (nofZ 0)) with (Rltb y 0). change (nlt (nofZ 1) y) with (Rltb 1 y).
  change (@nofZ R RNum 0) with 0. change (@nofZ R RNum 1) with 1.
  destruct (Rltb y 0) eqn:E1.
  { simpl. lra. }
  destruct (Rltb 1 y) eqn:E2; [simpl; lra|].
  apply Rltb_false in E1. apply Rltb_false in E2. lra.
Qed.

Record simplex_setup bm gs (data : list R) p cys : Prop := {
  ss_E : mapM (fun gx => cell_frac (fst gx) (snd gx)) (combine gs p) = Ok cys;
  ss_ax : Forall2 axis_cell gs cys;
  ss_cf : Forall2 (fun gx cy => cell_frac (fst gx) (snd gx) = Ok cy) (combine gs p) cys;
  ss_len : length cys = length gs;
  ss_D : forall v, length v = length gs -> Forall (fun b => (b <= 1)%nat) v ->
    get_f_val bm gs data (map fst cys) v =
      Ok (element (map (@length R) gs) data (node_indices gs (map fst cys) v)) /\
    in_extents (map (@length R) gs) (node_indices gs (map fst cys) v);
  ss_y : forall k, (k < length gs)%nat -> 0 <= nth k (map snd cys) 0 <= 1
}.

Lemma setup bm gs data p : good_axes gs -> length p = length gs ->
  length data = count (map (@length R) gs) -> exists cys, simplex_setup bm gs data p cys.
Proof.
  intros Hg Hp Hd. destruct (mapM_cell_frac gs p) as (cys & E & F1 & F2); auto using good_axes_ne.
  exists cys. constructor; auto.
  - symmetry. eapply Forall2_length; eauto.
  - intros v Hv Hb. assert (HE := node_indices_in_extents gs cys v F1 Hv Hb). split; auto.
    unfold get_f_val. apply ndget_ok; auto.
  - clear - F2 Hg Hp. revert p cys F2 Hp. induction Hg as [|g gs Hg Hgs IH]; intros p cys F2 Hp k Hk; simpl in Hk; [lia|].
    destruct p as [|x p]; [discriminate|]. simpl in F2. inversion F2; subst.
    destruct k as [|k]; simpl.
    + eapply cell_frac_y01; eauto.
    + eapply IH; eauto. lia.
Qed.

Lemma ones_length {A} (gs : list A) : length (map (fun _ => 1%nat) gs) = length gs.
Proof. apply map_length. Qed.
Lemma ones_bits {A} (gs : list A) : Forall (fun b => (b <= 1)%nat) (map (fun _ => 1%nat) gs).
Proof. induction gs; simpl; constructor; auto. Qed.
Lemma ones_nth {A} (gs : list A) k : (k < length gs)%nat -> nth k (map (fun _ => 1%nat) gs) 0%nat = 1%nat.
Proof. revert k. induction gs; intros [|k] H; simpl in *; try lia; auto. apply IHgs. lia. Qed.

Lemma order_props (sort_axes : list R -> list nat) ys : sorts_axes sort_axes ->
  Forall (fun d => (d < length ys)%nat) (sort_axes ys) /\ NoDup (sort_axes ys) /\
  (forall d, In d (sort_axes ys) <-> (d < length ys)%nat) /\ length (sort_axes ys) = length ys.
Proof.
  intros H. destruct (H ys) as [P _]. repeat split.
  - apply Forall_forall. intros d Hd. apply (Permutation_in _ P) in Hd. apply in_seq in Hd. lia.
  - eapply Permutation_NoDup; [apply Permutation_sym; exact P|]. apply seq_NoDup.
  - intros Hd. apply (Permutation_in _ P) in Hd. apply in_seq in Hd. lia.
  - intros Hd. apply (Permutation_in _ (Permutation_sym P)). apply in_seq. lia.
  - rewrite (Permutation_length P), seq_length. auto.
Qed.

Lemma simplex_value bm gs data p sort_axes cys : sorts_axes sort_axes -> simplex_setup bm gs data p cys ->
  let D := fun v => element (map (@length R) gs) data (node_indices gs (map fst cys) v) in
  let ones := map (fun _ => 1%nat) gs in
  interp_simplex bm gs data p sort_axes =
    Ok (D ones + walk D (map snd cys) (sort_axes (map snd cys)) ones).
Proof.
  intros HS [E F1 F2 HL HD HY] D ones. unfold interp_simplex. rewrite E. cbn [bind].
  destruct (HD ones) as [E1 _]; [apply ones_length|apply ones_bits|].
  change (map (fun _ : list R => 1%nat) gs) with ones. rewrite E1. cbn [bind].
  apply (simplex_walk_value bm gs data (map fst cys) (map snd cys) D).
  - intros v Hv Hb. apply HD; auto.
  - apply ones_length.
  - apply ones_bits.
  - destruct (order_props sort_axes (map snd cys) HS) as (H & _). rewrite map_length, HL in H. exact H.
Qed.

Lemma simplex_range_lemma : forall bm gs data p sort_axes m M,
  good_axes gs -> length p = length gs -> length data = count (map (@length R) gs) ->
  sorts_axes sort_axes -> (forall d, In d data -> m <= d <= M) ->
  exists v, interp_simplex bm gs data p sort_axes = Ok v /\ m <= v <= M.
Proof.
  intros bm gs data p sort_axes m M Hg Hp Hd HS Hm.
  destruct (setup bm gs data p Hg Hp Hd) as (cys & SS).
  eexists. split; [apply (simplex_value bm gs data p sort_axes cys HS SS)|].
  destruct SS as [E F1 F2 HL HD HY].
  set (ones := map (fun _ => 1%nat) gs). set (ys := map snd cys).
  set (D := fun v => element (map (@length R) gs) data (node_indices gs (map fst cys) v)).
  destruct (order_props sort_axes ys HS) as (Ho & ND & Hin & Hlen).
  assert (HLy : length ys = length gs) by (unfold ys; rewrite map_length; auto).


  assert (RD : forall v, length v = length gs -> Forall (fun b => (b <= 1)%nat) v -> m <= D v <= M).
  { intros v Hv Hb. destruct (HD v Hv Hb) as [_ HE]. apply Hm. apply nth_In. rewrite Hd. apply offset_pos; auto. }
  assert (W : forall order vs s, length vs = length gs -> Forall (fun b => (b <= 1)%nat) vs ->
    (forall d, In d order -> (d < length gs)%nat) ->
    (forall i j, (i < j < length order)%nat -> nth (nth i order 0%nat) ys 0 <= nth (nth j order 0%nat) ys 0) ->
    (forall d, In d order -> s >= 1 - nth d ys 0) -> 0 <= s ->
    s * m <= walk D ys order vs + s * D vs <= s * M).
  { induction order as [|d order IH]; intros vs s Hv Hb H1 Hs Hge H0; simpl.
    - specialize (RD vs Hv Hb). nra.
    - set (vs' := upd d (nth d vs 0 - 1)%nat vs). set (t := 1 - nth d ys 0).
      assert (Hdl : (d < length gs)%nat) by (apply H1; left; auto).
      assert (Hv' : length vs' = length gs) by (unfold vs'; rewrite upd_length; lia).
      assert (Hb' : Forall (fun b => (b <= 1)%nat) vs') by (apply upd_bits; [lia|auto]).
      assert (Ht : 0 <= t) by (specialize (HY d Hdl); fold ys in HY; unfold t; lra).
      assert (Hst : s >= t) by (apply Hge; left; auto).
      assert (I : t * m <= walk D ys order vs' + t * D vs' <= t * M).
      { apply IH; auto.
        - intros d' Hd'. apply H1. right; auto.
        - intros i j Hij. apply (Hs (S i) (S j)). simpl. lia.
        - intros d' Hd'. apply (In_nth _ _ 0%nat) in Hd' as (k & Hk & <-).
          specialize (Hs 0%nat (S k) ltac:(simpl; lia)). simpl in Hs. unfold t. lra. }
      pose proof (RD vs Hv Hb). pose proof (RD vs' Hv' Hb'). nra. }
  specialize (W (sort_axes ys) ones 1 (ones_length gs) (ones_bits gs)).
  assert (1 * m <= walk D ys (sort_axes ys) ones + 1 * D ones <= 1 * M).
  2:{ change (m <= D ones + walk D ys (sort_axes ys) ones <= M). lra. }
  apply W; try lra.
  - intros d Hd'. rewrite <- HLy. apply Hin; auto.
  - intros i j Hij. destruct (HS ys) as [_ HS2]. apply HS2. lia.
  - intros d Hd'. apply Hin in Hd'. rewrite HLy in Hd'. specialize (HY d Hd'). fold ys in HY. lra.
Qed.

(** Additive data: every axis contributes its own 1-D interpolation. *)
Lemma simplex_additive bm gs data p sort_axes cys f c : sorts_axes sort_axes ->
  simplex_setup bm gs data p cys ->
  (forall v, length v = length gs -> Forall (fun b => (b <= 1)%nat) v ->
     element (map (@length R) gs) data (node_indices gs (map fst cys) v) =
     c + sum (map (fun k => f k (nth k v 0%nat)) (seq 0 (length gs)))) ->
  interp_simplex bm gs data p sort_axes =
    Ok (c + sum (map (fun k => f k 0%nat + nth k (map snd cys) 0 * (f k 1%nat - f k 0%nat)) (seq 0 (length gs)))).
Proof.
  intros HS SS HA. rewrite (simplex_value bm gs data p sort_axes cys HS SS). cbv zeta. f_equal.
  destruct SS as [E F1 F2 HL HD HY].
  destruct (order_props sort_axes (map snd cys) HS) as (Ho & ND & Hin & Hlen).
  rewrite map_length, HL in Ho, Hlen. rewrite map_length, HL in Hin.
  rewrite (walk_additive _ f c (length gs)); auto using ones_length, ones_bits.
  2:{ intros d Hd. apply ones_nth. apply Hin; auto. }
  rewrite HA by (apply ones_length || apply ones_bits).
  destruct (HS (map snd cys)) as [P _]. rewrite map_length, HL in P.
  rewrite (sum_perm _ _ (Permutation_map (fun d => (1 - nth d (map snd cys) 0) * (f d 0%nat - f d 1%nat)) P)).
  rewrite (sum_ext (seq 0 (length gs)) (fun k => f k (nth k (map (fun _ => 1%nat) gs) 0%nat)) (fun k => f k 1%nat)).
  2:{ intros k Hk. apply in_seq in Hk. rewrite ones_nth; auto. lia. }
  generalize (seq 0 (length gs)). intros l.
  assert (G : forall l, sum (map (fun k => f k 1%nat) l) +
     sum (map (fun d => (1 - nth d (map snd cys) 0) * (f d 0%nat - f d 1%nat)) l) =
     sum (map (fun k => f k 0%nat + nth k (map snd cys) 0 * (f k 1%nat - f k 0%nat)) l)).
  { induction l0 as [|k l0 IH]; simpl; lra. }
  specialize (G l). lra.
Qed.

Lemma dot_node_sum a gs cys v : length a = length gs -> length cys = length gs -> length v = length gs ->
  dot a (node_at gs (node_indices gs (map fst cys) v)) =
  sum (map (fun k => nth k a 0 * nth (node_index (nth k gs []) (fst (nth k cys (0%Z, 0))) (nth k v 0%nat)) (nth k gs []) 0)
           (seq 0 (length gs))).
Proof.
  revert a cys v. induction gs as [|g gs IH]; intros [|x a] [|cy cys] [|b v] H1 H2 H3; try discriminate; [reflexivity|].
  cbn [length seq map node_indices node_at map2 dot sum fold_right nth]. f_equal.
  fold (node_at gs (node_indices gs (map fst cys) v)). rewrite IH by (simpl in *; lia).
  rewrite <- seq_shift, map_map. reflexivity.
Qed.

Lemma affine_axis_sum a gs p cys : good_axes gs -> length p = length gs -> length a = length gs ->
  Forall2 (fun gx cy => cell_frac (fst gx) (snd gx) = Ok cy) (combine gs p) cys ->
  sum (map (fun k =>
      nth k a 0 * nth (node_index (nth k gs []) (fst (nth k cys (0%Z, 0))) 0) (nth k gs []) 0 +
      nth k (map snd cys) 0 *
      (nth k a 0 * nth (node_index (nth k gs []) (fst (nth k cys (0%Z, 0))) 1) (nth k gs []) 0 -
       nth k a 0 * nth (node_index (nth k gs []) (fst (nth k cys (0%Z, 0))) 0) (nth k gs []) 0)) (seq 0 (length gs)))
  = dot a (clamp_point gs p).
Proof.
  intros Hg. revert a p cys. induction Hg as [|g gs Hg Hgs IH]; intros [|x0 a] [|x p] cys H1 H2 F;
    try discriminate; simpl in F; inversion F; subst; [reflexivity|].
  cbn [length seq map sum fold_right clamp_point map2 dot nth].
  rewrite <- seq_shift, map_map. cbn [nth]. fold (clamp_point gs p).
  rewrite <- (IH a p l') by (auto; simpl in *; lia). apply Rplus_eq_compat_r. 
  pose proof (rop_affine g x (fun t => t) Hg ltac:(intros; cbv beta; ring)) as E. unfold rop in E.
  cbn [fst snd] in H3. rewrite H3 in E. unfold op in E.
  rewrite <- E. ring.
Qed.

Lemma simplex_affine_lemma : forall bm gs data p sort_axes a b,
  good_axes gs -> length p = length gs -> length data = count (map (@length R) gs) ->
  sorts_axes sort_axes -> length a = length gs -> samples gs data (affine a b) ->
  interp_simplex bm gs data p sort_axes = Ok (affine a b (clamp_point gs p)) /\
  (~ outside gs p -> interp_simplex bm gs data p sort_axes = Ok (affine a b p)).
Proof.
  intros bm gs data p sort_axes a b Hg Hp Hd HS Ha HF.
  assert (E : interp_simplex bm gs data p sort_axes = Ok (affine a b (clamp_point gs p))).
  { destruct (setup bm gs data p Hg Hp Hd) as (cys & SS).
    pose proof SS as [E F1 F2 HL HD HY].
    rewrite (simplex_additive bm gs data p sort_axes cys
      (fun k v => nth k a 0 * nth (node_index (nth k gs []) (fst (nth k cys (0%Z, 0))) v) (nth k gs []) 0) b HS SS).
    - f_equal. unfold affine. f_equal. apply (affine_axis_sum a gs p cys); auto.
    - intros v Hv Hb. rewrite <- dot_node_sum by auto. apply HF. apply HD; auto. }
  split; [exact E|]. intros Ho. rewrite E, clamp_inside; auto.
Qed.

Lemma cell_frac_node g i : good_axis g -> (i < length g)%nat ->
  exists c, cell_frac g (nth i g 0) = Ok (c, 0) /\ node_index g c 0 = i.
Proof.
  intros Hg Hi. pose proof (good_axis_length g Hg) as Hl. destruct Hg as [Hinc Hne].
  unfold cell_frac, find_cell. destruct g as [|g0 g']; [congruence|].
  set (g := g0 :: g') in *. set (x := nth i g 0).
  change (nlt x g0) with (Rltb x (nth 0 g 0)).
  pose proof (increasing_le g 0 i Hinc ltac:(lia)) as H0. fold x in H0. rewrite (proj2 (Rltb_false _ _) H0).
  rewrite (last_nth g g0 0) by auto.
  change (nle (nth (length g - 1) g 0) x) with (Rleb (nth (length g - 1) g 0) x).
  destruct (Nat.eq_dec i (length g - 1)) as [E|E].
  - rewrite (proj2 (Rleb_true _ _)) by (unfold x; rewrite E; lra). cbn [bind].
    replace (Z.of_nat (length g) - 1 =? -1)%Z with false by (symmetry; apply Z.eqb_neq; lia).
    rewrite Z.eqb_refl. eexists; split; [reflexivity|]. unfold node_index.
    replace (Z.of_nat (length g) - 1 <? 0)%Z with false by (symmetry; apply Z.ltb_ge; lia).
    rewrite Z.leb_refl. auto.
  - pose proof (Hinc i (length g - 1)%nat ltac:(lia)) as H1. fold x in H1.
    rewrite (proj2 (Rleb_false _ _) H1). cbn [bind].
    pose proof (Hinc i (S i) ltac:(lia)) as H2. fold x in H2.
    rewrite (upper_bound_cell g x i Hinc ltac:(lia) (conj (Rle_refl _) H2)).
    replace (Z.of_nat (S i) - 1)%Z with (Z.of_nat i) by lia.
    replace (Z.of_nat i =? -1)%Z with false by (symmetry; apply Z.eqb_neq; lia).
    replace (Z.of_nat i =? Z.of_nat (length g) - 1)%Z with false by (symmetry; apply Z.eqb_neq; lia).
    rewrite Nat2Z.id, (vidx_lt g i 0) by lia. cbn [bind].
    replace (Z.to_nat (Z.of_nat i + 1)) with (S i) by lia.
    rewrite (vidx_lt g (S i) 0) by lia. cbn [bind]. fold x.
    change ((x - x) / (nth (S i) g 0 - x))%num with ((x - x) / (nth (S i) g 0 - x)).
    replace ((x - x) / (nth (S i) g 0 - x)) with 0 by (field; lra).
    change (nlt 0 (nofZ 0)) with (Rltb 0 0). change (nlt (nofZ 1) 0) with (Rltb 1 0).
    rewrite (proj2 (Rltb_false 0 0)) by lra. rewrite (proj2 (Rltb_false 1 0)) by lra.
    eexists; split; [reflexivity|]. unfold node_index.
    replace (Z.of_nat i <? 0)%Z with false by (symmetry; apply Z.ltb_ge; lia).
    replace (Z.of_nat (length g) - 1 <=? Z.of_nat i)%Z with false by (symmetry; apply Z.leb_gt; lia).
    rewrite Nat2Z.id. lia.
Qed.

Lemma simplex_nodes_lemma : forall bm gs data idx sort_axes,
  good_axes gs -> length data = count (map (@length R) gs) -> sorts_axes sort_axes ->
  in_extents (map (@length R) gs) idx ->
  interp_simplex bm gs data (node_at gs idx) sort_axes = Ok (element (map (@length R) gs) data idx).
Proof.
  intros bm gs data idx sort_axes Hg Hd HS Hi.
  destruct (setup bm gs data (node_at gs idx) Hg (node_at_length _ _ Hi) Hd) as (cys & SS).
  rewrite (simplex_value bm gs data _ sort_axes cys HS SS). cbv zeta. f_equal.
  destruct SS as [E F1 F2 HL HD HY].
  destruct (order_props sort_axes (map snd cys) HS) as (Ho & ND & Hin & Hlen).
  assert (HLy : length (map snd cys) = length gs) by (rewrite map_length; auto).
  assert (HZ : (forall k, (k < length gs)%nat -> nth k (map snd cys) 0 = 0) /\
               node_indices gs (map fst cys) (map (fun _ => 0%nat) gs) = idx).
  { clear - F2 Hg Hi. revert idx cys Hi F2. induction Hg as [|g gs Hg Hgs IH]; intros idx cys Hi F2; simpl in Hi;
      inversion Hi; subst; simpl in F2; inversion F2; subst.
    - split; [intros k Hk; simpl in Hk; lia|reflexivity].
    - destruct (IH _ _ H3 H5) as [IH1 IH2]. cbn [fst snd] in H2.
      destruct (cell_frac_node g y Hg H1) as (c & E & Ec). rewrite E in H2. injection H2 as <-.
      split.
      + intros [|k] Hk; [reflexivity|]. simpl. apply IH1. simpl in Hk; lia.
      + simpl. rewrite Ec. f_equal. exact IH2. }
  destruct HZ as [HZ1 HZ2].
  rewrite walk_zero.
  2:{ intros d Hd'. apply HZ1. rewrite <- HLy. apply Hin; auto. }
  set (zs := fold_left _ _ _).
  assert (EZ : zs = map (fun _ => 0%nat) gs).
  { assert (Ho' : Forall (fun d => (d < length (map (fun _ : list R => 1%nat) gs))%nat) (sort_axes (map snd cys))).
    { rewrite ones_length, <- HLy. auto. }
    apply (nth_ext _ _ 0%nat 0%nat).
    - unfold zs. rewrite fold_upd_length by auto. rewrite !map_length. auto.
    - intros k Hk. unfold zs in *. rewrite fold_upd_length, ones_length in Hk by auto.
      rewrite fold_upd_nth by auto. rewrite ones_nth by auto.
      destruct (in_dec Nat.eq_dec k (sort_axes (map snd cys))) as [_|N].
      + clear. revert k. induction gs as [|g gs IH]; intros [|k]; simpl; auto.
      + exfalso. apply N. apply Hin. lia. }
  rewrite EZ, HZ2. ring.
Qed.

Lemma simplex_1d_lemma : forall bm g data x sort_axes,
  good_axis g -> length data = length g -> sorts_axes sort_axes ->
  interp_simplex bm [g] data [x] sort_axes = interp_ml bm [g] data [x].
Proof.
  intros bm g data x sort_axes Hg Hd HS.
  assert (HG : good_axes [g]) by (constructor; auto).
  assert (Hc : length data = count (map (@length R) [g])) by (simpl; lia).
  destruct (setup bm [g] data [x] HG eq_refl Hc) as (cys & SS).
  pose proof SS as [E F1 F2 HL HD HY].
  destruct cys as [|cy [|]]; try discriminate HL.
  rewrite (simplex_additive bm [g] data [x] sort_axes [cy]
    (fun k v => element (map (@length R) [g]) data (node_indices [g] [fst cy] [v])) 0 HS SS).
  - rewrite (interp_ml_value bm [g] data [x] [cy] 0 E F1 Hc). f_equal. simpl.
    change nadd with Rplus. change nmul with Rmult. change nsub with Rminus. unfold element. simpl. ring.
  - intros v Hv Hb. destruct v as [|b [|]]; try discriminate Hv. simpl. ring.
Qed.

(** An actual sort, so that the hypothesis on [std::sort] is satisfiable. *)
Fixpoint ins (ys : list R) (d : nat) (l : list nat) : list nat :=
  match l with
  | [] => [d]
  | e :: l' => if Rle_dec (nth d ys 0) (nth e ys 0) then d :: l else e :: ins ys d l'
  end.
Definition isort (ys : list R) : list nat := fold_right (ins ys) [] (seq 0 (length ys)).

Lemma ins_perm ys d l : Permutation (ins ys d l) (d :: l).
Proof.
  induction l as [|e l IH]; simpl; auto. destruct (Rle_dec _ _); auto.
  apply perm_trans with (e :: d :: l); [apply perm_skip; auto|apply perm_swap].
Qed.

Fixpoint srt (ys : list R) (l : list nat) : Prop :=
  match l with
  | [] => True
  | d :: l' => (forall e, In e l' -> nth d ys 0 <= nth e ys 0) /\ srt ys l'
  end.

Lemma ins_srt ys d l : srt ys l -> srt ys (ins ys d l).
Proof.
  induction l as [|e l IH]; intros H; [simpl; tauto|].
  destruct H as [H1 H2]. simpl. destruct (Rle_dec (nth d ys 0) (nth e ys 0)) as [H|H]; simpl.
  - split; [|split; auto]. intros f [<-|Hf]; auto. specialize (H1 f Hf). lra.
  - split; [|apply IH; auto]. intros f Hf. apply (Permutation_in _ (ins_perm ys d l)) in Hf.
    destruct Hf as [<-|Hf]; auto. lra.
Qed.

Lemma srt_nth ys l : srt ys l -> forall i j, (i < j < length l)%nat -> nth (nth i l 0%nat) ys 0 <= nth (nth j l 0%nat) ys 0.
Proof.
  induction l as [|d l IH]; simpl; intros H i j Hij; [lia|]. destruct H as [H1 H2].
  destruct j as [|j]; [lia|]. destruct i as [|i].
  - apply H1. apply nth_In. lia.
  - apply IH; auto. lia.
Qed.

Lemma isort_sorts : sorts_axes isort.
Proof.
  intros ys. unfold isort.
  assert (P : forall l, Permutation (fold_right (ins ys) [] l) l).
  { induction l as [|d l IH]; simpl; auto. eapply perm_trans; [apply ins_perm|]. auto. }
  assert (S : forall l, srt ys (fold_right (ins ys) [] l)).
  { induction l as [|d l IH]; simpl; auto. apply ins_srt; auto. }
  split; [apply P|]. intros i j Hij. apply srt_nth; [apply S|].
  rewrite (Permutation_length (P (seq 0 (length ys)))), seq_length. lia.
Qed.
