(** Lemmas for the N-dimensional grids. *)
From Coq Require Import List Arith ZArith Lia Bool Reals Lra Permutation.
From Verif Require Import Outcome Num StdAlgo S_Interp1d L_Search M_Grid S_Grid.
Import ListNotations.
Local Open Scope nat_scope.

Lemma Forall2_length {A B} (R : A -> B -> Prop) l m : Forall2 R l m -> length l = length m.
Proof. induction 1; simpl; auto. Qed.

(** ** C-order arrays *)
Lemma prodn_count l : prodn l = count l.
Proof. induction l; simpl; auto. Qed.

Lemma offset_pos sizes idx : in_extents sizes idx ->
  offset sizes idx = Some (pos sizes idx) /\ pos sizes idx < count sizes.
Proof.
  induction 1 as [|s i ss is Hi H [IH1 IH2]]; simpl.
  - auto.
  - rewrite (proj2 (Nat.ltb_lt i s) Hi), IH1, prodn_count. split; [reflexivity|]. nia.
Qed.

Lemma offset_none sizes idx : offset sizes idx = None <-> ~ in_extents sizes idx.
Proof.
  split.
  - intros H H'. apply offset_pos in H' as [H' _]. congruence.
  - revert idx. induction sizes as [|s ss IH]; intros [|i is] H; simpl; auto.
    + exfalso. apply H. constructor.
    + destruct (i <? s) eqn:E; auto. rewrite IH; auto. intros H'. apply H.
      constructor; auto. apply Nat.ltb_lt; auto.
Qed.

Lemma ndget_ok {D} bm (a : ndarray D) idx d :
  in_extents (nd_shape a) idx -> length (nd_flat a) = count (nd_shape a) ->
  ndget bm a idx = Ok (nth (pos (nd_shape a) idx) (nd_flat a) d).
Proof.
  intros H Hl. unfold ndget. destruct (offset_pos _ _ H) as [-> Hp].
  apply vidx_lt. lia.
Qed.

(** ** Vertex numbering *)
Lemma land_shiftr_testbit v k : Nat.land (Nat.shiftr v k) 1 = Nat.b2n (Nat.testbit v k).
Proof.
  change 1 with (Nat.ones 1). rewrite Nat.land_ones. simpl Nat.pow.
  rewrite Nat.shiftr_div_pow2, <- Nat.testbit_spec'. reflexivity.
Qed.

Lemma vbits_S n v : vbits (S n) v = Nat.b2n (Nat.testbit v n) :: vbits n v.
Proof.
  unfold vbits. rewrite <- cons_seq. simpl map. f_equal.
  - rewrite land_shiftr_testbit. do 2 f_equal. lia.
  - rewrite <- seq_shift, map_map. apply map_ext. intros d. simpl. reflexivity.
Qed.

Lemma vbits_add n w : w < 2 ^ n -> vbits n (2 ^ n + w) = vbits n w.
Proof.
  intros Hw. unfold vbits. apply map_ext_in. intros d Hd. apply in_seq in Hd.
  rewrite !land_shiftr_testbit. f_equal. set (k := n - d - 1).
  apply Nat.b2n_inj. rewrite !Nat.testbit_spec'.
  replace (2 ^ n) with (2 ^ (n - S k) * 2 * 2 ^ k).
  - rewrite Nat.div_add_l by (apply Nat.pow_nonzero; lia).
    rewrite (Nat.add_comm (2 ^ (n - S k) * 2)), Nat.mod_add by lia. reflexivity.
  - rewrite <- Nat.mul_assoc. change (2 * 2 ^ k) with (2 ^ (S k)).
    rewrite <- Nat.pow_add_r. f_equal. unfold k. lia.
Qed.

Lemma vbits_corners n : map (vbits n) (seq 0 (2 ^ n)) = corners n.
Proof.
  induction n as [|n IH]; [reflexivity|].
  replace (2 ^ S n) with (2 ^ n + 2 ^ n) by (simpl; lia).
  rewrite seq_app, map_app, Nat.add_0_l. simpl corners. f_equal.
  - rewrite <- IH, map_map. apply map_ext_in. intros v Hv. apply in_seq in Hv.
    rewrite vbits_S. f_equal. rewrite <- (Nat.mod_small v (2 ^ n)) by lia.
    rewrite Nat.mod_pow2_bits_high; auto.
  - rewrite <- IH, map_map.
    replace (seq (2 ^ n) (2 ^ n)) with (map (fun w => 2 ^ n + w) (seq 0 (2 ^ n))).
    + rewrite map_map. apply map_ext_in. intros v Hv. apply in_seq in Hv.
      rewrite vbits_S, vbits_add by lia. f_equal.
      rewrite Nat.testbit_spec'.
      replace (2 ^ n + v) with (1 * 2 ^ n + v) by lia.
      rewrite Nat.div_add_l by (apply Nat.pow_nonzero; lia).
      rewrite Nat.div_small by lia. reflexivity.
    + clear. generalize (2 ^ n) at 2 4. intros m. generalize (2 ^ n). intros b.
      revert b. induction m as [|m IH]; intros b; [reflexivity|].
      simpl. f_equal; [lia|]. rewrite <- seq_shift, map_map. rewrite <- (IH (S b)).
      apply map_ext. intros; lia.
Qed.

Lemma corners_length n : length (corners n) = 2 ^ n.
Proof. induction n; simpl; auto. rewrite app_length, !map_length, IHn. lia. Qed.

Lemma corners_in n v : In v (corners n) -> length v = n /\ Forall (fun b => b <= 1) v.
Proof.
  revert v. induction n as [|n IH]; simpl; intros v H.
  - destruct H as [<-|[]]. auto.
  - apply in_app_or in H. destruct H as [H|H]; apply in_map_iff in H as (w & <- & H);
    apply IH in H as [<- H]; simpl; auto.
Qed.

(** ** The recursive blend, for any scalar type *)
Section Gen.
Context {T : Type} `{NT : Num T}.

Fixpoint ml (ys : list T) (h : list nat -> T) : T :=
  match ys with
  | [] => h []
  | y :: ys' =>
      let lower := ml ys' (fun v => h (0 :: v)) in
      let upper := ml ys' (fun v => h (1 :: v)) in
      (lower + y * (upper - lower))%num
  end.

Lemma unitcube_cons x y ys (f : list T) :
  unitcube (x :: y :: ys) f =
  (unitcube (y :: ys) (firstn (length f / 2) f) +
   x * (unitcube (y :: ys) (skipn (length f / 2) f) - unitcube (y :: ys) (firstn (length f / 2) f)))%num.
Proof. reflexivity. Qed.

Lemma unitcube_ml ys h : unitcube ys (map h (corners (length ys))) = ml ys h.
Proof.
  revert h. induction ys as [|y ys IH]; intros h; [reflexivity|].
  destruct ys as [|y' ys]; [reflexivity|].
  rewrite unitcube_cons. set (ys' := y' :: ys) in *.
  change (length (y :: ys')) with (S (length ys')).
  rewrite map_length, corners_length.
  replace (2 ^ S (length ys') / 2) with (2 ^ length ys').
  2:{ rewrite Nat.pow_succ_r', Nat.mul_comm, Nat.div_mul; lia. }
  change (corners (S (length ys'))) with (map (cons 0) (corners (length ys')) ++ map (cons 1) (corners (length ys'))).
  rewrite map_app, !map_map.
  set (A := map (fun x => h (0 :: x)) (corners (length ys'))).
  assert (HA : length A = 2 ^ length ys') by (unfold A; rewrite map_length, corners_length; auto).
  rewrite <- HA, firstn_app, firstn_all, Nat.sub_diag, firstn_O, app_nil_r.
  rewrite skipn_app, skipn_all, Nat.sub_diag, skipn_O, app_nil_l.
  unfold A. rewrite (IH (fun x => h (0 :: x))), (IH (fun x => h (1 :: x))). reflexivity.
Qed.

Lemma find_cell_ok (g : list T) x : g <> [] ->
  exists c, find_cell g x = Ok c /\ (-1 <= c < Z.of_nat (length g))%Z.
Proof.
  intros Hg. destruct g as [|g0 g]; [congruence|]. unfold find_cell.
  set (l := g0 :: g). assert (Hl : 0 < length l) by (simpl; lia).
  destruct (nlt x g0); [eexists; split; [reflexivity|lia]|].
  destruct (nle _ x); [eexists; split; [reflexivity|lia]|].
  eexists; split; [reflexivity|]. pose proof (upper_bound_le_length l x). lia.
Qed.

Lemma cell_frac_ok (g : list T) x : g <> [] ->
  exists c y, cell_frac g x = Ok (c, y) /\ (-1 <= c < Z.of_nat (length g))%Z.
Proof.
  intros Hg. destruct (find_cell_ok g x Hg) as (c & Hc & Hr). unfold cell_frac. rewrite Hc. simpl.
  destruct (c =? -1)%Z eqn:E1; [eauto|]. apply Z.eqb_neq in E1.
  destruct (c =? Z.of_nat (length g) - 1)%Z eqn:E2; [eauto|]. apply Z.eqb_neq in E2.
  rewrite (vidx_lt g (Z.to_nat c) (nofZ 0)) by lia. simpl.
  rewrite (vidx_lt g (Z.to_nat (c + 1)) (nofZ 0)) by lia. simpl. eauto.
Qed.

Lemma node_index_lt (g : list T) c v : v <= 1 ->
  (-1 <= c < Z.of_nat (length g))%Z -> 0 < length g -> node_index g c v < length g.
Proof.
  intros Hv Hc Hl. unfold node_index. destruct (c <? 0)%Z eqn:E; [lia|].
  destruct (Z.of_nat (length g) - 1 <=? c)%Z eqn:E2; lia.
Qed.

Definition axis_cell (g : list T) (cy : Z * T) : Prop :=
  (-1 <= fst cy < Z.of_nat (length g))%Z /\ g <> [].

Lemma node_indices_in_extents gs cys v :
  Forall2 axis_cell gs cys -> length v = length gs -> Forall (fun b => b <= 1) v ->
  in_extents (map (@length T) gs) (node_indices gs (map fst cys) v).
Proof.
  intros H. revert v. induction H as [|g cy gs cys [Hc Hg] H IH]; intros v Hv Hb; simpl.
  - constructor.
  - destruct v as [|b v]; [discriminate|]. inversion Hb; subst. constructor.
    + apply node_index_lt; auto. destruct g; [congruence|simpl; lia].
    + apply IH; auto.
Qed.

Lemma mapM_cell_frac gs p : Forall (fun g => g <> []) gs -> length p = length gs ->
  exists cys, mapM (fun gx => cell_frac (fst gx) (snd gx)) (combine gs p) = Ok cys /\
    Forall2 axis_cell gs cys /\
    Forall2 (fun gx cy => cell_frac (fst gx) (snd gx) = Ok cy) (combine gs p) cys.
Proof.
  intros H. revert p. induction H as [|g gs Hg H IH]; intros p Hp; simpl.
  - exists []. repeat split; constructor.
  - destruct p as [|x p]; [discriminate|]. destruct (cell_frac_ok g x Hg) as (c & y & E & Hr).
    destruct (IH p) as (cys & E' & F1 & F2); [simpl in Hp; lia|].
    exists ((c, y) :: cys). simpl. rewrite E. simpl. rewrite E'. simpl.
    repeat split; constructor; auto. split; auto.
Qed.

Lemma interp_ml_value bm gs data p cys d :
  mapM (fun gx => cell_frac (fst gx) (snd gx)) (combine gs p) = Ok cys ->
  Forall2 axis_cell gs cys -> length data = count (map (@length T) gs) ->
  interp_ml bm gs data p =
    Ok (ml (map snd cys) (fun v => nth (pos (map (@length T) gs) (node_indices gs (map fst cys) v)) data d)).
Proof.
  intros E F Hd. unfold interp_ml. rewrite E. simpl.
  set (h := fun v => nth (pos (map (@length T) gs) (node_indices gs (map fst cys) v)) data d).
  rewrite (mapM_ok_map _ (fun v => h (vbits (length gs) v))).
  - simpl. rewrite <- (map_map (vbits (length gs)) h), vbits_corners.
    replace (length gs) with (length (map snd cys)).
    + rewrite unitcube_ml. reflexivity.
    + rewrite map_length. symmetry. eapply Forall2_length; eauto.
  - intros v Hv. unfold get_f_val, h. apply ndget_ok; auto. simpl.
    assert (Hin : In (vbits (length gs) v) (corners (length gs))).
    { rewrite <- vbits_corners. apply in_map. auto. }
    apply corners_in in Hin as [H1 H2]. apply node_indices_in_extents; auto.
Qed.

Lemma interp_ml_defined bm gs data p :
  Forall (fun g => g <> []) gs -> length p = length gs -> length data = count (map (@length T) gs) ->
  exists v, interp_ml bm gs data p = Ok v.
Proof.
  intros H1 H2 H3. destruct (mapM_cell_frac gs p H1 H2) as (cys & E & F & _).
  eexists. apply (interp_ml_value bm gs data p cys (nofZ 0) E F H3).
Qed.

End Gen.

(** ** Real axes *)
Local Open Scope R_scope.

Definition op (g : list R) (cy : Z * R) (h : nat -> R) : R :=
  h (node_index g (fst cy) 0) + snd cy * (h (node_index g (fst cy) 1) - h (node_index g (fst cy) 0)).

Definition rop (g : list R) (x : R) (h : nat -> R) : R :=
  match cell_frac g x with Ok cy => op g cy h | _ => 0 end.

Fixpoint nest (ops : list ((nat -> R) -> R)) (h : list nat -> R) : R :=
  match ops with
  | [] => h []
  | A :: ops' => A (fun i => nest ops' (fun is => h (i :: is)))
  end.

Lemma ml_nest gs cys (D : list nat -> R) : length gs = length cys ->
  ml (map snd cys) (fun v => D (node_indices gs (map fst cys) v)) = nest (map2 op gs cys) D.
Proof.
  revert cys D. induction gs as [|g gs IH]; intros [|cy cys] D H; try discriminate; [reflexivity|].
  cbn [map2 nest map ml]. injection H as H. unfold op at 1. cbv beta.
  rewrite <- (IH cys (fun is => D (node_index g (fst cy) 0 :: is)) H).
  rewrite <- (IH cys (fun is => D (node_index g (fst cy) 1 :: is)) H). reflexivity.
Qed.

Lemma last_nth {A} (l : list A) d d' : l <> [] -> last l d = nth (length l - 1) l d'.
Proof.
  induction l as [|a [|b l] IH]; intros H; [congruence|reflexivity|].
  change (last (a :: b :: l) d) with (last (b :: l) d). rewrite IH by discriminate.
  simpl length. replace (S (S (length l)) - 1)%nat with (S (S (length l) - 1)) by lia. reflexivity.
Qed.

Lemma good_axis_length g : good_axis g -> (0 < length g)%nat.
Proof. intros [_ H]. destruct g; [congruence|simpl; lia]. Qed.

Lemma axis_cases g x : good_axis g ->
  exists cy, cell_frac g x = Ok cy /\
    ((x < nth 0 g 0 /\ forall h, op g cy h = h 0%nat) \/
     (nth (length g - 1) g 0 <= x /\ forall h, op g cy h = h (length g - 1)%nat) \/
     (exists i, (S i < length g)%nat /\ nth i g 0 <= x < nth (S i) g 0 /\
        forall h, op g cy h = h i + (x - nth i g 0) / (nth (S i) g 0 - nth i g 0) * (h (S i) - h i))).
Proof.
  intros Hg. pose proof (good_axis_length g Hg) as Hl. destruct Hg as [Hinc Hne].
  unfold cell_frac, find_cell. destruct g as [|g0 g']; [congruence|].
  set (g := g0 :: g') in *. change g0 with (nth 0 g 0) at 1.
  destruct (Rlt_dec x (nth 0 g 0)) as [H0|H0].
  { change (nlt x (nth 0 g 0)) with (Rltb x (nth 0 g 0)). rewrite (proj2 (Rltb_true _ _) H0).
    simpl. eexists; split; [reflexivity|]. left. split; auto. intros h. unfold op, node_index. simpl. ring. }
  apply Rnot_lt_le in H0.
  change (nlt x (nth 0 g 0)) with (Rltb x (nth 0 g 0)). rewrite (proj2 (Rltb_false _ _) H0).
  rewrite (last_nth g g0 0) by auto.
  change (nle (nth (length g - 1) g 0) x) with (Rleb (nth (length g - 1) g 0) x).
  destruct (Rle_dec (nth (length g - 1) g 0) x) as [H1|H1].
  { rewrite (proj2 (Rleb_true _ _) H1). cbn [bind].
    replace (Z.of_nat (length g) - 1 =? -1)%Z with false by (symmetry; apply Z.eqb_neq; lia).
    rewrite Z.eqb_refl. eexists; split; [reflexivity|]. right; left. split; auto.
    intros h. unfold op, node_index. cbn [fst snd].
    replace (Z.of_nat (length g) - 1 <? 0)%Z with false by (symmetry; apply Z.ltb_ge; lia).
    rewrite Z.leb_refl. change (nofZ 0) with 0. ring. }
  apply Rnot_le_lt in H1. rewrite (proj2 (Rleb_false _ _) H1). cbn [bind].
  assert (H2 : (2 <= length g)%nat).
  { destruct (le_lt_dec 2 (length g)); auto. replace (length g - 1)%nat with 0%nat in H1 by lia. lra. }
  destruct (cell_exists_ho g x H2 (conj H0 H1)) as (i & Hi & Hx).
  rewrite (upper_bound_cell g x i Hinc Hi Hx).
  replace (Z.of_nat (S i) - 1)%Z with (Z.of_nat i) by lia.
  replace (Z.of_nat i =? -1)%Z with false by (symmetry; apply Z.eqb_neq; lia).
  replace (Z.of_nat i =? Z.of_nat (length g) - 1)%Z with false by (symmetry; apply Z.eqb_neq; lia).
  rewrite Nat2Z.id, (vidx_lt g i 0) by lia. cbn [bind].
  replace (Z.to_nat (Z.of_nat i + 1)) with (S i) by lia.
  rewrite (vidx_lt g (S i) 0) by lia. cbn [bind].
  set (a := nth i g 0) in *. set (b := nth (S i) g 0) in *.
  change ((x - a) / (b - a))%num with ((x - a) / (b - a)).
  assert (Hy : 0 <= (x - a) / (b - a) <= 1).
  { split.
    - apply Rmult_le_pos; [lra|]. left. apply Rinv_0_lt_compat. lra.
    - apply Rmult_le_reg_r with (b - a); [lra|]. unfold Rdiv. rewrite Rmult_assoc, Rinv_l; lra. }
  change (nlt ((x - a) / (b - a)) (nofZ 0)) with (Rltb ((x - a) / (b - a)) 0).
  change (nlt (nofZ 1) ((x - a) / (b - a))) with (Rltb 1 ((x - a) / (b - a))).
  rewrite (proj2 (Rltb_false _ 0)) by lra. rewrite (proj2 (Rltb_false 1 _)) by lra.
  eexists; split; [reflexivity|]. right; right. exists i. split; [auto|]. split; [auto|].
  intros h. unfold op, node_index. cbn [fst snd].
  replace (Z.of_nat i <? 0)%Z with false by (symmetry; apply Z.ltb_ge; lia).
  replace (Z.of_nat (length g) - 1 <=? Z.of_nat i)%Z with false by (symmetry; apply Z.leb_gt; lia).
  rewrite Nat2Z.id, Nat.add_0_r, Nat.add_1_r. reflexivity.
Qed.

Lemma rop_cases g x : good_axis g ->
  (x < nth 0 g 0 /\ forall h, rop g x h = h 0%nat) \/
  (nth (length g - 1) g 0 <= x /\ forall h, rop g x h = h (length g - 1)%nat) \/
  (exists i, (S i < length g)%nat /\ nth i g 0 <= x < nth (S i) g 0 /\
     forall h, rop g x h = h i + (x - nth i g 0) / (nth (S i) g 0 - nth i g 0) * (h (S i) - h i)).
Proof. intros H. destruct (axis_cases g x H) as (cy & E & Hc). unfold rop. rewrite E. exact Hc. Qed.

Lemma rop_ext g x h h' : (forall i, h i = h' i) -> rop g x h = rop g x h'.
Proof. intros H. unfold rop. destruct (cell_frac g x); auto. unfold op. rewrite !H. reflexivity. Qed.

Lemma rop_node g i h : good_axis g -> (i < length g)%nat -> rop g (nth i g 0) h = h i.
Proof.
  intros Hg Hi. pose proof (proj1 Hg) as Hinc.
  destruct (rop_cases g (nth i g 0) Hg) as [[H E]|[[H E]|(j & Hj & H & E)]]; rewrite E.
  - pose proof (increasing_le g 0 i Hinc ltac:(lia)). lra.
  - destruct (Nat.eq_dec i (length g - 1)) as [->|Hne]; auto.
    pose proof (Hinc i (length g - 1)%nat ltac:(lia)). lra.
  - assert (i = j).
    { destruct (lt_eq_lt_dec i j) as [[Hij|]|Hij]; auto.
      - pose proof (Hinc i j ltac:(lia)). lra.
      - pose proof (increasing_le g (S j) i Hinc ltac:(lia)). lra. }
    subst j. pose proof (Hinc i (S i) ltac:(lia)). field. lra.
Qed.

Lemma rop_cell g x i h : good_axis g -> (S i < length g)%nat -> nth i g 0 <= x <= nth (S i) g 0 ->
  rop g x h = (nth (S i) g 0 - x) / (nth (S i) g 0 - nth i g 0) * h i +
              (x - nth i g 0) / (nth (S i) g 0 - nth i g 0) * h (S i).
Proof.
  intros Hg Hi Hx. pose proof (proj1 Hg) as Hinc. pose proof (Hinc i (S i) ltac:(lia)) as Hab.
  destruct (Req_dec x (nth (S i) g 0)) as [->|Hne].
  { rewrite rop_node by auto. field. lra. }
  destruct (rop_cases g x Hg) as [[H E]|[[H E]|(j & Hj & H & E)]]; rewrite E.
  - pose proof (increasing_le g 0 i Hinc ltac:(lia)). lra.
  - pose proof (increasing_le g (S i) (length g - 1) Hinc ltac:(lia)). lra.
  - assert (i = j).
    { destruct (lt_eq_lt_dec i j) as [[Hij|]|Hij]; auto.
      - pose proof (increasing_le g (S i) j Hinc ltac:(lia)). lra.
      - pose proof (increasing_le g (S j) i Hinc ltac:(lia)). lra. }
    subst j. field. lra.
Qed.

Lemma rop_clamp g x h : good_axis g ->
  rop g x h = rop g (clamp (nth 0 g 0) (nth (length g - 1) g 0) x) h.
Proof.
  intros Hg. pose proof (good_axis_length g Hg) as Hl. pose proof (proj1 Hg) as Hinc.
  pose proof (increasing_le g 0 (length g - 1) Hinc ltac:(lia)) as H01.
  destruct (rop_cases g x Hg) as [[H E]|[[H E]|(j & Hj & H & E)]].
  - rewrite E. unfold clamp. rewrite Rmin_right, Rmax_left by lra. rewrite rop_node; auto.
  - rewrite E. unfold clamp. rewrite Rmin_left, Rmax_right by lra. rewrite rop_node by (auto; lia). auto.
  - unfold clamp.
    pose proof (increasing_le g 0 j Hinc ltac:(lia)).
    pose proof (increasing_le g (S j) (length g - 1) Hinc ltac:(lia)).
    rewrite Rmin_right, Rmax_right by lra. reflexivity.
Qed.

Lemma rop_range g x h m M : good_axis g -> (forall i, (i < length g)%nat -> m <= h i <= M) ->
  m <= rop g x h <= M.
Proof.
  intros Hg Hh. pose proof (good_axis_length g Hg) as Hl. pose proof (proj1 Hg) as Hinc.
  destruct (rop_cases g x Hg) as [[H E]|[[H E]|(j & Hj & H & E)]]; rewrite E.
  - apply Hh; auto.
  - apply Hh. lia.
  - pose proof (Hh j ltac:(lia)). pose proof (Hh (S j) ltac:(lia)).
    set (t := (x - nth j g 0) / (nth (S j) g 0 - nth j g 0)).
    assert (Ht : 0 <= t <= 1).
    { unfold t. split.
      - apply Rmult_le_pos; [lra|]. left. apply Rinv_0_lt_compat. lra.
      - apply Rmult_le_reg_r with (nth (S j) g 0 - nth j g 0); [lra|].
        unfold Rdiv. rewrite Rmult_assoc, Rinv_l; lra. }
    nra.
Qed.

(** Inside the axis, [rop] is exact on affine functions of the coordinate. *)
Lemma rop_affine g x (F : R -> R) : good_axis g ->
  (forall a b t, F ((1 - t) * a + t * b) = (1 - t) * F a + t * F b) ->
  rop g x (fun i => F (nth i g 0)) = F (clamp (nth 0 g 0) (nth (length g - 1) g 0) x).
Proof.
  intros Hg HF. pose proof (good_axis_length g Hg) as Hl. pose proof (proj1 Hg) as Hinc.
  pose proof (increasing_le g 0 (length g - 1) Hinc ltac:(lia)) as H01.
  destruct (rop_cases g x Hg) as [[H E]|[[H E]|(j & Hj & H & E)]]; rewrite E.
  - unfold clamp. rewrite Rmin_right, Rmax_left by lra. reflexivity.
  - unfold clamp. rewrite Rmin_left, Rmax_right by lra. reflexivity.
  - unfold clamp.
    pose proof (increasing_le g 0 j Hinc ltac:(lia)).
    pose proof (increasing_le g (S j) (length g - 1) Hinc ltac:(lia)).
    rewrite Rmin_right, Rmax_right by lra.
    set (t := (x - nth j g 0) / (nth (S j) g 0 - nth j g 0)).
    replace x with ((1 - t) * nth j g 0 + t * nth (S j) g 0) at 1 by (unfold t; field; lra).
    rewrite HF. ring.
Qed.

Lemma nest_ext (ops ops' : list ((nat -> R) -> R)) D D' :
  Forall2 (fun A B => forall h h' : nat -> R, (forall i, h i = h' i) -> A h = B h') ops ops' ->
  (forall is, D is = D' is) -> nest ops D = nest ops' D'.
Proof.
  intros H. revert D D'. induction H as [|A B ops ops' HAB H IH]; intros D D' HD; simpl; auto.
Qed.

Lemma nest_nodes gs idx D : good_axes gs -> in_extents (map (@length R) gs) idx ->
  nest (map2 rop gs (node_at gs idx)) D = D idx.
Proof.
  intros H. revert idx D. induction H as [|g gs Hg H IH]; intros idx D Hi; simpl in Hi; inversion Hi; subst.
  - reflexivity.
  - simpl. rewrite rop_node by auto. apply (IH _ (fun is => D (y :: is))). auto.
Qed.

Lemma nest_clamp gs p D : good_axes gs -> length p = length gs ->
  nest (map2 rop gs (clamp_point gs p)) D = nest (map2 rop gs p) D.
Proof.
  intros H. revert p D. induction H as [|g gs Hg H IH]; intros p D Hp; destruct p as [|x p]; try discriminate; auto.
  simpl. rewrite <- rop_clamp by auto. apply rop_ext. intros i.
  apply (IH p (fun is => D (i :: is))). simpl in Hp. lia.
Qed.

Lemma nest_range gs p D m M : good_axes gs -> length p = length gs ->
  (forall idx, in_extents (map (@length R) gs) idx -> m <= D idx <= M) ->
  m <= nest (map2 rop gs p) D <= M.
Proof.
  intros H. revert p D. induction H as [|g gs Hg H IH]; intros p D Hp HD; destruct p as [|x p]; try discriminate.
  - simpl. apply HD. constructor.
  - simpl. apply rop_range; auto. intros i Hi. apply (IH p (fun is => D (i :: is))).
    + simpl in Hp. lia.
    + intros idx Hidx. apply HD. constructor; auto.
Qed.

Lemma sum_app l m : sum (l ++ m) = sum l + sum m.
Proof. induction l; simpl; lra. Qed.
Lemma sum_scal {A} (l : list A) c f : sum (map (fun v => c * f v) l) = c * sum (map f l).
Proof. induction l; simpl; lra. Qed.
Lemma sum_ext {A} (l : list A) f h : (forall v, In v l -> f v = h v) -> sum (map f l) = sum (map h l).
Proof. induction l; simpl; intros H; auto. rewrite H, IHl; auto. Qed.

Lemma nest_cell gs cell p D : good_axes gs -> in_cell gs cell p ->
  nest (map2 rop gs p) D =
  sum (map (fun v => weight gs cell p v * D (map2 Nat.add cell v)) (corners (length gs))).
Proof.
  intros H. revert cell p D. induction H as [|g gs Hg H IH]; intros cell p D Hc;
    destruct cell as [|i cell], p as [|x p]; simpl in Hc; try contradiction.
  - simpl. lra.
  - destruct Hc as (Hi & Hx & Hc). cbn [map2 nest length corners].
    rewrite (rop_cell g x i) by auto.
    rewrite (IH cell p (fun is => D (i :: is)) Hc), (IH cell p (fun is => D (S i :: is)) Hc).
    rewrite map_app, sum_app, !map_map. rewrite <- !sum_scal.
    f_equal; apply sum_ext; intros v _; cbn [weight map2].
    + rewrite Nat.add_0_r. ring.
    + rewrite Nat.add_1_r. ring.
Qed.

Lemma nest_multi_affine gs p F : good_axes gs -> length p = length gs -> multi_affine (length gs) F ->
  nest (map2 rop gs p) (fun idx => F (node_at gs idx)) = F (clamp_point gs p).
Proof.
  intros H. revert p F. induction H as [|g gs Hg H IH]; intros p F Hp HF; destruct p as [|x p]; try discriminate; auto.
  cbn [map2 nest clamp_point node_at]. simpl in Hp.
  rewrite (rop_ext g x _ (fun i => F (nth i g 0 :: clamp_point gs p))).
  - apply (rop_affine g x (fun c => F (c :: clamp_point gs p)) Hg).
    intros a b t. apply (HF [] a b t (clamp_point gs p)). simpl. f_equal.
    assert (E : forall gs p, length p = length gs -> length (clamp_point gs p) = length gs).
    { clear. induction gs; intros [|y q] Hq; try discriminate; simpl; auto. }
    apply E. lia.
  - intros i. apply (IH p (fun c => F (nth i g 0 :: c))); [lia|].
    intros pre a b t post Hl. apply (HF (nth i g 0 :: pre) a b t post). simpl. lia.
Qed.

Lemma interp_ml_nest bm gs data p : good_axes gs -> length p = length gs ->
  length data = count (map (@length R) gs) ->
  interp_ml bm gs data p = Ok (nest (map2 rop gs p) (element (map (@length R) gs) data)).
Proof.
  intros Hg Hp Hd.
  destruct (mapM_cell_frac gs p) as (cys & E & F1 & F2); auto.
  { eapply Forall_impl; [|exact Hg]. intros g [_ Hne]; auto. }
  rewrite (interp_ml_value bm gs data p cys 0 E F1 Hd).
  f_equal. etransitivity.
  { apply (ml_nest gs cys (element (map (@length R) gs) data)). eapply Forall2_length; eauto. }
  apply nest_ext; auto.
  clear E F1 Hd Hg. revert p cys Hp F2. induction gs as [|g gs IH]; intros p cys Hp F2;
    destruct p as [|x p]; try discriminate; simpl in *; inversion F2; subst; constructor.
  - intros h h' Hh. unfold rop. simpl in H1. rewrite H1. unfold op. rewrite !Hh. reflexivity.
  - apply IH; auto.
Qed.

(** ** Construction of a RegularGridInterpolator *)
Lemma sic_iff g : @strictly_increasing_check R RNum g = true <-> increasing g.
Proof.
  split.
  - induction g as [|a [|b g] IH]; intros H i j Hij; try (simpl in Hij; lia).
    change (strictly_increasing_check (a :: b :: g)) with
      (if Rleb b a then false else @strictly_increasing_check R RNum (b :: g)) in H.
    destruct (Rleb b a) eqn:E; [discriminate|]. apply Rleb_false in E. specialize (IH H).
    destruct i as [|i]; destruct j as [|j]; try lia.
    + destruct j as [|j]; [exact E|]. apply Rlt_trans with b; auto.
      apply (IH 0%nat (S j)). simpl in *. lia.
    + apply (IH i j). simpl in *. lia.
  - induction g as [|a [|b g] IH]; intros H; auto.
    change (strictly_increasing_check (a :: b :: g)) with
      (if Rleb b a then false else @strictly_increasing_check R RNum (b :: g)).
    rewrite (proj2 (Rleb_false b a)).
    + apply IH. eapply increasing_tail; eauto.
    + apply (H 0%nat 1%nat). simpl. lia.
Qed.

Definition limits_of (gs : list (list R)) : list (R * R) :=
  map (fun g => (nth 0 g 0, nth (length g - 1) g 0)) gs.

Lemma add_coords_ok dim gs pre a ip lim :
  Forall increasing gs -> (length pre + length gs = dim)%nat ->
  foldM (fun o v => let (o', r) := rgi_add_coord dim o v in omap (fun _ => o') r)
    (mkRG pre a ip lim) gs = Ok (mkRG (pre ++ gs) a ip lim).
Proof.
  intros H. revert pre. induction H as [|g gs Hg H IH]; intros pre Hl; simpl.
  - rewrite app_nil_r. reflexivity.
  - unfold rgi_add_coord. cbn [r_grids]. simpl in Hl.
    replace (length pre =? dim)%nat with false by (symmetry; apply Nat.eqb_neq; lia).
    rewrite (proj2 (sic_iff g) Hg). simpl. rewrite IH.
    + rewrite <- app_assoc. reflexivity.
    + rewrite app_length. simpl. lia.
Qed.

Lemma forallb_nonempty {A} (gs : list (list A)) :
  forallb (fun g => negb (length g =? 0)%nat) gs = true <-> Forall (fun g => g <> []) gs.
Proof.
  rewrite forallb_forall, Forall_forall. split; intros H g Hg; specialize (H g Hg).
  - intros ->. discriminate.
  - destruct g; [congruence|reflexivity].
Qed.

Lemma good_axes_inc gs : good_axes gs -> Forall increasing gs.
Proof. intros H. eapply Forall_impl; [|exact H]. intros g [Hi _]; auto. Qed.
Lemma good_axes_ne gs : good_axes gs -> Forall (fun g => g <> []) gs.
Proof. intros H. eapply Forall_impl; [|exact H]. intros g [_ Hi]; auto. Qed.

Lemma build_ok gs a ip lim : Forall (fun g => g <> []) gs ->
  length (nd_flat a) = count (map (@length R) gs) ->
  rgi_build (length gs) (mkRG gs a ip lim) = (mkRG gs a IpLive (Some (limits_of gs)), Ok tt).
Proof.
  intros Hne Hl. unfold rgi_build. cbn [r_grids r_data r_ip r_limits].
  rewrite firstn_all, Nat.eqb_refl, (proj2 (forallb_nonempty gs) Hne). simpl.
  rewrite prodn_count, Hl, Nat.eqb_refl. reflexivity.
Qed.

Lemma rgi_make_ok gs a : good_axes gs -> length (nd_flat a) = count (map (@length R) gs) ->
  rgi_make gs a = Ok (mkRG gs a IpLive (Some (limits_of gs))).
Proof.
  intros Hg Hl. unfold rgi_make. unfold rgi_new.
  rewrite add_coords_ok by (auto using good_axes_inc). cbn [bind app].
  unfold rgi_add_var. cbn [r_grids]. rewrite Nat.eqb_refl.
  cbn [r_ip r_limits]. rewrite build_ok by (auto using good_axes_ne). reflexivity.
Qed.

Lemma existsb_outside gs p : length p = length gs ->
  existsb (fun lx => nlt (snd lx) (fst (fst lx)) || nlt (snd (fst lx)) (snd lx))
    (combine (limits_of gs) p) = true <-> outside gs p.
Proof.
  revert p. induction gs as [|g gs IH]; intros p Hp; destruct p as [|x p]; try discriminate; simpl.
  - split; [discriminate|]. intros (k & Hk & _). simpl in Hk. lia.
  - rewrite orb_true_iff, IH by (simpl in Hp; lia).
    rewrite orb_true_iff. change nlt with Rltb. rewrite !Rltb_true. split.
    + intros [H|(k & Hk & H)]; [exists 0%nat|exists (S k)]; simpl; split; auto; lia.
    + intros (k & Hk & H). destruct k as [|k]; [left; exact H|].
      right. exists k. simpl in *. split; [lia|exact H].
Qed.

Lemma interp_live bm gs a lim p : good_axes gs -> length p = length gs ->
  length (nd_flat a) = count (map (@length R) gs) ->
  rgi_interp bm (mkRG gs a IpLive lim) p false =
    Ok (nest (map2 rop gs p) (element (map (@length R) gs) (nd_flat a))).
Proof. intros. unfold rgi_interp. simpl. apply interp_ml_nest; auto. Qed.

Lemma interp_live_bc bm gs a p : good_axes gs -> length p = length gs ->
  length (nd_flat a) = count (map (@length R) gs) ->
  (outside gs p -> rgi_interp bm (mkRG gs a IpLive (Some (limits_of gs))) p true = Throw RuntimeError) /\
  (~ outside gs p -> rgi_interp bm (mkRG gs a IpLive (Some (limits_of gs))) p true =
     rgi_interp bm (mkRG gs a IpLive (Some (limits_of gs))) p false).
Proof.
  intros Hg Hp Hl. unfold rgi_interp. cbn [r_limits r_ip r_grids r_data].
  pose proof (existsb_outside gs p Hp) as E. split; intros H.
  - rewrite (proj2 E H). reflexivity.
  - destruct (existsb _ _) eqn:E'; auto. exfalso. apply H. apply E. auto.
Qed.

(** *** Theorems on values *)
Lemma node_at_length gs idx : in_extents (map (@length R) gs) idx -> length (node_at gs idx) = length gs.
Proof.
  revert idx. induction gs as [|g gs IH]; intros idx H; simpl in H; inversion H; subst; simpl; auto.
Qed.

Lemma node_not_outside gs idx : good_axes gs -> in_extents (map (@length R) gs) idx ->
  ~ outside gs (node_at gs idx).
Proof.
  intros Hg. revert idx. induction Hg as [|g gs Hg Hgs IH]; intros idx H (k & Hk & Ho); simpl in H;
    inversion H; subst; simpl in Hk; [lia|].
  destruct k as [|k]; simpl in Ho.
  - pose proof (increasing_le g 0 y (proj1 Hg) ltac:(lia)).
    pose proof (increasing_le g y (length g - 1) (proj1 Hg) ltac:(lia)). lra.
  - apply (IH l'); auto. exists k. split; [lia|exact Ho].
Qed.

Lemma grid_nodes_lemma : forall bm gs a idx bc,
  good_axes gs -> nd_shape a = map (@length R) gs -> length (nd_flat a) = count (nd_shape a) ->
  in_extents (nd_shape a) idx ->
  exists o, rgi_make gs a = Ok o /\
    rgi_interp bm o (node_at gs idx) bc = Ok (element (nd_shape a) (nd_flat a) idx) /\
    rgi_at bm o idx = Ok (element (nd_shape a) (nd_flat a) idx).
Proof.
  intros bm gs a idx bc Hg Hs Hl Hi. rewrite Hs in *.
  eexists. split; [apply rgi_make_ok; auto|].
  pose proof (node_at_length gs idx Hi) as Hn.
  assert (E : rgi_interp bm (mkRG gs a IpLive (Some (limits_of gs))) (node_at gs idx) false =
              Ok (element (map (@length R) gs) (nd_flat a) idx)).
  { rewrite interp_live by auto. rewrite nest_nodes by auto. reflexivity. }
  split.
  - destruct bc; [|exact E].
    destruct (interp_live_bc bm gs a (node_at gs idx) Hg Hn Hl) as [_ ->]; auto.
    apply node_not_outside; auto.
  - unfold rgi_at. cbn [r_data]. rewrite (ndget_ok bm a idx 0); rewrite ?Hs; auto.
Qed.

Lemma in_cell_length gs cell p : in_cell gs cell p -> length p = length gs.
Proof.
  revert cell p. induction gs as [|g gs IH]; intros [|i cell] [|x p] H; simpl in H; try contradiction; auto.
  simpl. f_equal. eapply IH. apply H.
Qed.

Lemma grid_blend_lemma : forall bm gs a cell p,
  good_axes gs -> length (nd_flat a) = count (map (@length R) gs) -> in_cell gs cell p ->
  exists o, rgi_make gs a = Ok o /\ rgi_interp bm o p false = Ok (blend gs (nd_flat a) cell p).
Proof.
  intros bm gs a cell p Hg Hl Hc. eexists. split; [apply rgi_make_ok; auto|].
  rewrite interp_live by (eauto using in_cell_length). f_equal. apply nest_cell; auto.
Qed.

Lemma clamp_inside gs p : good_axes gs -> length p = length gs -> ~ outside gs p -> clamp_point gs p = p.
Proof.
  intros Hg. revert p. induction Hg as [|g gs Hg Hgs IH]; intros p Hp Ho; destruct p as [|x p]; try discriminate; auto.
  unfold clamp_point. cbn [map2]. f_equal.
  - assert (H : nth 0 g 0 <= x <= nth (length g - 1) g 0).
    { split; apply Rnot_lt_le; intros H; apply Ho; exists 0%nat; simpl; (split; [lia|]); auto. }
    unfold clamp. rewrite Rmin_right, Rmax_right; lra.
  - apply IH; [simpl in Hp; lia|]. intros (k & Hk & H). apply Ho. exists (S k). simpl. split; [lia|exact H].
Qed.

Lemma grid_multi_affine_lemma : forall bm gs a F p,
  good_axes gs -> length (nd_flat a) = count (map (@length R) gs) -> length p = length gs ->
  multi_affine (length gs) F -> samples gs (nd_flat a) F ->
  exists o, rgi_make gs a = Ok o /\
    rgi_interp bm o p false = Ok (F (clamp_point gs p)) /\
    (~ outside gs p -> rgi_interp bm o p false = Ok (F p)).
Proof.
  intros bm gs a F p Hg Hl Hp HF HS. eexists. split; [apply rgi_make_ok; auto|].
  assert (E : rgi_interp bm (mkRG gs a IpLive (Some (limits_of gs))) p false = Ok (F (clamp_point gs p))).
  { rewrite interp_live by auto. f_equal. rewrite <- (nest_multi_affine gs p F Hg Hp HF).
    assert (G : forall gs p (D D' : list nat -> R), good_axes gs -> length p = length gs ->
      (forall idx, in_extents (map (@length R) gs) idx -> D idx = D' idx) ->
      nest (map2 rop gs p) D = nest (map2 rop gs p) D').
    { clear. intros gs p D D' Hg. revert p D D'. induction Hg as [|g gs Hg Hgs IH]; intros p D D' Hp HD;
        destruct p as [|x p]; try discriminate; simpl.
      - apply HD. constructor.
      - destruct (rop_cases g x Hg) as [[H E]|[[H E]|(i & Hi & H & E)]]; rewrite !E;
        pose proof (good_axis_length g Hg).
        + apply IH; [simpl in Hp; lia|]. intros idx Hi. apply HD. constructor; auto.
        + apply IH; [simpl in Hp; lia|]. intros idx Hi. apply HD. constructor; auto. lia.
        + assert (E0 : forall j, (j < length g)%nat ->
            nest (map2 rop gs p) (fun is => D (j :: is)) = nest (map2 rop gs p) (fun is => D' (j :: is))).
          { intros j Hj. apply IH; [simpl in Hp; lia|]. intros idx Hx. apply HD. constructor; auto. }
          rewrite !E0 by lia. reflexivity. }
    apply G; auto. }
  split; [exact E|]. intros Ho. rewrite E, clamp_inside; auto.
Qed.

Lemma grid_clamp_lemma : forall bm gs a p m M,
  good_axes gs -> length (nd_flat a) = count (map (@length R) gs) -> length p = length gs ->
  (forall d, In d (nd_flat a) -> m <= d <= M) ->
  exists o v, rgi_make gs a = Ok o /\ rgi_interp bm o p false = Ok v /\
    rgi_interp bm o (clamp_point gs p) false = Ok v /\ m <= v <= M.
Proof.
  intros bm gs a p m M Hg Hl Hp Hm.
  exists (mkRG gs a IpLive (Some (limits_of gs))), (nest (map2 rop gs p) (element (map (@length R) gs) (nd_flat a))).
  assert (Hc : length (clamp_point gs p) = length gs).
  { clear - Hp. revert p Hp. induction gs; intros [|x p] Hp; try discriminate; simpl; auto. }
  repeat split.
  - apply rgi_make_ok; auto.
  - rewrite interp_live by auto. reflexivity.
  - rewrite interp_live by auto. rewrite nest_clamp by auto. reflexivity.
  - apply (nest_range gs p _ m M); auto. intros idx Hi. apply Hm. apply nth_In.
    rewrite Hl. apply offset_pos; auto.
  - apply (nest_range gs p _ m M); auto. intros idx Hi. apply Hm. apply nth_In.
    rewrite Hl. apply offset_pos; auto.
Qed.

Lemma grid_bound_check_lemma : forall bm gs a p,
  good_axes gs -> length (nd_flat a) = count (map (@length R) gs) -> length p = length gs ->
  exists o v, rgi_make gs a = Ok o /\ rgi_interp bm o p false = Ok v /\
    (outside gs p -> rgi_interp bm o p true = Throw RuntimeError) /\
    (~ outside gs p -> rgi_interp bm o p true = Ok v).
Proof.
  intros bm gs a p Hg Hl Hp. eexists. eexists. split; [apply rgi_make_ok; auto|].
  split; [apply interp_live; auto|].
  destruct (interp_live_bc bm gs a p Hg Hp Hl) as [H1 H2]. split; auto.
  intros Ho. rewrite (H2 Ho). apply interp_live; auto.
Qed.
