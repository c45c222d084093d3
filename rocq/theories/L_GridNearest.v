(** Lemmas on RegularGridNearest. *)
From Coq Require Import List Arith ZArith Lia Bool Reals Lra.
From Verif Require Import Outcome Num StdAlgo S_Interp1d L_Search M_Grid S_Grid L_Grid.
Import ListNotations.
Local Open Scope R_scope.

Lemma rgn_add_coords_ok {D} dim gs pre (a : ndarray D) :
  (length pre + length gs = dim)%nat ->
  foldM (fun o v => let (o', r) := rgn_add_coord dim o v in omap (fun _ => o') r)
    (mkRN (T := R) pre a) gs = Ok (mkRN (pre ++ gs) a).
Proof.
  revert pre. induction gs as [|g gs IH]; intros pre Hl; simpl.
  - rewrite app_nil_r. reflexivity.
  - unfold rgn_add_coord. cbn [n_grids]. simpl in Hl.
    replace (length pre =? dim)%nat with false by (symmetry; apply Nat.eqb_neq; lia).
    simpl. rewrite IH.
    + rewrite <- app_assoc. reflexivity.
    + rewrite app_length. simpl. lia.
Qed.

Lemma rgn_make_ok {D} gs (a : ndarray D) : rgn_make (T := R) gs a = Ok (mkRN gs a).
Proof.
  unfold rgn_make, rgn_new. rewrite rgn_add_coords_ok by auto. cbn [bind app].
  unfold rgn_add_var. cbn [n_grids]. rewrite Nat.eqb_refl. reflexivity.
Qed.

Lemma Rabs_cases x : (0 <= x /\ Rabs x = x) \/ (x < 0 /\ Rabs x = - x).
Proof. destruct (Rle_dec 0 x); [left|right]; split; try lra; [apply Rabs_right|apply Rabs_left]; lra. Qed.

Ltac rabs := repeat match goal with |- context [Rabs ?x] =>
    let H := fresh in destruct (Rabs_cases x) as [[H ->]|[H ->]] end.

Lemma nearest_axis_ok g x : good_axis g -> exists i, nearest_axis g x = Ok i /\ nearest_on g x i.
Proof.
  intros Hg. pose proof (good_axis_length g Hg) as Hl. destruct Hg as [Hinc Hne].
  unfold nearest_axis. destruct g as [|g0 g']; [congruence|].
  set (g := g0 :: g') in *. change g0 with (nth 0 g 0) at 1.
  change (nlt x (nth 0 g 0)) with (Rltb x (nth 0 g 0)).
  destruct (Rlt_dec x (nth 0 g 0)) as [H0|H0].
  { rewrite (proj2 (Rltb_true _ _) H0). eexists; split; [reflexivity|]. split; [lia|].
    intros j Hj. pose proof (increasing_le g 0 j Hinc ltac:(lia)). split.
    - rabs; lra.
    - destruct (Nat.eq_dec j 0) as [->|Hj0]; [lia|].
      pose proof (Hinc 0%nat j ltac:(lia)). rabs; lra. }
  apply Rnot_lt_le in H0. rewrite (proj2 (Rltb_false _ _) H0).
  rewrite (last_nth g g0 0) by auto.
  change (nle (nth (length g - 1) g 0) x) with (Rleb (nth (length g - 1) g 0) x).
  destruct (Rle_dec (nth (length g - 1) g 0) x) as [H1|H1].
  { rewrite (proj2 (Rleb_true _ _) H1). eexists; split; [reflexivity|]. split; [lia|].
    intros j Hj. pose proof (increasing_le g j (length g - 1) Hinc ltac:(lia)). split; [rabs; lra|lia]. }
  apply Rnot_le_lt in H1. rewrite (proj2 (Rleb_false _ _) H1).
  assert (H2 : (2 <= length g)%nat).
  { destruct (le_lt_dec 2 (length g)); auto. replace (length g - 1)%nat with 0%nat in H1 by lia. lra. }
  destruct (cell_exists_ho g x H2 (conj H0 H1)) as (i & Hi & Hx).
  rewrite (upper_bound_cell g x i Hinc Hi Hx). rewrite Nat.add_1_r.
  rewrite (vidx_lt g (S i) 0) by lia. cbn [bind]. rewrite (vidx_lt g i 0) by lia. cbn [bind].
  set (a := nth i g 0) in *. set (b := nth (S i) g 0) in *.
  change (nle (nlit 1 2 * (b + a))%num x) with (Rleb (1 / 2 * (b + a)) x).
  destruct (Rle_dec (1 / 2 * (b + a)) x) as [Hm|Hm].
  - rewrite (proj2 (Rleb_true _ _) Hm). eexists; split; [reflexivity|]. split; [lia|].
    intros j Hj. fold b. destruct (le_lt_dec j i) as [Hji|Hji].
    + pose proof (increasing_le g j i Hinc ltac:(lia)). fold a in H. split; [rabs; lra|lia].
    + pose proof (increasing_le g (S i) j Hinc ltac:(lia)). fold b in H. split; [rabs; lra|].
      destruct (Nat.eq_dec j (S i)) as [->|Hne']; [lia|].
      pose proof (Hinc (S i) j ltac:(lia)). fold b in H3. rabs; lra.
  - apply Rnot_le_lt in Hm. rewrite (proj2 (Rleb_false _ _) Hm). eexists; split; [reflexivity|]. split; [lia|].
    intros j Hj. fold a. destruct (le_lt_dec j i) as [Hji|Hji].
    + pose proof (increasing_le g j i Hinc ltac:(lia)). fold a in H. split; [rabs; lra|lia].
    + pose proof (increasing_le g (S i) j Hinc ltac:(lia)). fold b in H. split; rabs; lra.
Qed.

Lemma nearest_lemma : forall (D : Type) bm gs (a : ndarray D) p d,
  good_axes gs -> nd_shape a = map (@length R) gs -> length (nd_flat a) = count (nd_shape a) ->
  length p = length gs ->
  exists o idx, rgn_make gs a = Ok o /\
    rgn_nearest bm o p = Ok (mkGN idx (node_at gs idx) (nth (pos (nd_shape a) idx) (nd_flat a) d)) /\
    in_extents (nd_shape a) idx /\
    (forall k, (k < length gs)%nat -> nearest_on (nth k gs []) (nth k p 0) (nth k idx 0%nat)) /\
    (forall idx', in_extents (nd_shape a) idx' -> dist2 p (node_at gs idx) <= dist2 p (node_at gs idx')).
Proof.
  intros D bm gs a p d Hg Hs Hl Hp.
  assert (G : exists ic, mapM (fun gx => let* i := nearest_axis (fst gx) (snd gx) in
                             let* c := vidx (fst gx) i in Ok (i, c)) (combine gs p) = Ok ic /\
     map snd ic = node_at gs (map fst ic) /\ in_extents (map (@length R) gs) (map fst ic) /\
     (forall k, (k < length gs)%nat -> nearest_on (nth k gs []) (nth k p 0) (nth k (map fst ic) 0%nat)) /\
     (forall idx', in_extents (map (@length R) gs) idx' ->
        dist2 p (node_at gs (map fst ic)) <= dist2 p (node_at gs idx'))).
  { clear - Hg Hp. revert p Hp. induction Hg as [|g gs Hg Hgs IH]; intros p Hp; destruct p as [|x p]; try discriminate.
    - exists []. split; [reflexivity|]. split; [reflexivity|]. split; [constructor|].
      split; [simpl; lia|]. intros idx' Hx. inversion Hx; subst. simpl. lra.
    - destruct (nearest_axis_ok g x Hg) as (i & E & Hi & Hn).
      destruct (IH p) as (ic & E' & H1 & H2 & H3 & H4); [simpl in Hp; lia|].
      exists ((i, nth i g 0) :: ic). cbn [combine mapM fst snd]. rewrite E. cbn [bind].
      rewrite (vidx_lt g i 0) by auto. cbn [bind]. rewrite E'. cbn [bind map fst snd].
      split; [reflexivity|]. split; [rewrite H1; reflexivity|]. split; [constructor; auto|]. split.
      + intros [|k] Hk; simpl; [split; auto|]. apply H3. simpl in Hk. lia.
      + intros idx' Hx. inversion Hx; subst. cbn [node_at map2 dist2].
        destruct (Hn y ltac:(auto)) as [Hd _].
        apply Rplus_le_compat; [apply Rsqr_le_abs_1; auto|]. apply H4; auto. }
  destruct G as (ic & E & H1 & H2 & H3 & H4). rewrite Hs in *.
  exists (mkRN gs a), (map fst ic). split; [apply rgn_make_ok|]. split; [|auto].
  unfold rgn_nearest. cbn [n_grids n_data]. rewrite E. cbn [bind].
  rewrite (ndget_ok bm a (map fst ic) d) by (rewrite Hs; auto). cbn [bind]. rewrite H1, Hs. reflexivity.
Qed.

(** ** GetSurroundingGridNodes *)
Lemma around_axis_cases g x : good_axis g -> small g ->
  exists c, around_axis g x = Ok c /\
    (((x < nth 0 g 0 \/ nth (length g - 1) g 0 <= x) /\ forall v, around_index g c v = (length g - 1)%nat) \/
     (exists i, (S i < length g)%nat /\ nth i g 0 <= x < nth (S i) g 0 /\
        forall v, around_index g c v = (i + v)%nat)).
Proof.
  intros Hg Hsm. pose proof (good_axis_length g Hg) as Hl. destruct Hg as [Hinc Hne]. unfold small in Hsm.
  unfold around_axis. destruct g as [|g0 g']; [congruence|].
  set (g := g0 :: g') in *. change g0 with (nth 0 g 0) at 1.
  change (nlt x (nth 0 g 0)) with (Rltb x (nth 0 g 0)).
  destruct (Rlt_dec x (nth 0 g 0)) as [H0|H0].
  { rewrite (proj2 (Rltb_true _ _) H0). eexists; split; [reflexivity|]. left. split; [auto|].
    intros v. unfold around_index. simpl (_ <? 0)%Z. cbv iota.
    replace (Z.of_nat (length g) - 1 <=? 4294967295)%Z with true; auto. symmetry. apply Z.leb_le. lia. }
  apply Rnot_lt_le in H0. rewrite (proj2 (Rltb_false _ _) H0).
  rewrite (last_nth g g0 0) by auto.
  change (nle (nth (length g - 1) g 0) x) with (Rleb (nth (length g - 1) g 0) x).
  destruct (Rle_dec (nth (length g - 1) g 0) x) as [H1|H1].
  { rewrite (proj2 (Rleb_true _ _) H1). eexists; split; [reflexivity|]. left. split; [auto|].
    intros v. unfold around_index.
    replace (Z.of_nat (length g) - 1 <? 0)%Z with false by (symmetry; apply Z.ltb_ge; lia).
    rewrite Z.leb_refl. reflexivity. }
  apply Rnot_le_lt in H1. rewrite (proj2 (Rleb_false _ _) H1).
  assert (H2 : (2 <= length g)%nat).
  { destruct (le_lt_dec 2 (length g)); auto. replace (length g - 1)%nat with 0%nat in H1 by lia. lra. }
  destruct (cell_exists_ho g x H2 (conj H0 H1)) as (i & Hi & Hx).
  rewrite (upper_bound_cell g x i Hinc Hi Hx).
  replace (Z.of_nat (S i) - 1)%Z with (Z.of_nat i) by lia. rewrite Z.mod_small by lia.
  eexists; split; [reflexivity|]. right. exists i. split; [auto|]. split; [auto|].
  intros v. unfold around_index.
  replace (Z.of_nat i <? 0)%Z with false by (symmetry; apply Z.ltb_ge; lia).
  replace (Z.of_nat (length g) - 1 <=? Z.of_nat i)%Z with false by (symmetry; apply Z.leb_gt; lia).
  rewrite Nat2Z.id. reflexivity.
Qed.

(** Along one axis: inside, index [i + v] of the half-open cell; outside
    (below or above), the last index. *)
Definition axis_around (g : list R) (x : R) (v i : nat) : Prop :=
  ((x < nth 0 g 0 \/ nth (length g - 1) g 0 <= x) /\ i = (length g - 1)%nat) \/
  (exists c, (S c < length g)%nat /\ nth c g 0 <= x < nth (S c) g 0 /\ i = (c + v)%nat).

Inductive around_spec : list (list R) -> list R -> list nat -> list nat -> Prop :=
| as_nil : around_spec [] [] [] []
| as_cons g gs x p v vs i is : axis_around g x v i -> around_spec gs p vs is ->
    around_spec (g :: gs) (x :: p) (v :: vs) (i :: is).

Lemma around_spec_extents gs p vs is : good_axes gs -> Forall (fun b => (b <= 1)%nat) vs ->
  around_spec gs p vs is -> in_extents (map (@length R) gs) is.
Proof.
  intros Hg Hv H. revert Hg Hv. induction H as [|g gs x p v vs i is HA H IH]; intros Hg Hv; [constructor|].
  inversion Hg; inversion Hv; subst. constructor; [|apply IH; auto].
  pose proof (good_axis_length g H2). destruct HA as [[_ ->]|(c & Hc & _ & ->)]; lia.
Qed.

Lemma coords_mapM gs idx : in_extents (map (@length R) gs) idx ->
  mapM (fun gi => vidx (fst gi) (snd gi)) (combine gs idx) = Ok (node_at gs idx).
Proof.
  revert idx. induction gs as [|g gs IH]; intros idx H; simpl in H; inversion H; subst; [reflexivity|].
  cbn [combine mapM fst snd node_at map2]. rewrite (vidx_lt g y 0) by auto. cbn [bind].
  rewrite IH by auto. reflexivity.
Qed.

Lemma around_mapM gs p : good_axes gs -> Forall small gs -> length p = length gs ->
  exists cs, mapM (fun gx => around_axis (fst gx) (snd gx)) (combine gs p) = Ok cs /\
    forall vs, length vs = length gs -> around_spec gs p vs (around_indices gs cs vs).
Proof.
  intros Hg Hs. revert p. induction Hg as [|g gs Hg Hgs IH]; intros p Hp; destruct p as [|x p]; try discriminate.
  - exists []. split; [reflexivity|]. intros [|v vs] Hv; try discriminate. constructor.
  - inversion Hs; subst. destruct (around_axis_cases g x Hg H1) as (c & E & Hc).
    destruct (IH H2 p) as (cs & E' & Hcs); [simpl in Hp; lia|].
    exists (c :: cs). cbn [combine mapM fst snd]. rewrite E. cbn [bind]. rewrite E'. split; [reflexivity|].
    intros [|v vs] Hv; try discriminate. cbn [around_indices]. constructor.
    + destruct Hc as [[Hx Hi]|(i & Hi & Hx & Hv')]; [left|right].
      * split; auto.
      * exists i. repeat split; auto; apply Hx.
    + apply Hcs. simpl in Hv; lia.
Qed.

Lemma around_general : forall (D : Type) bm gs (a : ndarray D) p d,
  good_axes gs -> Forall small gs -> nd_shape a = map (@length R) gs ->
  length (nd_flat a) = count (nd_shape a) -> length p = length gs ->
  exists o idx, rgn_make gs a = Ok o /\
    rgn_around bm o p =
      Ok (map (fun v => mkGN (idx v) (node_at gs (idx v)) (nth (pos (nd_shape a) (idx v)) (nd_flat a) d))
              (corners (length gs))) /\
    forall v, In v (corners (length gs)) -> around_spec gs p v (idx v).
Proof.
  intros D bm gs a p d Hg Hsm Hs Hl Hp. rewrite Hs in *.
  destruct (around_mapM gs p Hg Hsm Hp) as (cs & E & Hcs).
  exists (mkRN gs a), (around_indices gs cs). split; [apply rgn_make_ok|]. split.
  - unfold rgn_around. cbn [n_grids]. rewrite E. cbn [bind].
    rewrite <- vbits_corners, map_map. apply mapM_ok_map. intros v Hv.
    assert (Hin : In (vbits (length gs) v) (corners (length gs))).
    { rewrite <- vbits_corners. apply in_map. auto. }
    apply corners_in in Hin as [HL HB].
    pose proof (around_spec_extents gs p _ _ Hg HB (Hcs _ HL)) as HE.
    unfold rgn_node. cbn [n_grids n_data]. rewrite coords_mapM by auto. cbn [bind].
    rewrite (ndget_ok bm a _ d) by (rewrite Hs; auto). cbn [bind]. rewrite Hs. reflexivity.
  - intros v Hv. apply Hcs. apply corners_in in Hv. apply Hv.
Qed.

Lemma in_cell_ho_length gs cell p : in_cell_ho gs cell p -> length p = length gs.
Proof.
  revert cell p. induction gs as [|g gs IH]; intros [|i cell] [|x p] H; simpl in H; try contradiction; auto.
  simpl. f_equal. eapply IH. apply H.
Qed.

Lemma cell_unique g x i j : increasing g -> (S i < length g)%nat -> (S j < length g)%nat ->
  nth i g 0 <= x < nth (S i) g 0 -> nth j g 0 <= x < nth (S j) g 0 -> i = j.
Proof.
  intros H Hi Hj Hx Hy. destruct (lt_eq_lt_dec i j) as [[E|E]|E]; auto.
  - pose proof (increasing_le g (S i) j H ltac:(lia)). lra.
  - pose proof (increasing_le g (S j) i H ltac:(lia)). lra.
Qed.

Lemma around_spec_cell gs cell p v idx : good_axes gs -> in_cell_ho gs cell p ->
  around_spec gs p v idx -> idx = map2 Nat.add cell v.
Proof.
  intros Hg Hc H. revert Hg cell Hc. induction H as [|g gs x p v vs i is HA H IH]; intros Hg cell Hc;
    destruct cell as [|c cell]; simpl in Hc; try contradiction; auto.
  destruct Hc as (Hc1 & Hx & Hc). inversion Hg; subst. simpl. f_equal; [|apply IH; auto].
  pose proof (proj1 H2) as Hinc.
  destruct HA as [[[Ho|Ho] _]|(c' & Hc' & Hx' & ->)].
  - pose proof (increasing_le g 0 c Hinc ltac:(lia)). lra.
  - pose proof (increasing_le g (S c) (length g - 1) Hinc ltac:(lia)). lra.
  - f_equal. eapply cell_unique; eauto.
Qed.

Lemma around_inside_lemma : forall (D : Type) bm gs (a : ndarray D) cell p d,
  good_axes gs -> Forall small gs -> nd_shape a = map (@length R) gs ->
  length (nd_flat a) = count (nd_shape a) -> in_cell_ho gs cell p ->
  exists o, rgn_make gs a = Ok o /\
    rgn_around bm o p =
      Ok (map (fun v => let idx := map2 Nat.add cell v in
                        mkGN idx (node_at gs idx) (nth (pos (nd_shape a) idx) (nd_flat a) d))
              (corners (length gs))) /\
    forall cell', in_cell_ho gs cell' p -> cell' = cell.
Proof.
  intros D bm gs a cell p d Hg Hsm Hs Hl Hc.
  destruct (around_general D bm gs a p d Hg Hsm Hs Hl (in_cell_ho_length _ _ _ Hc)) as (o & idx & E1 & E2 & E3).
  exists o. split; [auto|]. split.
  - rewrite E2. f_equal. apply map_ext_in. intros v Hv.
    rewrite (around_spec_cell gs cell p v (idx v) Hg Hc (E3 v Hv)). reflexivity.
  - clear - Hg Hc. intros cell' Hc'. revert p cell cell' Hc Hc'. induction Hg as [|g gs Hg Hgs IH];
      intros [|x p] [|i c] [|j c'] H H'; simpl in H, H'; try contradiction; auto.
    destruct H as (H1 & H2 & H3), H' as (H1' & H2' & H3'). f_equal; [|eapply IH; eauto].
    eapply cell_unique; eauto. apply Hg.
Qed.

Lemma around_spec_nth gs p v idx k : around_spec gs p v idx -> (k < length gs)%nat ->
  axis_around (nth k gs []) (nth k p 0) (nth k v 0%nat) (nth k idx 0%nat).
Proof.
  intros H. revert k. induction H as [|g gs x p v vs i is HA H IH]; intros k Hk; simpl in Hk; [lia|].
  destruct k as [|k]; [exact HA|]. apply IH. lia.
Qed.

(** Outside along axis [k]: every node has the last index there. *)
Lemma around_outside_lemma : forall (D : Type) bm gs (a : ndarray D) p k,
  good_axes gs -> Forall small gs -> nd_shape a = map (@length R) gs ->
  length (nd_flat a) = count (nd_shape a) -> length p = length gs -> (k < length gs)%nat ->
  let g := nth k gs [] in
  nth k p 0 < nth 0 g 0 \/ nth (length g - 1) g 0 <= nth k p 0 ->
  exists o nodes, rgn_make gs a = Ok o /\ rgn_around bm o p = Ok nodes /\
    length nodes = (2 ^ length gs)%nat /\
    forall n, In n nodes -> nth k (gn_indices n) 0%nat = (length g - 1)%nat /\
      nth k (gn_coords n) 0 = nth (length g - 1) g 0.
Proof.
  intros D bm gs a p k Hg Hsm Hs Hl Hp Hk g Ho.
  assert (Hd : exists d : D, True).
  { assert (0 < count (nd_shape a))%nat.
    { rewrite Hs. clear - Hg. induction Hg as [|g gs Hg H IH]; simpl; [lia|].
      pose proof (good_axis_length g Hg). nia. }
    destruct (nd_flat a) as [|d l]; [simpl in Hl; lia|]. exists d. auto. }
  destruct Hd as [d _].
  destruct (around_general D bm gs a p d Hg Hsm Hs Hl Hp) as (o & idx & E1 & E2 & E3).
  exists o. eexists. split; [exact E1|]. split; [exact E2|]. split.
  - rewrite map_length, corners_length. reflexivity.
  - intros n Hn. apply in_map_iff in Hn as (v & <- & Hv). cbn [gn_indices gn_coords].
    pose proof (around_spec_nth gs p v (idx v) k (E3 v Hv) Hk) as HA.
    assert (EI : nth k (idx v) 0%nat = (length g - 1)%nat).
    { destruct HA as [[_ HA]|(c & Hc & Hx & _)]; [exact HA|]. fold g in Hc, Hx.
      assert (Hgk : good_axis g). { apply (proj1 (Forall_forall _ _) Hg). apply nth_In. auto. }
      pose proof (increasing_le g 0 c (proj1 Hgk) ltac:(lia)).
      pose proof (increasing_le g (S c) (length g - 1) (proj1 Hgk) ltac:(lia)). lra. }
    split; [exact EI|]. pose proof (corners_in _ _ Hv) as [HL HB].
    pose proof (around_spec_extents gs p v (idx v) Hg HB (E3 v Hv)) as HE.
    assert (G : forall gs idx k, in_extents (map (@length R) gs) idx -> (k < length gs)%nat ->
      nth k (node_at gs idx) 0 = nth (nth k idx 0%nat) (nth k gs []) 0).
    { clear. induction gs as [|g gs IH]; intros idx k H Hk; simpl in H, Hk; [lia|]. inversion H; subst.
      destruct k; [reflexivity|]. apply IH; auto. lia. }
    rewrite G by auto. rewrite EI. reflexivity.
Qed.
