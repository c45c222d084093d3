(** Simplex interpolation as an integral over thresholds. *)
From Coq Require Import List Arith ZArith Reals Lra Lia Bool Permutation.
From Coquelicot Require Import Coquelicot.
From Verif Require Import Outcome Num StdAlgo S_Interp1d M_Grid S_Grid S_Integ S_Err S_GShape
  L_Search L_Grid L_GridSimplex L_Err.
Import ListNotations.
Local Open Scope R_scope.

Definition bit (t y : R) : nat := if Rlt_dec t y then 1%nat else 0%nat.
Definition bits (t : R) (ys : list R) : list nat := map (bit t) ys.
Definition jx (g : list R) (x t : R) : nat :=
  match cell_frac g x with Ok cy => node_index g (fst cy) (bit t (snd cy)) | _ => 0%nat end.
Definition J (gs : list (list R)) (p : list R) (t : R) : list nat := map2 (fun g x => jx g x t) gs p.

(** *** One axis *)
Lemma jx_cases g x : good_axis g ->
  (x < nth 0 g 0 /\ (forall h, rop g x h = h 0%nat) /\ forall t, jx g x t = 0%nat) \/
  (nth (length g - 1) g 0 <= x /\ (forall h, rop g x h = h (length g - 1)%nat) /\ forall t, jx g x t = (length g - 1)%nat) \/
  (exists i y, (S i < length g)%nat /\ nth i g 0 <= x < nth (S i) g 0 /\ y = (x - nth i g 0) / (nth (S i) g 0 - nth i g 0) /\ 0 <= y <= 1 /\
     (forall h, rop g x h = h i + y * (h (S i) - h i)) /\ forall t, jx g x t = (i + bit t y)%nat).
Proof.
  intros Hg. pose proof (good_axis_length g Hg) as Hl. destruct Hg as [Hinc Hne]. unfold rop, jx.
  unfold cell_frac, find_cell. destruct g as [|g0 g']; [congruence|].
  set (g := g0 :: g') in *. change (nlt x g0) with (Rltb x (nth 0 g 0)).
  destruct (Rlt_dec x (nth 0 g 0)) as [H0|H0].
  { rewrite (proj2 (Rltb_true _ _) H0).
    left. split; auto. split; intros; unfold op, node_index; simpl; [ring|reflexivity]. }
  apply Rnot_lt_le in H0.
  rewrite (proj2 (Rltb_false _ _) H0).
  rewrite (last_nth g g0 0) by auto.
  change (nle (nth (length g - 1) g 0) x) with (Rleb (nth (length g - 1) g 0) x).
  destruct (Rle_dec (nth (length g - 1) g 0) x) as [H1|H1].
  { rewrite (proj2 (Rleb_true _ _) H1). cbn [bind].
    replace (Z.of_nat (length g) - 1 =? -1)%Z with false by (symmetry; apply Z.eqb_neq; lia).
    rewrite Z.eqb_refl. cbv beta iota. right; left. split; auto. unfold op, node_index. cbn [fst snd].
    replace (Z.of_nat (length g) - 1 <? 0)%Z with false by (symmetry; apply Z.ltb_ge; lia).
    rewrite Z.leb_refl. change (nofZ 0) with 0. split; intros; [ring|reflexivity]. }
  apply Rnot_le_lt in H1. rewrite (proj2 (Rleb_false _ _) H1). cbn [bind].
  assert (H2 : (2 <= length g)%nat).
  { destruct (le_lt_dec 2 (length g)); auto. replace (length g - 1)%nat with 0%nat in H1 by lia. lra. }
  destruct (cell_exists_ho g x H2 (conj H0 H1)) as (i & Hi & Hx).
  rewrite (upper_bound_cell g x i Hinc Hi Hx).
  replace (Z.of_nat (S i) - 1)%Z with (Z.of_nat i) by lia.
  replace (Z.of_nat i =? -1)%Z with false by (symmetry; apply Z.eqb_neq; lia).
  replace (Z.of_nat i =? Z.of_nat (length g) - 1)%Z with false by (symmetry; apply Z.eqb_neq; lia).
  rewrite Nat2Z.id, (vidx_lt g i 0) by lia. cbn [bind].
  replace (Z.to_nat (Z.of_nat i + 1)) with (S i) by lia.
  rewrite (vidx_lt g (S i) 0) by lia. cbn [bind].
  set (a := nth i g 0) in *. set (b := nth (S i) g 0) in *.
  change ((x - a) / (b - a))%num with ((x - a) / (b - a)).
  assert (Hy : 0 <= (x - a) / (b - a) <= 1).
  { split.
    - apply Rmult_le_pos; [lra|]. left. apply Rinv_0_lt_compat. lra.
    - apply Rmult_le_reg_r with (b - a); [lra|]. unfold Rdiv. rewrite Rmult_assoc, Rinv_l; lra. }
  change (nlt ((x - a) / (b - a)) (nofZ 0)) with (Rltb ((x - a) / (b - a)) 0).
  change (nlt (nofZ 1) ((x - a) / (b - a))) with (Rltb 1 ((x - a) / (b - a))).
  rewrite (proj2 (Rltb_false _ 0)) by lra. rewrite (proj2 (Rltb_false 1 _)) by lra.
  cbv beta iota. right; right. exists i, ((x - a) / (b - a)). split; [auto|]. split; [auto|]. split; [auto|]. split; [auto|].
  unfold op, node_index. cbn [fst snd].
  replace (Z.of_nat i <? 0)%Z with false by (symmetry; apply Z.ltb_ge; lia).
  replace (Z.of_nat (length g) - 1 <=? Z.of_nat i)%Z with false by (symmetry; apply Z.leb_gt; lia).
  rewrite Nat2Z.id, Nat.add_0_r, Nat.add_1_r. split; intros; reflexivity.
Qed.
Lemma jx_lt g x t : good_axis g -> (jx g x t < length g)%nat.
Proof.
  intros Hg. pose proof (good_axis_length g Hg). destruct (jx_cases g x Hg) as [(_ & _ & ->)|[(_ & _ & ->)|(i & y & Hi & _ & _ & _ & _ & ->)]]; try lia.
  unfold bit. destruct Rlt_dec; lia.
Qed.
Lemma bit_le t y y' : y <= y' -> (bit t y <= bit t y')%nat.
Proof. intros H. unfold bit. repeat destruct Rlt_dec; try lia. lra. Qed.
Lemma bit01 t y : (bit t y <= 1)%nat.
Proof. unfold bit. destruct Rlt_dec; lia. Qed.
Lemma jx_mono g x x' t : good_axis g -> x <= x' -> (jx g x t <= jx g x' t)%nat.
Proof.
  intros Hg Hx. pose proof (good_axis_length g Hg) as Hl. pose proof (jx_lt g x t Hg) as L. pose proof (proj1 Hg) as Hinc.
  destruct (jx_cases g x Hg) as [(A & _ & E)|[(A & _ & E)|(i & y & Hi & A & Ey & _ & _ & E)]];
    destruct (jx_cases g x' Hg) as [(A' & _ & E')|[(A' & _ & E')|(i' & y' & Hi' & A' & Ey' & _ & _ & E')]]; rewrite ?E' ; try (rewrite E in *; lia).
  - rewrite E. pose proof (increasing_le g 0 (length g - 1) Hinc ltac:(lia)). destruct (Nat.eq_dec (length g - 1) 0); [lia|]. lra.
  - exfalso. pose proof (increasing_le g (S i') (length g - 1) Hinc ltac:(lia)). lra.
  - exfalso. pose proof (increasing_le g 0 i Hinc ltac:(lia)). lra.
  - rewrite E. destruct (lt_eq_lt_dec i i') as [[H|H]|H].
    + pose proof (bit01 t y). lia.
    + subst i'. assert (0 < nth (S i) g 0 - nth i g 0) by (pose proof (Hinc i (S i) ltac:(lia)); lra).
      assert (y <= y').
      { subst y y'. apply Rmult_le_compat_r; [left; now apply Rinv_0_lt_compat|lra]. }
      pose proof (bit_le t y y' H0). lia.
    + exfalso. pose proof (increasing_le g (S i') i Hinc ltac:(lia)). lra.
Qed.

(** A function with two values. *)
Lemma int_two (f : R -> R) a b y va vb : a <= y <= b -> (forall t, a < t < y -> f t = va) -> (forall t, y < t < b -> f t = vb) ->
  is_RInt f a b ((y - a) * va + (b - y) * vb).
Proof.
  intros Hy Ha Hb. apply (is_RInt_Chasles (V := R_NormedModule)) with y.
  - apply (is_RInt_ext (fun _ => va)); [|apply (is_RInt_const (V := R_NormedModule))].
    rewrite Rmin_left, Rmax_right by lra. intros t Ht. symmetry. now apply Ha.
  - apply (is_RInt_ext (fun _ => vb)); [|apply (is_RInt_const (V := R_NormedModule))].
    rewrite Rmin_left, Rmax_right by lra. intros t Ht. symmetry. now apply Hb.
Qed.
Lemma int_eq (f : R -> R) a b v w : is_RInt f a b v -> v = w -> is_RInt f a b w.
Proof. intros H <-. exact H. Qed.
Lemma jx_int g x (h : nat -> R) : good_axis g -> is_RInt (fun t => h (jx g x t)) 0 1 (rop g x h).
Proof.
  intros Hg. destruct (jx_cases g x Hg) as [(_ & E1 & E2)|[(_ & E1 & E2)|(i & y & _ & _ & _ & Hy & E1 & E2)]]; rewrite E1.
  - eapply int_eq; [apply (int_two _ 0 1 0 (h 0%nat) (h 0%nat)); [lra|intros t Ht; lra|intros t _; now rewrite E2]|lra].
  - eapply int_eq; [apply (int_two _ 0 1 0 0 (h (length g - 1)%nat)); [lra|intros t Ht; lra|intros t _; now rewrite E2]|lra].
  - eapply int_eq; [apply (int_two _ 0 1 y (h (S i)) (h i)); [lra| |]|lra]; intros t Ht; rewrite E2; unfold bit; destruct Rlt_dec; try lra; f_equal; lia.
Qed.

(** *** The walk *)
Lemma bits_nth t ys k : (k < length ys)%nat -> nth k (bits t ys) 0%nat = bit t (nth k ys 0).
Proof.
  intros H. unfold bits. rewrite (nth_indep _ _ (bit t 0)) by (now rewrite map_length). apply (map_nth (bit t)).
Qed.
Lemma walk_int D ys : forall order vs s, length vs = length ys -> NoDup order ->
  (forall d, In d order -> (d < length ys)%nat /\ nth d vs 0%nat = 1%nat /\ s <= nth d ys 0 <= 1) ->
  (forall d, (d < length ys)%nat -> ~ In d order -> nth d vs 0%nat = 0%nat /\ nth d ys 0 <= s) ->
  (forall i j, (i < j < length order)%nat -> nth (nth i order 0%nat) ys 0 <= nth (nth j order 0%nat) ys 0) -> s <= 1 ->
  is_RInt (fun t => D (bits t ys)) s 1 (walk D ys order vs + (1 - s) * D vs).
Proof.
  induction order as [|d order IH]; intros vs s Lv ND H1 H0 Hs Hs1; cbn [walk].
  - eapply int_eq; [apply (int_two _ s 1 s 0 (D vs)); [lra|intros t Ht; lra|]|lra].
    intros t Ht. f_equal. apply nth_ext with (d := 0%nat) (d' := 0%nat); [unfold bits; now rewrite map_length|].
    intros k Hk. unfold bits in Hk. rewrite map_length in Hk. rewrite bits_nth by exact Hk.
    destruct (H0 k Hk (fun f => f)) as [-> C]. unfold bit. destruct Rlt_dec; [lra|reflexivity].
  - inversion ND as [|? ? N1 N2]; subst. destruct (H1 d (or_introl eq_refl)) as (Ld & Vd & Yd). set (y := nth d ys 0) in *.
    assert (Yo : forall k, In k order -> y <= nth k ys 0).
    { intros k Hk. apply (In_nth _ _ 0%nat) in Hk as (j & Hj & <-). apply (Hs 0%nat (S j)). simpl. lia. }
    rewrite Vd. change (1 - 1)%nat with 0%nat. set (vs' := upd d 0 vs).
    assert (I : is_RInt (fun t => D (bits t ys)) y 1 (walk D ys order vs' + (1 - y) * D vs')).
    { apply IH; auto.
      - unfold vs'. rewrite upd_length; lia.
      - intros k Hk. destruct (H1 k (or_intror Hk)) as (A & B & C). split; [exact A|]. split; [|split; [now apply Yo|lra]].
        unfold vs'. rewrite upd_nth by lia. destruct (Nat.eqb_spec k d) as [->|]; [contradiction|exact B].
      - intros k Hk Hn. unfold vs'. rewrite upd_nth by lia. destruct (Nat.eqb_spec k d) as [->|Hne]; [split; [reflexivity|unfold y; lra]|].
        destruct (H0 k Hk) as [A B]; [intros [C|C]; [now apply Hne|contradiction]|]. split; [exact A|lra].
      - intros i j Hij. apply (Hs (S i) (S j)). simpl. lia.
      - lra. }
    assert (C : is_RInt (fun t => D (bits t ys)) s y ((y - s) * D vs)).
    { eapply int_eq; [apply (int_two _ s y y (D vs) 0); [lra| |intros t Ht; lra]|lra].
      intros t Ht. f_equal. apply nth_ext with (d := 0%nat) (d' := 0%nat); [unfold bits; now rewrite map_length|].
      intros k Hk. unfold bits in Hk. rewrite map_length in Hk. rewrite bits_nth by exact Hk.
      destruct (in_dec Nat.eq_dec k (d :: order)) as [Hi|Hi].
      - destruct (H1 k Hi) as (_ & -> & _). assert (y <= nth k ys 0) by (destruct Hi as [<-|Hi]; [unfold y; lra|now apply Yo]).
        unfold bit. destruct Rlt_dec; [reflexivity|lra].
      - destruct (H0 k Hk Hi) as [-> C]. unfold bit. destruct Rlt_dec; [lra|reflexivity]. }
    eapply int_eq; [exact (is_RInt_Chasles (V := R_NormedModule) _ _ _ _ _ _ C I)|]. change plus with Rplus. simpl. ring.
Qed.
Lemma J_indices gs p cys t : Forall2 (fun gx cy => cell_frac (fst gx) (snd gx) = Ok cy) (combine gs p) cys -> length p = length gs ->
  node_indices gs (map fst cys) (bits t (map snd cys)) = J gs p t.
Proof.
  revert p cys. induction gs as [|g gs IH]; intros [|x p] cys H Hp; try discriminate; inversion H as [|? cy ? cys' E H']; subst; [reflexivity|].
  cbn [map bits node_indices J map2]. unfold jx at 1. cbn [fst snd] in E. rewrite E. f_equal. apply IH; auto.
Qed.
Lemma J_in gs p t : good_axes gs -> length p = length gs -> in_extents (map (@length R) gs) (J gs p t).
Proof.
  intros H. revert p. induction H as [|g gs Hg H IH]; intros [|x p] Hp; try discriminate; [constructor|].
  constructor; [now apply jx_lt|]. apply IH. simpl in Hp. lia.
Qed.
Lemma simplex_int bm gs data p sort_axes : good_axes gs -> length p = length gs -> length data = count (map (@length R) gs) -> sorts_axes sort_axes ->
  exists v, interp_simplex bm gs data p sort_axes = Ok v /\ is_RInt (fun t => element (map (@length R) gs) data (J gs p t)) 0 1 v.
Proof.
  intros Hg Hp Hd HS. destruct (setup bm gs data p Hg Hp Hd) as (cys & SS). eexists. split; [apply (simplex_value bm gs data p sort_axes cys HS SS)|].
  destruct SS as [E F1 F2 HL HD HY]. set (ones := map (fun _ => 1%nat) gs). set (ys := map snd cys).
  set (D := fun v => element (map (@length R) gs) data (node_indices gs (map fst cys) v)).
  destruct (order_props sort_axes ys HS) as (Ho & ND & Hin & Hlen).
  assert (HLy : length ys = length gs) by (unfold ys; rewrite map_length; auto).
  apply (is_RInt_ext (fun t => D (bits t ys))).
  { intros t _. unfold D, ys. now rewrite (J_indices gs p cys t F2 Hp). }
  eapply int_eq; [apply (walk_int D ys (sort_axes ys) ones 0)|].
  - unfold ones. rewrite ones_length. lia.
  - exact ND.
  - intros d Hd'. apply Hin in Hd'. rewrite HLy in Hd'. split; [lia|]. split; [now apply ones_nth|]. now apply HY.
  - intros d Hd' Hn. exfalso. apply Hn, Hin. lia.
  - intros i j Hij. destruct (HS ys) as [_ HS2]. apply HS2. lia.
  - lra.
  - cbv beta zeta. change (walk D ys (sort_axes ys) ones + (1 - 0) * D ones = D ones + walk D ys (sort_axes ys) ones). ring.
Qed.

(** Sums over the axes of functions of one index each. *)
Fixpoint asum (hs : list (nat -> R)) (idx : list nat) : R :=
  match hs, idx with h :: hs', i :: idx' => h i + asum hs' idx' | _, _ => 0 end.
Fixpoint rsum (gs : list (list R)) (p : list R) (hs : list (nat -> R)) : R :=
  match gs, p, hs with g :: gs', x :: p', h :: hs' => rop g x h + rsum gs' p' hs' | _, _, _ => 0 end.
Lemma asum_int gs p : good_axes gs -> forall hs, length p = length gs -> length hs = length gs -> is_RInt (fun t => asum hs (J gs p t)) 0 1 (rsum gs p hs).
Proof.
  intros H. revert p. induction H as [|g gs Hg H IH]; intros [|x p] [|h hs] Hp Hh; try discriminate; cbn [J map2 asum rsum].
  - eapply int_eq; [apply (is_RInt_const (V := R_NormedModule))|]. cbv [scal plus]; simpl. unfold mult; simpl. ring.
  - apply (is_RInt_plus (V := R_NormedModule) (fun t => h (jx g x t)) (fun t => asum hs (J gs p t))); [now apply jx_int|]. apply IH; simpl in *; lia.
Qed.
