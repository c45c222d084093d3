(** RegularGridNearest in binary64. *)
From Coq Require Import List Arith ZArith Reals Bool Lia Lra Psatz.
From Flocq Require Import Core.Core IEEE754.BinarySingleNaN. 
From Flocq Require Import Plus_error.
From Verif Require Import Outcome Num NumFun F64 StdAlgo S_Interp1d L_Search L_Interp1d M_Grid S_Grid L_Grid L_GridNearest
  L_F64 L_Linspace64 L_F64Err S_Angles S_Double S_Grid64 S_Near64 L_Series64 L_Interp64 L_Special64 L_Grid64.
Import ListNotations.
Local Open Scope R_scope.

(** ** The middle of a cell is rounded once *)
Lemma rnd_half_normal s : bpow radix2 (-1021) <= Rabs s -> rnd64 (s / 2) = rnd64 s / 2.
Proof.
  intros H. assert (N0 : s <> 0) by (intros ->; rewrite Rabs_R0 in H; assert (P := bpow_gt_0 radix2 (-1021)); lra).
  assert (E : s / 2 = s * bpow radix2 (-1)) by (change (bpow radix2 (-1)) with (/ 2); reflexivity).
  assert (MG : (-1020 <= mag radix2 s)%Z) by (apply mag_ge_bpow; exact H).
  unfold rnd64. rewrite E. unfold round, F2R, scaled_mantissa, cexp. cbn [Fnum Fexp]. rewrite (mag_mult_bpow radix2 s (-1) N0).
  set (e := mag_val _ _ (mag radix2 s)) in *.
  change fexp64 with (FLT_exp (-1074) 53). replace (FLT_exp (-1074) 53 (e + -1)) with (FLT_exp (-1074) 53 e + -1)%Z by (unfold FLT_exp; lia).
  replace (s * bpow radix2 (-1) * bpow radix2 (- (FLT_exp (-1074) 53 e + -1))) with (s * bpow radix2 (- FLT_exp (-1074) 53 e)).
  - rewrite bpow_plus. change (bpow radix2 (-1)) with (/ 2). field.
  - rewrite Rmult_assoc, <- bpow_plus. f_equal. f_equal. lia.
Qed.
Lemma rnd_middle a b : fmt64 a -> fmt64 b -> rnd64 (/ 2 * rnd64 (a + b)) = rnd64 ((a + b) / 2).
Proof.
  intros Fa Fb. destruct (Rle_or_lt (bpow radix2 (-1021)) (Rabs (a + b))) as [H|H].
  - rewrite (rnd_half_normal _ H). replace (/ 2 * rnd64 (a + b)) with (rnd64 (a + b) / 2) by field. rewrite <- (rnd_half_normal _ H). apply rnd64_id.
    apply generic_format_round; [apply FLT_exp_valid; reflexivity|apply valid_rnd_N].
  - rewrite (rnd64_id (a + b)); [f_equal; field|]. apply FLT_format_plus_small; try assumption; [reflexivity|]. apply Rlt_le. exact H.
Qed.
Lemma middle_ok (a b : f64) : is_finite a = true -> is_finite b = true -> 2 * Rabs (val a) <= fmax64 -> 2 * Rabs (val b) <= fmax64 ->
  is_finite (nlit 1 2 *! (b +! a)) = true /\ val (nlit 1 2 *! (b +! a)) = rnd64 ((val a + val b) / 2).
Proof.
  intros Fa Fb Ma Mb. destruct half64 as (Fh & Vh). assert (P9 := bpow_gt_0 radix2 969).
  assert (S : Rabs (val b + val a) <= fmax64) by (apply Rle_trans with (1 := Rabs_triang _ _); lra).
  destruct (plus_ok b a Fb Fa ltac:(lra)) as (Fs & Vs).
  assert (AS := abs_val_fmax (b +! a)). assert (A0 := Rabs_pos (val (b +! a))).
  destruct (mult_ok (nlit 1 2) (b +! a) Fh Fs) as (Fm & Vm).
  { rewrite Vh, Rabs_mult, (Rabs_pos_eq (/ 2)) by lra. lra. }
  split; [exact Fm|]. rewrite Vm, Vh, Vs. rewrite rnd_middle by apply fmt64_val. f_equal. field.
Qed.

Lemma nearest_in_cell g x i : increasing g -> (S i < length g)%nat -> nth i g 0 <= x < nth (S i) g 0 ->
  (middle g i <= x -> nearest_on g x (S i)) /\ (x < middle g i -> nearest_on g x i).
Proof.
  intros Hinc Hi Hx. unfold middle. set (a := nth i g 0) in *. set (b := nth (S i) g 0) in *. split; intros Hm.
  - split; [lia|]. intros j Hj. fold b. destruct (le_lt_dec j i) as [Hji|Hji].
    + pose proof (increasing_le g j i Hinc ltac:(lia)). fold a in H. split; [rabs; lra|lia].
    + pose proof (increasing_le g (S i) j Hinc ltac:(lia)). fold b in H. split; [rabs; lra|].
      destruct (Nat.eq_dec j (S i)) as [->|Hne']; [lia|].
      pose proof (Hinc (S i) j ltac:(lia)). fold b in H0. rabs; lra.
  - split; [lia|]. intros j Hj. fold a. destruct (le_lt_dec j i) as [Hji|Hji].
    + pose proof (increasing_le g j i Hinc ltac:(lia)). fold a in H. split; [rabs; lra|lia].
    + pose proof (increasing_le g (S i) j Hinc ltac:(lia)). fold b in H. split; rabs; lra.
Qed.

(** The branches of the search, for a finite query. *)
Lemma nearest_branches g x : all_finite g -> good_axis (dvalues g) -> is_finite x = true ->
  (val x < nth 0 (dvalues g) 0 /\ nearest_axis g x = Ok 0%nat) \/
  (nth (length g - 1) (dvalues g) 0 <= val x /\ nearest_axis g x = Ok (length g - 1)%nat) \/
  exists i, (S i < length g)%nat /\ nth i (dvalues g) 0 <= val x < nth (S i) (dvalues g) 0 /\
    nearest_axis g x = Ok (if nle (nlit 1 2 *! (nth (S i) g f0 +! nth i g f0)) x then S i else i).
Proof.
  intros F Hg Fx. assert (FC := find_cell_f g x F Fx). pose proof (good_axis_length _ Hg) as Hl. rewrite dvalues_length in Hl. destruct Hg as [Hinc Hne].
  destruct g as [|g0 g']; [simpl in Hl; lia|]. unfold nearest_axis. unfold find_cell in FC at 1. set (g := g0 :: g') in *.
  assert (F0 : is_finite g0 = true) by (inversion F; auto).
  assert (V0 : val g0 = nth 0 (dvalues g) 0) by reflexivity.
  assert (LF : last g g0 = nth (length g - 1) g f0) by (apply last_nth; discriminate).
  assert (FL : is_finite (nth (length g - 1) g f0) = true) by (apply finite_nth; exact F).
  rewrite LF. rewrite (nlt_val x g0) by auto. rewrite (nle_val _ x) by auto. rewrite <- nth_dvalues. rewrite V0.
  destruct (Rlt_dec (val x) (nth 0 (dvalues g) 0)) as [H0|H0].
  { left. rewrite (proj2 (Rltb_true _ _) H0). auto. }
  apply Rnot_lt_le in H0. rewrite (proj2 (Rltb_false _ _) H0).
  destruct (Rle_dec (nth (length g - 1) (dvalues g) 0) (val x)) as [H1|H1].
  { right. left. rewrite (proj2 (Rleb_true _ _) H1). auto. }
  apply Rnot_le_lt in H1. rewrite (proj2 (Rleb_false _ _) H1). right. right.
  assert (H2 : (2 <= length g)%nat).
  { destruct (le_lt_dec 2 (length g)); auto. replace (length g - 1)%nat with 0%nat in H1 by lia. lra. }
  destruct (cell_exists_ho (dvalues g) (val x)) as (i & Hi & Hx).
  { rewrite dvalues_length. exact H2. }
  { rewrite dvalues_length. split; assumption. }
  rewrite dvalues_length in Hi. exists i. split; [exact Hi|]. split; [exact Hx|].
  rewrite upper_bound_f by auto. rewrite (upper_bound_cell (dvalues g) (val x) i Hinc) by (rewrite ?dvalues_length; auto). rewrite Nat.add_1_r.
  rewrite (vidx_lt g (S i) f0) by lia. cbn [bind]. rewrite (vidx_lt g i f0) by lia. cbn [bind]. reflexivity.
Qed.

Lemma nearest_on_below g x : good_axis g -> x < nth 0 g 0 -> nearest_on g x 0.
Proof.
  intros Hg H0. pose proof (good_axis_length g Hg) as Hl. destruct Hg as [Hinc _]. split; [lia|].
  intros j Hj. pose proof (increasing_le g 0 j Hinc ltac:(lia)). split.
  - rabs; lra.
  - destruct (Nat.eq_dec j 0) as [->|Hj0]; [lia|]. pose proof (Hinc 0%nat j ltac:(lia)). rabs; lra.
Qed.
Lemma nearest_on_above g x : good_axis g -> nth (length g - 1) g 0 <= x -> nearest_on g x (length g - 1).
Proof.
  intros Hg H1. pose proof (good_axis_length g Hg) as Hl. destruct Hg as [Hinc _]. split; [lia|].
  intros j Hj. pose proof (increasing_le g j (length g - 1) Hinc ltac:(lia)). split; [rabs; lra|lia].
Qed.

Definition not_nan (x : f64) : Prop := is_nan x = false.

Lemma nearest_axis_f g x : good_axis64 g -> doubling_ok g -> not_nan x -> exists i, nearest_axis g x = Ok i /\ (i < length g)%nat /\ nearest64 g x i.
Proof.
  intros (F & Hg) HD Hx. pose proof (good_axis_length _ Hg) as Hl. rewrite dvalues_length in Hl.
  destruct (is_finite x) eqn:Fx.
  - assert (G : exists i, nearest_axis g x = Ok i /\ (i < length g)%nat /\ (nearest_on (dvalues g) (dvalue x) i \/
         exists j, i = S j /\ (S j < length g)%nat /\ nearest_on (dvalues g) (dvalue x) j /\
           dvalue x = dround (middle (dvalues g) j) /\ dvalue x < middle (dvalues g) j)).
    { destruct (nearest_branches g x F Hg Fx) as [(H0 & E)|[(H1 & E)|(i & Hi & Hc & E)]].
      - exists 0%nat. split; [exact E|]. split; [lia|]. left. apply nearest_on_below; assumption.
      - exists (length g - 1)%nat. split; [exact E|]. split; [lia|]. left. rewrite <- (dvalues_length g). apply nearest_on_above; [assumption|]. rewrite dvalues_length. exact H1.
      - assert (Fa : is_finite (nth i g f0) = true) by (apply finite_nth; exact F). assert (Fb : is_finite (nth (S i) g f0) = true) by (apply finite_nth; exact F).
        assert (Da : 2 * Rabs (val (nth i g f0)) <= fmax64) by (rewrite <- dmax_fmax; unfold doubling_ok in HD; rewrite Forall_forall in HD; apply HD, nth_In; lia).
        assert (Db : 2 * Rabs (val (nth (S i) g f0)) <= fmax64) by (rewrite <- dmax_fmax; unfold doubling_ok in HD; rewrite Forall_forall in HD; apply HD, nth_In; lia).
        destruct (middle_ok _ _ Fa Fb Da Db) as (Fm & Vm).
        assert (VM : val (nlit 1 2 *! (nth (S i) g f0 +! nth i g f0)) = rnd64 (middle (dvalues g) i)) by (rewrite Vm; unfold middle; rewrite !nth_dvalues; reflexivity).
        rewrite (nle_val _ x Fm Fx), VM in E. destruct Hg as [Hinc Hne].
        destruct (nearest_in_cell (dvalues g) (val x) i Hinc) as (N1 & N2); [rewrite dvalues_length; exact Hi|exact Hc|].
        assert (FX : rnd64 (val x) = val x) by (apply rnd64_id, fmt64_val).
        set (mid := middle (dvalues g) i) in *.
        destruct (Rle_dec (rnd64 mid) (val x)) as [L|L].
        + rewrite (proj2 (Rleb_true _ _) L) in E. exists (S i). split; [exact E|]. split; [exact Hi|].
          destruct (Rle_or_lt mid (val x)) as [K|K]; [left; apply N1, K|]. right. exists i. split; [reflexivity|]. split; [exact Hi|]. split; [apply N2, K|].
          split; [|exact K]. change (dround mid) with (rnd64 mid). change (dvalue x) with (val x). apply Rle_antisym; [|exact L]. apply Rle_trans with (rnd64 (val x)); [rewrite FX; apply Rle_refl|apply rnd64_le, Rlt_le, K].
        + apply Rnot_le_lt in L. rewrite (proj2 (Rleb_false _ _) L) in E. exists i. split; [exact E|]. split; [lia|]. left.
          apply N2. destruct (Rle_or_lt mid (val x)) as [K|K]; [|exact K]. apply rnd64_le in K. rewrite FX in K. lra. }
    destruct x; try discriminate; exact G.
  - destruct x as [s|s| |s m e Hb]; try discriminate. destruct g as [|a g]; [simpl in Hl; lia|]. unfold nearest_axis. destruct s.
    + rewrite nlt_ninf by (inversion F; auto). exists 0%nat. split; [reflexivity|]. split; [simpl; lia|reflexivity].
    + rewrite nlt_pinf, nle_pinf; [|rewrite (last_nth _ a f0) by discriminate; apply finite_nth; exact F]. exists (length (a :: g) - 1)%nat. split; [reflexivity|]. split; [simpl; lia|reflexivity].
Qed.

(** ** The N-dimensional node *)
Lemma rgn_add_coords_f {D} dim gs pre (a : ndarray D) :
  (length pre + length gs = dim)%nat ->
  foldM (fun o v => let (o', r) := rgn_add_coord dim o v in omap (fun _ => o') r)
    (mkRN (T := f64) pre a) gs = Ok (mkRN (pre ++ gs) a).
Proof.
  revert pre. induction gs as [|g gs IH]; intros pre Hl; simpl.
  - rewrite app_nil_r. reflexivity.
  - unfold rgn_add_coord. cbn [n_grids]. simpl in Hl.
    replace (length pre =? dim)%nat with false by (symmetry; apply Nat.eqb_neq; lia).
    simpl. rewrite IH.
    + rewrite <- app_assoc. reflexivity.
    + rewrite app_length. simpl. lia.
Qed.
Lemma rgn_make_f {D} gs (a : ndarray D) : rgn_make (T := f64) gs a = Ok (mkRN gs a).
Proof.
  unfold rgn_make, rgn_new. rewrite rgn_add_coords_f by auto. cbn [bind app].
  unfold rgn_add_var. cbn [n_grids]. rewrite Nat.eqb_refl. reflexivity.
Qed.

Lemma near_double_lemma : forall (D : Type) bm gs (a : ndarray D) p d,
  good_axes64 gs -> Forall doubling_ok gs -> nd_shape a = map (@length f64) gs -> length (nd_flat a) = count (nd_shape a) ->
  length p = length gs -> Forall (fun x : f64 => is_nan x = false) p ->
  exists o idx, rgn_make gs a = Ok o /\
    rgn_nearest bm o p = Ok (mkGN idx (coords64 gs idx) (nth (pos (nd_shape a) idx) (nd_flat a) d)) /\
    in_extents (nd_shape a) idx /\
    (forall k, (k < length gs)%nat -> nearest64 (nth k gs []) (nth k p B754_nan) (nth k idx 0%nat)).
Proof.
  intros D bm gs a p d Hg HD Hs Hl Hp Hn.
  assert (G : exists ic, mapM (fun gx => let* i := nearest_axis (fst gx) (snd gx) in
                             let* c := vidx (fst gx) i in Ok (i, c)) (combine gs p) = Ok ic /\
     map snd ic = coords64 gs (map fst ic) /\ in_extents (map (@length f64) gs) (map fst ic) /\
     (forall k, (k < length gs)%nat -> nearest64 (nth k gs []) (nth k p B754_nan) (nth k (map fst ic) 0%nat))).
  { clear - Hg HD Hp Hn. revert p Hp Hn HD. induction Hg as [|g gs Hg Hgs IH]; intros p Hp Hn HD; destruct p as [|x p]; try discriminate.
    - exists []. split; [reflexivity|]. split; [reflexivity|]. split; [constructor|]. simpl; lia.
    - inversion HD; inversion Hn; subst. destruct (nearest_axis_f g x) as (i & E & Hi & HN); auto.
      destruct (IH p) as (ic & E' & H1' & H2' & H3'); auto.
      exists ((i, nth i g B754_nan) :: ic). cbn [combine mapM fst snd]. rewrite E. cbn [bind].
      rewrite (vidx_lt g i B754_nan) by auto. cbn [bind]. rewrite E'. cbn [bind map fst snd].
      split; [reflexivity|]. split; [rewrite H1'; reflexivity|]. split; [constructor; auto|].
      intros [|k] Hk; simpl; [auto|]. apply H3'. simpl in Hk. lia. }
  destruct G as (ic & E & H1 & H2 & H3). rewrite Hs in *.
  exists (mkRN gs a), (map fst ic). split; [apply rgn_make_f|]. split; [|auto].
  unfold rgn_nearest. cbn [n_grids n_data]. rewrite E. cbn [bind].
  rewrite (ndget_ok bm a (map fst ic) d) by (rewrite Hs; auto). cbn [bind]. rewrite H1, Hs. reflexivity.
Qed.

(** How far the answer can be from the nearest node. *)
Lemma near_excess_lemma : forall g x i M, good_axis64 g -> is_finite x = true -> nearest64 g x i -> magnitude_le M g ->
  forall k, (k < length g)%nat ->
  Rabs (dvalue x - nth i (dvalues g) 0) <= Rabs (dvalue x - nth k (dvalues g) 0) + 2 * (uround * M + uflow).
Proof.
  intros g x i M Hg Fx HN HM k Hk.
  assert (HN' : nearest_on (dvalues g) (dvalue x) i \/
         exists j, i = S j /\ (S j < length g)%nat /\ nearest_on (dvalues g) (dvalue x) j /\
           dvalue x = dround (middle (dvalues g) j) /\ dvalue x < middle (dvalues g) j) by (destruct x; try discriminate; exact HN).
  clear HN. rewrite uflow_eta. change uround with u53.
  assert (PU : 0 < u53) by (unfold u53; lra). assert (PE : 0 < eta64) by (unfold eta64; assert (P := bpow_gt_0 radix2 (-1074)); lra).
  assert (B : forall m, (m < length g)%nat -> Rabs (nth m (dvalues g) 0) <= M).
  { intros m Hm. rewrite nth_dvalues. unfold magnitude_le in HM. rewrite Forall_forall in HM. apply HM, nth_In, Hm. }
  assert (M0 : 0 <= M) by (assert (H := B k Hk); assert (H' := Rabs_pos (nth k (dvalues g) 0)); lra).
  assert (PM : 0 <= u53 * M) by (apply Rmult_le_pos; lra).
  destruct HN' as [(H & HB)|(j & -> & Hj & (H & HB) & E & L)].
  - destruct (HB k) as (C & _); [rewrite dvalues_length; exact Hk|]. lra.
  - destruct (HB k) as (C & _); [rewrite dvalues_length; exact Hk|].
    assert (Bm : Rabs (middle (dvalues g) j) <= M).
    { unfold middle. assert (H1 := B j ltac:(lia)). assert (H2 := B (S j) Hj). revert H1 H2. rabs; lra. }
    assert (RE := L_F64Err.rnd_err (middle (dvalues g) j)). change (rnd64 (middle (dvalues g) j)) with (dround (middle (dvalues g) j)) in RE. rewrite <- E in RE.
    assert (u53 * Rabs (middle (dvalues g) j) <= u53 * M) by (apply Rmult_le_compat_l; lra).
    assert (T : Rabs (dvalue x - nth (S j) (dvalues g) 0) <= Rabs (dvalue x - nth j (dvalues g) 0) + 2 * (middle (dvalues g) j - dvalue x)).
    { unfold middle. destruct Hg as (_ & Hinc & _). assert (I := Hinc j (S j) ltac:(rewrite dvalues_length; lia)).
      unfold middle in L. rabs; lra. }
    rewrite Rabs_left in RE by lra. lra.
Qed.

(** ** A NaN coordinate reads past the axis *)
Lemma nearest_axis_nan g : g <> [] -> nearest_axis g (B754_nan : f64) = UB.
Proof.
  intros H. destruct g as [|a g]; [congruence|]. unfold nearest_axis.
  change (nlt (B754_nan : f64) a) with false. rewrite nle_nan_r. cbv iota.
  unfold upper_bound. rewrite (bsearch_ext _ (fun _ => true)).
  - rewrite bsearch_true. cbn [length]. unfold vidx. rewrite (proj2 (nth_error_None (a :: g) (length g + 1))); [reflexivity|]. simpl. lia.
  - intros i _. rewrite nlt_nan_l. reflexivity.
Qed.
Lemma nearest_axis_some g x : good_axis64 g -> is_nan x = false -> exists i, nearest_axis g x = Ok i /\ (i < length g)%nat.
Proof.
  intros (F & Hg) Hx. pose proof (good_axis_length _ Hg) as Hl. rewrite dvalues_length in Hl.
  destruct (is_finite x) eqn:Fx.
  - destruct (nearest_branches g x F Hg Fx) as [(H0 & E)|[(H1 & E)|(i & Hi & Hc & E)]]; rewrite E.
    + eexists. split; [reflexivity|lia].
    + eexists. split; [reflexivity|lia].
    + eexists. split; [reflexivity|]. destruct (nle _ _); lia.
  - destruct x as [s|s| |s m e Hb]; try discriminate. destruct g as [|a g]; [simpl in Hl; lia|]. unfold nearest_axis. destruct s.
    + rewrite nlt_ninf by (inversion F; auto). exists 0%nat. split; [reflexivity|simpl; lia].
    + rewrite nlt_pinf, nle_pinf; [|rewrite (last_nth _ a f0) by discriminate; apply finite_nth; exact F]. exists (length (a :: g) - 1)%nat. split; [reflexivity|simpl; lia].
Qed.
Lemma near_nan_lemma : forall (D : Type) bm gs (a : ndarray D) p,
  good_axes64 gs -> nd_shape a = map (@length f64) gs -> length (nd_flat a) = count (nd_shape a) -> length p = length gs ->
  exists o, rgn_make gs a = Ok o /\ (rgn_nearest bm o p = UB <-> Exists (fun x : f64 => is_nan x = true) p).
Proof.
  intros D bm gs a p Hg Hs Hl Hp. exists (mkRN gs a). split; [apply rgn_make_f|]. split.
  - intros HU. destruct (Exists_dec (fun x : f64 => is_nan x = true) p) as [|N]; [intros x; destruct (is_nan x); [left|right]; congruence|assumption|].
    exfalso. apply Forall_Exists_neg in N.
    assert (G : exists ic, mapM (fun gx => let* i := nearest_axis (fst gx) (snd gx) in
                             let* c := vidx (fst gx) i in Ok (i, c)) (combine gs p) = Ok ic /\ in_extents (map (@length f64) gs) (map fst ic)).
    { clear - Hg Hp N. revert p Hp N. induction Hg as [|g gs Hg Hgs IH]; intros p Hp N; destruct p as [|x p]; try discriminate.
      - exists []. split; [reflexivity|constructor].
      - inversion N; subst. destruct (nearest_axis_some g x Hg) as (i & E & Hi); [destruct (is_nan x); congruence|].
        destruct (IH p) as (ic & E' & HI); auto. exists ((i, nth i g B754_nan) :: ic). cbn [combine mapM fst snd]. rewrite E. cbn [bind].
        rewrite (vidx_lt g i B754_nan) by auto. cbn [bind]. rewrite E'. split; [reflexivity|]. constructor; auto. }
    destruct G as (ic & E & HI). unfold rgn_nearest in HU. cbn [n_grids n_data] in HU. rewrite E in HU. cbn [bind] in HU.
    assert (HI' : in_extents (nd_shape a) (map fst ic)) by (rewrite Hs; exact HI).
    destruct (nd_flat a) as [|d0 l] eqn:EF.
    + rewrite Hs in Hl. pose proof (count_pos gs Hg). simpl in Hl. lia.
    + rewrite (ndget_ok bm a (map fst ic) d0) in HU; [discriminate|exact HI'|rewrite EF; exact Hl].
  - intros HE. unfold rgn_nearest. cbn [n_grids n_data].
    assert (G : mapM (fun gx => let* i := nearest_axis (fst gx) (snd gx) in
                             let* c := vidx (fst gx) i in Ok (i, c)) (combine gs p) = UB).
    { clear - Hg Hp HE. revert p Hp HE. induction Hg as [|g gs Hg Hgs IH]; intros p Hp HE; destruct p as [|x p]; try discriminate.
      - inversion HE.
      - cbn [combine mapM fst snd]. destruct (is_nan x) eqn:NX.
        + destruct x; try discriminate. rewrite nearest_axis_nan; [reflexivity|]. destruct Hg as (_ & _ & Hne). apply dvalues_ne, Hne.
        + inversion HE; subst; [congruence|]. destruct (nearest_axis_some g x Hg NX) as (i & E & Hi). rewrite E. cbn [bind].
          rewrite (vidx_lt g i B754_nan) by auto. cbn [bind]. rewrite IH; auto. }
    rewrite G. reflexivity.
Qed.

(** ** GetSurroundingGridNodes *)

(** A query with infinities and NaN replaced by the last node of the axis. *)
Definition to_last (g : list f64) (x : f64) : f64 := if is_finite x then x else last g x.

Lemma around_axis_f g x : good_axis64 g -> small (dvalues g) ->
  exists c, around_axis g x = Ok c /\ forall v, axis_around (dvalues g) (val (to_last g x)) v (around_index g c v).
Proof.
  intros (F & Hg) Hsm. pose proof (good_axis_length _ Hg) as Hl. rewrite dvalues_length in Hl.
  assert (LAST : forall c, (Z.of_nat (length g) - 1 <= c)%Z -> is_finite x = false -> forall v, axis_around (dvalues g) (val (to_last g x)) v (around_index g c v)).
  { intros c Hc Fx v. left. rewrite dvalues_length. unfold to_last. rewrite Fx. split.
    - right. rewrite (last_nth g x f0) by (intros ->; simpl in Hl; lia). rewrite nth_dvalues. apply Rle_refl.
    - unfold around_index. rewrite (proj2 (Z.ltb_ge _ _)) by lia. rewrite (proj2 (Z.leb_le _ _) Hc). reflexivity. }
  unfold small in Hsm. rewrite dvalues_length in Hsm.
  destruct (is_finite x) eqn:Fx.
  - destruct (around_axis_cases (dvalues g) (val x) Hg) as (c & E & Hc); [unfold small; rewrite dvalues_length; exact Hsm|].
    exists c. split.
    + rewrite <- E. destruct g as [|g0 g']; [simpl in Hl; lia|]. unfold around_axis. change (dvalues (g0 :: g')) with (val g0 :: dvalues g') at 1. cbv iota.
      rewrite (nlt_val x g0) by (auto; inversion F; auto). change (Num.nlt (val x) (val g0)) with (Rltb (val x) (val g0)).
      destruct (Rltb (val x) (val g0)); [reflexivity|].
      rewrite (last_nth (g0 :: g') g0 f0) by discriminate. rewrite (nle_val _ x) by (auto; apply finite_nth; exact F).
      rewrite (last_nth (dvalues (g0 :: g')) (val g0) 0) by discriminate. rewrite dvalues_length, nth_dvalues.
      change (Num.nle (val (nth (length (g0 :: g') - 1) (g0 :: g') f0)) (val x)) with (Rleb (val (nth (length (g0 :: g') - 1) (g0 :: g') f0)) (val x)).
      destruct (Rleb _ _); [reflexivity|]. rewrite upper_bound_f by auto. reflexivity.
    + intros v. unfold to_last. rewrite Fx. assert (EI : around_index g c v = around_index (dvalues g) c v) by (unfold around_index; rewrite dvalues_length; reflexivity).
      rewrite EI. destruct Hc as [[Hx Hi]|(i & Hi & Hx & Hv')]; [left|right].
      * split; auto.
      * exists i. split; [exact Hi|]. split; [exact Hx|auto].
  - destruct g as [|g0 g']; [simpl in Hl; lia|]. destruct x as [s|s| |s m e Hb]; try discriminate.
    + unfold around_axis. destruct s.
      * rewrite nlt_ninf by (inversion F; auto). eexists. split; [reflexivity|]. apply LAST; [lia|reflexivity].
      * rewrite nlt_pinf, nle_pinf; [|rewrite (last_nth _ g0 f0) by discriminate; apply finite_nth; exact F]. eexists. split; [reflexivity|]. apply LAST; [lia|reflexivity].
    + unfold around_axis. change (nlt (B754_nan : f64) g0) with false. rewrite nle_nan_r. cbv iota.
      unfold upper_bound. rewrite (bsearch_ext _ (fun _ => true)).
      * rewrite bsearch_true. eexists. split; [reflexivity|]. apply LAST; [rewrite Z.mod_small; lia|reflexivity].
      * intros i _. rewrite nlt_nan_l. reflexivity.
Qed.

Lemma around_mapM_f gs p : good_axes64 gs -> Forall small (map dvalues gs) -> length p = length gs ->
  exists cs, mapM (fun gx => around_axis (fst gx) (snd gx)) (combine gs p) = Ok cs /\
    forall vs, length vs = length gs -> around_spec (map dvalues gs) (dvalues (map2 to_last gs p)) vs (around_indices gs cs vs).
Proof.
  intros Hg. revert p. induction Hg as [|g gs Hg Hgs IH]; intros p Hs Hp; destruct p as [|x p]; try discriminate.
  - exists []. split; [reflexivity|]. intros [|v vs] Hv; try discriminate. constructor.
  - inversion Hs; subst. destruct (around_axis_f g x Hg H1) as (c & E & Hc).
    destruct (IH p) as (cs & E' & Hcs); [assumption|simpl in Hp; lia|].
    exists (c :: cs). cbn [combine mapM fst snd]. rewrite E. cbn [bind]. rewrite E'. split; [reflexivity|].
    intros [|v vs] Hv; try discriminate. cbn [around_indices]. constructor; [apply Hc|]. apply Hcs. simpl in Hv; lia.
Qed.
Lemma coords_mapM_f gs idx : in_extents (map (@length f64) gs) idx ->
  mapM (fun gi => vidx (fst gi) (snd gi)) (combine gs idx) = Ok (coords64 gs idx).
Proof.
  revert idx. induction gs as [|g gs IH]; intros idx H; simpl in H; inversion H; subst; [reflexivity|].
  cbn [combine mapM fst snd coords64 map2]. rewrite (vidx_lt g y B754_nan) by auto. cbn [bind].
  rewrite IH by auto. reflexivity.
Qed.

Lemma around_general_f : forall (D : Type) bm gs (a : ndarray D) p d,
  good_axes64 gs -> Forall small (map dvalues gs) -> nd_shape a = map (@length f64) gs ->
  length (nd_flat a) = count (nd_shape a) -> length p = length gs ->
  exists o idx, rgn_make gs a = Ok o /\
    rgn_around bm o p =
      Ok (map (fun v => mkGN (idx v) (coords64 gs (idx v)) (nth (pos (nd_shape a) (idx v)) (nd_flat a) d))
              (corners (length gs))) /\
    forall v, In v (corners (length gs)) -> around_spec (map dvalues gs) (dvalues (map2 to_last gs p)) v (idx v).
Proof.
  intros D bm gs a p d Hg Hsm Hs Hl Hp. rewrite Hs in *.
  destruct (around_mapM_f gs p Hg Hsm Hp) as (cs & E & Hcs).
  exists (mkRN gs a), (around_indices gs cs). split; [apply rgn_make_f|]. split.
  - unfold rgn_around. cbn [n_grids]. rewrite E. cbn [bind].
    rewrite <- vbits_corners, map_map. apply mapM_ok_map. intros v Hv.
    assert (Hin : In (vbits (length gs) v) (corners (length gs))).
    { rewrite <- vbits_corners. apply in_map. auto. }
    apply corners_in in Hin as [HL HB].
    pose proof (around_spec_extents _ _ _ _ (good_axes_dvalues gs Hg) HB (Hcs _ HL)) as HE. rewrite lengths_dvalues in HE.
    unfold rgn_node. cbn [n_grids n_data]. rewrite coords_mapM_f by auto. cbn [bind].
    rewrite (ndget_ok bm a _ d) by (rewrite Hs; auto). cbn [bind]. rewrite Hs. reflexivity.
  - intros v Hv. apply Hcs. apply corners_in in Hv. apply Hv.
Qed.

Lemma to_last_finite gs p : all_finite p -> length p = length gs -> map2 to_last gs p = p.
Proof.
  intros F. revert gs. induction F as [|x p Fx F IH]; intros [|g gs] H; try discriminate; [reflexivity|].
  cbn [map2]. rewrite IH by (simpl in H; lia). unfold to_last. rewrite Fx. reflexivity.
Qed.
Lemma around_inside_f : forall (D : Type) bm gs (a : ndarray D) cell p d,
  good_axes64 gs -> Forall small (map dvalues gs) -> nd_shape a = map (@length f64) gs ->
  length (nd_flat a) = count (nd_shape a) -> all_finite p -> in_cell_ho (map dvalues gs) cell (dvalues p) ->
  exists o, rgn_make gs a = Ok o /\
    rgn_around bm o p =
      Ok (map (fun v => let idx := map2 Nat.add cell v in
                        mkGN idx (coords64 gs idx) (nth (pos (nd_shape a) idx) (nd_flat a) d))
              (corners (length gs))).
Proof.
  intros D bm gs a cell p d Hg Hsm Hs Hl Fp Hc.
  assert (Hp : length p = length gs) by (apply in_cell_ho_length in Hc; rewrite dvalues_length, map_length in Hc; exact Hc).
  destruct (around_general_f D bm gs a p d Hg Hsm Hs Hl Hp) as (o & idx & E1 & E2 & E3).
  exists o. split; [auto|]. rewrite E2. f_equal. apply map_ext_in. intros v Hv. specialize (E3 v Hv). rewrite (to_last_finite gs p Fp Hp) in E3.
  rewrite (around_spec_cell (map dvalues gs) cell (dvalues p) v (idx v) (good_axes_dvalues gs Hg) Hc E3). reflexivity.
Qed.

(** Off the axis, on its last node, infinite or NaN. *)
Lemma around_outside_f : forall (D : Type) bm gs (a : ndarray D) p k,
  good_axes64 gs -> Forall small (map dvalues gs) -> nd_shape a = map (@length f64) gs ->
  length (nd_flat a) = count (nd_shape a) -> length p = length gs -> (k < length gs)%nat ->
  let g := nth k gs [] in let x := nth k p B754_nan in
  is_finite x = false \/ dvalue x < nth 0 (dvalues g) 0 \/ nth (length g - 1) (dvalues g) 0 <= dvalue x ->
  exists o nodes, rgn_make gs a = Ok o /\ rgn_around bm o p = Ok nodes /\
    length nodes = (2 ^ length gs)%nat /\
    forall n, In n nodes -> nth k (gn_indices n) 0%nat = (length g - 1)%nat /\
      nth k (gn_coords n) B754_nan = nth (length g - 1) g B754_nan.
Proof.
  intros D bm gs a p k Hg Hsm Hs Hl Hp Hk g x Ho.
  destruct (nd_flat a) as [|d l] eqn:EF; [rewrite Hs in Hl; pose proof (count_pos gs Hg); simpl in Hl; lia|].
  rewrite <- EF in Hl.
  destruct (around_general_f D bm gs a p d Hg Hsm Hs Hl Hp) as (o & idx & E1 & E2 & E3).
  exists o. eexists. split; [exact E1|]. split; [exact E2|]. split; [rewrite map_length, corners_length; reflexivity|].
  intros n Hn. apply in_map_iff in Hn as (v & <- & Hv). cbn [gn_indices gn_coords].
  assert (Hgk : good_axis64 g) by (unfold good_axes64 in Hg; rewrite Forall_forall in Hg; apply Hg, nth_In, Hk).
  pose proof (around_spec_nth _ _ v (idx v) k (E3 v Hv) ltac:(rewrite map_length; exact Hk)) as HA.
  assert (N1 : nth k (map dvalues gs) [] = dvalues g) by (change (@nil R) with (dvalues []); apply map_nth).
  assert (N2 : nth k (dvalues (map2 to_last gs p)) 0 = val (to_last g x)).
  { unfold g, x. clear - Hp Hk. revert p k Hp Hk. induction gs as [|g gs IH]; intros [|y p] k Hp Hk; simpl in Hp, Hk; try lia.
    destruct k as [|k]; [reflexivity|]. cbn [map2 nth]. change (dvalues (to_last g y :: map2 to_last gs p)) with (val (to_last g y) :: dvalues (map2 to_last gs p)). cbn [nth]. apply IH; lia. }
  rewrite N1, N2 in HA.
  assert (EI : nth k (idx v) 0%nat = (length g - 1)%nat).
  { destruct HA as [[_ HA]|(c & Hc & Hx & _)]; [rewrite dvalues_length in HA; exact HA|]. exfalso.
    destruct Hgk as (F & Hinc & Hne). rewrite dvalues_length in Hc.
    pose proof (increasing_le (dvalues g) 0 c Hinc ltac:(rewrite dvalues_length; lia)) as I0.
    pose proof (increasing_le (dvalues g) (S c) (length g - 1) Hinc ltac:(rewrite dvalues_length; lia)) as I1.
    unfold to_last in Hx. destruct (is_finite x) eqn:Fx.
    - destruct Ho as [|[Ho|Ho]]; [discriminate| |]; unfold dvalue in Ho; lra.
    - rewrite (last_nth g x f0) in Hx by (apply dvalues_ne; exact Hne). rewrite <- nth_dvalues in Hx. lra. }
  split; [exact EI|]. pose proof (corners_in _ _ Hv) as [HL HB].
  pose proof (around_spec_extents _ _ v (idx v) (good_axes_dvalues gs Hg) HB (E3 v Hv)) as HE. rewrite lengths_dvalues in HE.
  assert (G : forall gs idx k, in_extents (map (@length f64) gs) idx -> (k < length gs)%nat ->
      nth k (coords64 gs idx) B754_nan = nth (nth k idx 0%nat) (nth k gs []) B754_nan).
  { clear. induction gs as [|g gs IH]; intros idx k H Hk; simpl in H, Hk; [lia|]. inversion H; subst.
    destruct k; [reflexivity|]. apply IH; auto. lia. }
  rewrite G by auto. rewrite EI. reflexivity.
Qed.

(** ** Witnesses *)
Definition nof {D} (r : outcome (grid_node f64 D)) (d : D) : grid_node f64 D := match r with Ok n => n | _ => mkGN [] [] d end.
Lemma nof_ok {D} (r : outcome (grid_node f64 D)) d : (match r with Ok _ => true | _ => false end) = true -> r = Ok (nof r d).
Proof. destruct r; try discriminate. reflexivity. Qed.

Lemma node_refuted_pf : exists (gs : list (list f64)) (a : ndarray nat) p o n,
  good_axes64 gs /\ Forall doubling_ok gs /\ nd_shape a = map (@length f64) gs /\ length (nd_flat a) = count (nd_shape a) /\
  p = coords64 gs [0%nat] /\ rgn_make gs a = Ok o /\ rgn_nearest Release o p = Ok n /\ gn_indices n = [1%nat] /\ gn_val n <> nth 0 (nd_flat a) 0%nat.
Proof.
  set (a := mkND [2%nat] [10%nat; 20%nat]).
  set (x0 := f64_ofZ (2 ^ 53)). set (x1 := f64_ofZ (2 ^ 53 + 2)).
  set (gs := [[x0; x1]]).
  assert (E0 : B2SF x0 = SpecFloat.S754_finite false 4503599627370496 1) by (vm_compute; reflexivity).
  assert (E1 : B2SF x1 = SpecFloat.S754_finite false 4503599627370497 1) by (vm_compute; reflexivity).
  assert (V0 : val x0 = 9007199254740992) by (rewrite (val_SF _ _ E0); unfold SF2R, F2R, Fnum, Fexp, cond_Zopp; change (bpow radix2 1) with 2; lra).
  assert (V1 : val x1 = 9007199254740994) by (rewrite (val_SF _ _ E1); unfold SF2R, F2R, Fnum, Fexp, cond_Zopp; change (bpow radix2 1) with 2; lra).
  assert (BM : 36028797018963968 <= dmax).
  { rewrite dmax_fmax. assert (B := bpow_le radix2 55 1000 ltac:(lia)). assert (B1 := big64). change (bpow radix2 55) with 36028797018963968 in B. lra. }
  exists gs, a, [x0], (mkRN gs a), (nof (rgn_nearest Release (mkRN gs a) [x0]) 0%nat).
  split; [apply good2; [vm_compute; reflexivity|vm_compute; reflexivity|lra]|].
  split. { constructor; [|constructor]. constructor; [change (2 * Rabs (val x0) <= dmax); rewrite V0, Rabs_pos_eq; lra|]. constructor; [change (2 * Rabs (val x1) <= dmax); rewrite V1, Rabs_pos_eq; lra|constructor]. }
  split; [reflexivity|]. split; [reflexivity|]. split; [reflexivity|]. split; [apply rgn_make_f|].
  split; [apply nof_ok; vm_compute; reflexivity|]. split; [vm_compute; reflexivity|]. vm_compute. discriminate.
Qed.

Lemma overflow_refuted_pf : exists (gs : list (list f64)) (a : ndarray nat) x o n,
  good_axes64 gs /\ nd_shape a = map (@length f64) gs /\ length (nd_flat a) = count (nd_shape a) /\ is_finite x = true /\
  rgn_make gs a = Ok o /\ rgn_nearest Release o [x] = Ok n /\ gn_indices n = [0%nat] /\
  Rabs (dvalue x - nth 1 (dvalues (nth 0 gs [])) 0) * 1000000 < Rabs (dvalue x - nth 0 (dvalues (nth 0 gs [])) 0).
Proof.
  set (a := mkND [2%nat] [10%nat; 20%nat]).
  set (x0 := f64_ofZ (2 ^ 1023)). set (x1 := f64_ofZ (3 * 2 ^ 1022)). set (x := f64_ofZ (3 * 2 ^ 1022 - 2 ^ 971)).
  set (gs := [[x0; x1]]).
  assert (E0 : B2SF x0 = SpecFloat.S754_finite false 4503599627370496 971) by (vm_compute; reflexivity).
  assert (E1 : B2SF x1 = SpecFloat.S754_finite false 6755399441055744 971) by (vm_compute; reflexivity).
  assert (E : B2SF x = SpecFloat.S754_finite false 6755399441055743 971) by (vm_compute; reflexivity).
  assert (V0 : val x0 = 4503599627370496 * bpow radix2 971) by (rewrite (val_SF _ _ E0); reflexivity).
  assert (V1 : val x1 = 6755399441055744 * bpow radix2 971) by (rewrite (val_SF _ _ E1); reflexivity).
  assert (V : val x = 6755399441055743 * bpow radix2 971) by (rewrite (val_SF _ _ E); reflexivity).
  assert (P := bpow_gt_0 radix2 971).
  exists gs, a, x, (mkRN gs a), (nof (rgn_nearest Release (mkRN gs a) [x]) 0%nat).
  split; [apply good2; [vm_compute; reflexivity|vm_compute; reflexivity|lra]|].
  split; [reflexivity|]. split; [reflexivity|]. split; [vm_compute; reflexivity|]. split; [apply rgn_make_f|].
  split; [apply nof_ok; vm_compute; reflexivity|]. split; [vm_compute; reflexivity|].
  change (nth 1 (dvalues (nth 0 gs [])) 0) with (val x1). change (nth 0 (dvalues (nth 0 gs [])) 0) with (val x0). unfold dvalue. rewrite V, V0, V1.
  set (q := bpow radix2 971) in *. rewrite Rabs_left, Rabs_pos_eq; lra.
Qed.
