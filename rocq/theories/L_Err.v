(** Accuracy of linear interpolation of sampled functions. *)
From Coq Require Import List Arith ZArith Reals Lra Lia Bool.
From Verif Require Import Outcome Num StdAlgo M_Interp1d S_Interp1d M_Interp2d S_Interp2d M_Grid S_Grid S_Integ S_Series
  L_Search L_Series L_Interp1d L_Grid L_GridNearest L_GridLow L_Rem S_Err.
Import ListNotations.
Local Open Scope R_scope.

Definition blend1 (a b x ya yb : R) : R := (b - x) / (b - a) * ya + (x - a) / (b - a) * yb.

Lemma chord_curved f f1 f2 a b M x : a < b -> a <= x <= b -> twice_derivable f f1 f2 a b M ->
  Rabs (blend1 a b x (f a) (f b) - f x) <= M * (b - a) ^ 2 / 8.
Proof.
  intros Hab Hx (D1 & D2 & DM).
  set (p := fun k : nat => match k with O => (f a * b - f b * a) / (b - a) | _ => (f b - f a) / (b - a) end).
  set (q := fun k : nat => match k with O => a * b | 1%nat => - (a + b) | _ => 1 end).
  set (D := fun j : nat => match j with O => f | 1%nat => f1 | _ => f2 end).
  destruct (remainder (fun t => a <= t <= b) 2 D p q [a; b] x) as (c & Hc & E).
  - intros u v w Hu Hw Hv. lra.
  - intros [|[|j]] t Hj Ht; [apply D1; exact Ht|apply D2; exact Ht|lia].
  - constructor; [intros [H|[]]; lra|]. constructor; [intros []|constructor].
  - reflexivity.
  - intros z [<-|[<-|[]]]; unfold pvf, p, q, D; cbn [bsum]; (split; [lra|]); split; try (field; lra); ring.
  - unfold q. lra.
  - exact Hx.
  - assert (E' : f x - blend1 a b x (f a) (f b) = f2 c * ((x - a) * (x - b)) / 2).
    { replace (blend1 a b x (f a) (f b)) with (pvf 2 p x) by (unfold pvf, p, blend1; cbn [bsum]; field; lra).
      replace (pvf 3 q x) with ((x - a) * (x - b)) in E by (unfold pvf, q; cbn [bsum]; ring).
      change (D 0%nat x) with (f x) in E. change (D 2%nat c) with (f2 c) in E. change (q 2%nat) with 1 in E.
      change (INR (fact 2)) with 2 in E. lra. }
    rewrite Rabs_minus_sym, E'. unfold Rdiv. rewrite Rabs_mult, (Rabs_pos_eq (/ 2)) by lra. rewrite Rabs_mult.
    rewrite (Rabs_left1 ((x - a) * (x - b))) by nra.
    assert (Q : - ((x - a) * (x - b)) <= (b - a) ^ 2 / 4) by (assert (0 <= (2 * x - a - b) ^ 2) by apply pow2_ge_0; nra).
    assert (Q0 : 0 <= - ((x - a) * (x - b))) by nra.
    pose proof (DM c Hc). pose proof (Rabs_pos (f2 c)).
    assert (Rabs (f2 c) * - ((x - a) * (x - b)) <= M * ((b - a) ^ 2 / 4)) by (apply Rmult_le_compat; assumption). lra.
Qed.

Lemma chord_sloped f a b K x : a < b -> a <= x <= b -> lipschitz f a b K ->
  Rabs (blend1 a b x (f a) (f b) - f x) <= K * (b - a) / 2.
Proof.
  intros Hab Hx L. set (t := (x - a) / (b - a)).
  assert (Ht : x = a + t * (b - a)) by (unfold t; field; lra).
  replace (blend1 a b x (f a) (f b) - f x) with ((1 - t) * (f a - f x) + t * (f b - f x)) by (unfold blend1, t; field; lra).
  clearbody t.
  assert (T : 0 <= t <= 1) by (split; apply Rmult_le_reg_r with (b - a); lra).
  apply Rle_trans with (1 := Rabs_triang _ _). rewrite !Rabs_mult, (Rabs_pos_eq t), (Rabs_pos_eq (1 - t)) by lra.
  pose proof (L a x ltac:(lra) ltac:(lra)) as A. pose proof (L b x ltac:(lra) ltac:(lra)) as B.
  rewrite (Rabs_left1 (a - x)) in A by lra. rewrite (Rabs_pos_eq (b - x)) in B by lra.
  assert (A2 : Rabs (f a - f x) <= K * (t * (b - a))) by (replace (t * (b - a)) with (- (a - x)) by lra; exact A).
  assert (B2 : Rabs (f b - f x) <= K * ((1 - t) * (b - a))) by (replace ((1 - t) * (b - a)) with (b - x) by lra; exact B).
  assert (K0 : 0 <= K * (b - a)).
  { pose proof (L a b ltac:(lra) ltac:(lra)) as C. rewrite (Rabs_left1 (a - b)) in C by lra. pose proof (Rabs_pos (f a - f b)). lra. }
  assert ((1 - t) * Rabs (f a - f x) <= (1 - t) * (K * (t * (b - a)))) by (apply Rmult_le_compat_l; lra).
  assert (t * Rabs (f b - f x) <= t * (K * ((1 - t) * (b - a)))) by (apply Rmult_le_compat_l; lra).
  assert (4 * (t * (1 - t)) <= 1) by (assert (0 <= (2 * t - 1) ^ 2) by apply pow2_ge_0; nra).
  nra.
Qed.

Lemma twice_sub f f1 f2 a b a' b' M : a <= a' -> b' <= b -> twice_derivable f f1 f2 a b M -> twice_derivable f f1 f2 a' b' M.
Proof. intros A B (H1 & H2 & H3). repeat split; intros x Hx; [apply H1|apply H2|apply H3]; lra. Qed.
Lemma lip_sub f a b a' b' M : a <= a' -> b' <= b -> lipschitz f a b M -> lipschitz f a' b' M.
Proof. intros A B H x y Hx Hy. apply H; lra. Qed.
Lemma twice_nonneg f f1 f2 a b M : a <= b -> twice_derivable f f1 f2 a b M -> 0 <= M.
Proof. intros H (_ & _ & H3). apply Rle_trans with (2 := H3 a ltac:(lra)). apply Rabs_pos. Qed.
Lemma lip_nonneg f a b K : a < b -> lipschitz f a b K -> 0 <= K.
Proof.
  intros H L. pose proof (L b a ltac:(lra) ltac:(lra)) as A. rewrite (Rabs_pos_eq (b - a)) in A by lra.
  pose proof (Rabs_pos (f b - f a)). apply Rmult_le_reg_r with (b - a); lra.
Qed.

(** One cell of an axis. *)
Lemma cell_curved f g M h i x : increasing g -> curved f g M -> spacing h g -> (S i < length g)%nat ->
  nth i g 0 <= x <= nth (S i) g 0 -> Rabs (blend1 (nth i g 0) (nth (S i) g 0) x (f (nth i g 0)) (f (nth (S i) g 0)) - f x) <= M * h ^ 2 / 8.
Proof.
  intros Hg (f1 & f2 & D) Hh Hi Hx.
  pose proof (increasing_le g 0 i Hg ltac:(lia)). pose proof (increasing_le g (S i) (length g - 1) Hg ltac:(lia)).
  pose proof (Hg i (S i) ltac:(lia)). pose proof (Hh i Hi).
  apply (twice_sub _ _ _ _ _ (nth i g 0) (nth (S i) g 0)) in D; [|exact H|exact H0].
  apply Rle_trans with (1 := chord_curved f f1 f2 _ _ M x H1 Hx D).
  pose proof (twice_nonneg _ _ _ _ _ _ (Rlt_le _ _ H1) D).
  assert ((nth (S i) g 0 - nth i g 0) ^ 2 <= h ^ 2) by (apply pow_incr; lra). nra.
Qed.
Lemma cell_sloped f g K h i x : increasing g -> sloped f g K -> spacing h g -> (S i < length g)%nat ->
  nth i g 0 <= x <= nth (S i) g 0 -> Rabs (blend1 (nth i g 0) (nth (S i) g 0) x (f (nth i g 0)) (f (nth (S i) g 0)) - f x) <= K * h / 2.
Proof.
  intros Hg D Hh Hi Hx. unfold sloped in D.
  pose proof (increasing_le g 0 i Hg ltac:(lia)). pose proof (increasing_le g (S i) (length g - 1) Hg ltac:(lia)).
  pose proof (Hg i (S i) ltac:(lia)). pose proof (Hh i Hi).
  apply (lip_sub _ _ _ (nth i g 0) (nth (S i) g 0)) in D; [|exact H|exact H0].
  apply Rle_trans with (1 := chord_sloped f _ _ K x H1 Hx D).
  pose proof (lip_nonneg _ _ _ _ H1 D). nra.
Qed.

(** *** One variable *)
Lemma map_nth0 (f : R -> R) xs i : (i < length xs)%nat -> nth i (map f xs) 0 = f (nth i xs 0).
Proof. intros H. rewrite (nth_indep (map f xs) 0 (f 0)) by (rewrite map_length; exact H). apply map_nth. Qed.
Lemma on_line_blend a b x ya yb v : a < b -> on_line a ya b yb x v -> v = blend1 a b x ya yb.
Proof. unfold on_line, blend1. intros H E. apply Rmult_eq_reg_r with (b - a); [|lra]. replace (((b - x) / (b - a) * ya + (x - a) / (b - a) * yb) * (b - a)) with ((b - x) * ya + (x - a) * yb) by (field; lra). lra. Qed.

Lemma poly_err1 xs f x v E : increasing xs -> on_polyline xs (map f xs) x v ->
  (forall i, (S i < length xs)%nat -> nth i xs 0 <= x <= nth (S i) xs 0 -> Rabs (blend1 (nth i xs 0) (nth (S i) xs 0) x (f (nth i xs 0)) (f (nth (S i) xs 0)) - f x) <= E) ->
  Rabs (v - f x) <= E.
Proof.
  intros Hx (i & Hi & Hc & Hl) H. rewrite !map_nth0 in Hl by lia.
  apply on_line_blend in Hl; [|apply Hx; lia]. rewrite Hl. apply H; auto.
Qed.

Lemma interp1d_error bm m xs f f1 f2 M h x : is_linear m -> increasing xs -> (2 <= length xs)%nat -> spacing h xs ->
  twice_derivable f f1 f2 (first xs) (final xs) M -> first xs <= x <= final xs ->
  exists o v, new1d bm m xs (map f xs) = Ok o /\ eval1d o x = Ok v /\ Rabs (v - f x) <= M * h ^ 2 / 8.
Proof.
  intros Hlm Hx Hl Hs D Hr. destruct (is_linear_kind m Hlm) as (k & Hm).
  destruct (eval1d_in_range m k xs (map f xs) bm x Hm Hx Hl (map_length _ _) Hr) as (o & v & H1 & H2 & H3).
  exists o, v. split; [exact H1|]. split; [exact H2|]. apply (poly_err1 xs f x v _ Hx H3).
  intros i Hi Hc. apply cell_curved; auto. now exists f1, f2.
Qed.
Lemma interp1d_error_lip bm m xs f K h x : is_linear m -> increasing xs -> (2 <= length xs)%nat -> spacing h xs ->
  lipschitz f (first xs) (final xs) K -> first xs <= x <= final xs ->
  exists o v, new1d bm m xs (map f xs) = Ok o /\ eval1d o x = Ok v /\ Rabs (v - f x) <= K * h / 2.
Proof.
  intros Hlm Hx Hl Hs D Hr. destruct (is_linear_kind m Hlm) as (k & Hm).
  destruct (eval1d_in_range m k xs (map f xs) bm x Hm Hx Hl (map_length _ _) Hr) as (o & v & H1 & H2 & H3).
  exists o, v. split; [exact H1|]. split; [exact H2|]. apply (poly_err1 xs f x v _ Hx H3).
  intros i Hi Hc. apply cell_sloped; auto.
Qed.

(** *** N variables *)
Lemma clamp_bounds g x : good_axis g -> first g <= clamp (first g) (final g) x <= final g.
Proof.
  intros Hg. pose proof (good_axis_length g Hg). pose proof (increasing_le g 0 (length g - 1) (proj1 Hg) ltac:(lia)) as H0.
  unfold first, final in *. unfold clamp. destruct (Rle_dec (nth (length g - 1) g 0) x).
  - rewrite Rmin_left, Rmax_right by lra. lra.
  - rewrite Rmin_right by lra. split; [apply Rmax_l|]. apply Rmax_lub; lra.
Qed.
Lemma clamp_in_box gs p : good_axes gs -> length p = length gs -> in_box gs (clamp_point gs p).
Proof.
  intros H. revert p. induction H as [|g gs Hg H IH]; intros [|x p] Hp; try discriminate.
  - constructor.
  - constructor; [apply clamp_bounds; exact Hg|]. apply IH. simpl in Hp. lia.
Qed.

Lemma rop_close g x h h' E : good_axis g -> (forall i, (i < length g)%nat -> Rabs (h i - h' i) <= E) -> Rabs (rop g x h - rop g x h') <= E.
Proof.
  intros Hg H. assert (L : rop g x h - rop g x h' = rop g x (fun i => h i - h' i)).
  { destruct (rop_cases g x Hg) as [[A B]|[[A B]|(j & Hj & A & B)]]; rewrite !B; ring. }
  rewrite L. apply Rabs_le. apply rop_range; auto. intros i Hi. specialize (H i Hi). pose proof (Rle_abs (h i - h' i)). pose proof (Rle_abs (- (h i - h' i))). rewrite Rabs_Ropp in *. lra.
Qed.

(** Error along one axis: from cells to the whole line. *)
Lemma rop_err g x f E : good_axis g -> 0 <= E ->
  (forall i x, (S i < length g)%nat -> nth i g 0 <= x <= nth (S i) g 0 -> Rabs (blend1 (nth i g 0) (nth (S i) g 0) x (f (nth i g 0)) (f (nth (S i) g 0)) - f x) <= E) ->
  Rabs (rop g x (fun i => f (nth i g 0)) - f (clamp (first g) (final g) x)) <= E.
Proof.
  intros Hg HE H. pose proof (good_axis_length g Hg) as Hl. pose proof (proj1 Hg) as Hinc.
  pose proof (increasing_le g 0 (length g - 1) Hinc ltac:(lia)) as H01. unfold first, final.
  destruct (rop_cases g x Hg) as [[A B]|[[A B]|(j & Hj & A & B)]]; rewrite B.
  - unfold clamp. rewrite Rmin_right, Rmax_left by lra. rewrite Rminus_diag_eq, Rabs_R0 by reflexivity. exact HE.
  - unfold clamp. rewrite Rmin_left, Rmax_right by lra. rewrite Rminus_diag_eq, Rabs_R0 by reflexivity. exact HE.
  - pose proof (increasing_le g 0 j Hinc ltac:(lia)). pose proof (increasing_le g (S j) (length g - 1) Hinc ltac:(lia)).
    unfold clamp. rewrite Rmin_right, Rmax_right by lra.
    replace (f (nth j g 0) + (x - nth j g 0) / (nth (S j) g 0 - nth j g 0) * (f (nth (S j) g 0) - f (nth j g 0)))
      with (blend1 (nth j g 0) (nth (S j) g 0) x (f (nth j g 0)) (f (nth (S j) g 0))) by (unfold blend1; field; lra).
    apply H; [exact Hj|lra].
Qed.

Lemma nest_err : forall gs, good_axes gs -> forall Es p F, length p = length gs -> length Es = length gs ->
  along_axes (fun f g E => forall x, Rabs (rop g x (fun i => f (nth i g 0)) - f (clamp (first g) (final g) x)) <= E) gs Es F ->
  Rabs (nest (map2 rop gs p) (fun idx => F (node_at gs idx)) - F (clamp_point gs p)) <= sum Es.
Proof.
  induction 1 as [|g gs Hg Hgs IH]; intros Es p F Hp HE HA; destruct p as [|x p], Es as [|E Es]; try discriminate.
  - unfold node_at, clamp_point, sum. cbn [map2 nest fold_right]. rewrite Rminus_diag_eq, Rabs_R0 by reflexivity. lra.
  - cbn [map2 nest]. simpl in Hp, HE.
    change (clamp_point (g :: gs) (x :: p)) with (clamp (nth 0 g 0) (nth (length g - 1) g 0) x :: clamp_point gs p).
    change (sum (E :: Es)) with (E + sum Es).
    set (h := fun i => nest (map2 rop gs p) (fun is => F (nth i g 0 :: node_at gs is))).
    set (c := clamp (nth 0 g 0) (nth (length g - 1) g 0) x).
    change (Rabs (rop g x h - F (c :: clamp_point gs p)) <= E + sum Es).
    set (k := rop g x (fun i => F (nth i g 0 :: clamp_point gs p))).
    assert (A : Rabs (rop g x h - k) <= sum Es).
    2:{ assert (B : Rabs (k - F (c :: clamp_point gs p)) <= E).
        { apply (HA [] (clamp_point gs p)); [simpl; lia|constructor|]. simpl. apply clamp_in_box; [exact Hgs|lia]. }
        replace (rop g x h - F (c :: clamp_point gs p)) with ((rop g x h - k) + (k - F (c :: clamp_point gs p))) by ring.
        apply Rle_trans with (1 := Rabs_triang _ _). lra. }
    unfold k. apply rop_close; [exact Hg|]. intros i Hi. unfold h.
      apply (IH Es p (fun q => F (nth i g 0 :: q))); [lia|lia|].
      intros pre post Hpre B1 B2. apply (HA (nth i g 0 :: pre) post); [simpl; lia| |exact B2].
      simpl. constructor; [|exact B1]. unfold first, final.
      split; apply increasing_le; try apply Hg; lia.
Qed.

Lemma nest_samples : forall gs, good_axes gs -> forall p (D D' : list nat -> R), length p = length gs ->
  (forall idx, in_extents (map (@length R) gs) idx -> D idx = D' idx) -> nest (map2 rop gs p) D = nest (map2 rop gs p) D'.
Proof.
  induction 1 as [|g gs Hg Hgs IH]; intros p D D' Hp HD; destruct p as [|x p]; try discriminate; simpl.
  - apply HD. constructor.
  - assert (E0 : forall j, (j < length g)%nat -> nest (map2 rop gs p) (fun is => D (j :: is)) = nest (map2 rop gs p) (fun is => D' (j :: is))).
    { intros j Hj. apply IH; [simpl in Hp; lia|]. intros idx Hi. apply HD. constructor; auto. }
    apply Rle_antisym; apply Rminus_le; (eapply Rle_trans; [apply Rle_abs|]);
      (apply rop_close; [exact Hg|]; intros i Hi; rewrite E0 by exact Hi; rewrite Rminus_diag_eq, Rabs_R0 by reflexivity; lra).
Qed.

Lemma grid_error_gen bm gs a F Es p : good_axes gs -> length (nd_flat a) = count (map (@length R) gs) -> length p = length gs ->
  samples gs (nd_flat a) F -> length Es = length gs ->
  along_axes (fun f g E => forall x, Rabs (rop g x (fun i => f (nth i g 0)) - f (clamp (first g) (final g) x)) <= E) gs Es F ->
  exists o v, rgi_make gs a = Ok o /\ rgi_interp bm o p false = Ok v /\ Rabs (v - F (clamp_point gs p)) <= sum Es.
Proof.
  intros Hg Hl Hp HS HE HA. eexists. eexists. split; [apply rgi_make_ok; auto|]. split; [apply interp_live; auto|].
  rewrite (nest_samples gs Hg p _ (fun idx => F (node_at gs idx)) Hp HS). now apply nest_err.
Qed.

Lemma box_nth gs hs k : spacings hs gs -> (k < length gs)%nat -> spacing (nth k hs 0) (nth k gs []).
Proof.
  intros H. revert k. induction H as [|h g hs gs H1 H2 IH]; intros [|k] Hk; simpl in *; try lia; auto. apply IH. lia.
Qed.
Lemma good_nth gs k : good_axes gs -> (k < length gs)%nat -> good_axis (nth k gs []).
Proof. intros H Hk. unfold good_axes in H. rewrite Forall_forall in H. apply H. now apply nth_In. Qed.
Lemma map2_nth (c : R -> R -> R) : forall Cs hs k, (k < length Cs)%nat -> length Cs = length hs -> nth k (map2 c Cs hs) 0 = c (nth k Cs 0) (nth k hs 0).
Proof. induction Cs as [|C Cs IH]; intros [|h hs] k Hk E; simpl in *; try lia. destruct k; auto. apply IH; lia. Qed.
Lemma map2_len (c : R -> R -> R) : forall Cs hs, length Cs = length hs -> length (map2 c Cs hs) = length Cs.
Proof. induction Cs as [|C Cs IH]; intros [|h hs] E; simpl in *; try lia. f_equal. apply IH. lia. Qed.
Lemma spacings_length gs hs : spacings hs gs -> length hs = length gs.
Proof. apply Forall2_length. Qed.

Lemma curved_nonneg f g M : good_axis g -> curved f g M -> 0 <= M.
Proof.
  intros Hg (f1 & f2 & D). apply (twice_nonneg _ _ _ _ _ _ (increasing_le g 0 (length g - 1) (proj1 Hg) ltac:(pose proof (good_axis_length g Hg); lia)) D).
Qed.

Lemma grid_error bm gs a F Ms hs p : good_axes gs -> length (nd_flat a) = count (map (@length R) gs) -> length p = length gs ->
  samples gs (nd_flat a) F -> length Ms = length gs -> spacings hs gs -> along_axes curved gs Ms F ->
  exists o v, rgi_make gs a = Ok o /\ rgi_interp bm o p false = Ok v /\
    Rabs (v - F (clamp_point gs p)) <= total (fun M h => M * h ^ 2 / 8) Ms hs.
Proof.
  intros Hg Hl Hp HS HM Hh HA. pose proof (spacings_length _ _ Hh) as Lh. apply grid_error_gen; auto.
  - rewrite map2_len; lia.
  - intros pre post Hpre B1 B2. pose proof (HA pre post Hpre B1 B2) as C. pose proof (good_nth gs _ Hg Hpre) as Gg.
    rewrite map2_nth by lia. intros x.
    pose proof (curved_nonneg _ _ _ Gg C) as M0.
    apply (rop_err _ x (fun t => F (pre ++ t :: post))); [exact Gg| |].
    + assert (0 <= nth (length pre) hs 0 ^ 2) by apply pow2_ge_0. nra.
    + intros i t Hi Ht. apply (cell_curved (fun t => F (pre ++ t :: post))); [apply Gg|exact C|now apply box_nth|exact Hi|exact Ht].
Qed.
Lemma grid_error_lip bm gs a F Ks hs p : good_axes gs -> length (nd_flat a) = count (map (@length R) gs) -> length p = length gs ->
  samples gs (nd_flat a) F -> length Ks = length gs -> spacings hs gs -> Forall (fun K => 0 <= K) Ks -> Forall (fun h => 0 <= h) hs -> along_axes sloped gs Ks F ->
  exists o v, rgi_make gs a = Ok o /\ rgi_interp bm o p false = Ok v /\
    Rabs (v - F (clamp_point gs p)) <= total (fun K h => K * h / 2) Ks hs.
Proof.
  intros Hg Hl Hp HS HM Hh PK Ph HA. pose proof (spacings_length _ _ Hh) as Lh. apply grid_error_gen; auto.
  - rewrite map2_len; lia.
  - intros pre post Hpre B1 B2. pose proof (HA pre post Hpre B1 B2) as C. pose proof (good_nth gs _ Hg Hpre) as Gg.
    rewrite map2_nth by lia. intros x.
    assert (0 <= nth (length pre) Ks 0) by (rewrite Forall_forall in PK; apply PK, nth_In; lia).
    assert (0 <= nth (length pre) hs 0) by (rewrite Forall_forall in Ph; apply Ph, nth_In; lia).
    apply (rop_err _ x (fun t => F (pre ++ t :: post))); [exact Gg| |].
    + nra.
    + intros i t Hi Ht. apply (cell_sloped (fun t => F (pre ++ t :: post))); [apply Gg|exact C|now apply box_nth|exact Hi|exact Ht].
Qed.

(** *** Two variables *)
Lemma along2_axes P xs ys f Cx Cy : along2 P xs ys f Cx Cy -> along_axes P [xs; ys] [Cx; Cy] (fun p => f (nth 0 p 0) (nth 1 p 0)).
Proof.
  intros [A B] pre post Hpre B1 B2. destruct pre as [|x [|? pre]]; simpl in *; [| |lia].
  - inversion B2 as [|? y ? ? Hy Hr]; subst. inversion Hr; subst. simpl. apply A. exact Hy.
  - inversion B1; subst. inversion B2; subst. simpl. now apply B.
Qed.
Lemma samples2_grid xs ys data f : samples2 xs ys data f -> samples [xs; ys] data (fun p => f (nth 0 p 0) (nth 1 p 0)).
Proof.
  intros H idx Hi. simpl in Hi. inversion Hi as [|? i ? ? Li Hr]; subst. inversion Hr as [|? j ? ? Lj Hr2]; subst. inversion Hr2; subst.
  unfold element, node_at. simpl. rewrite <- H by assumption. f_equal. lia.
Qed.
Lemma good_of xs : increasing xs -> (2 <= length xs)%nat -> good_axis xs.
Proof. intros A B. split; [exact A|]. intros ->. simpl in B. lia. Qed.

Lemma interp2d_from_grid bm xs ys data x y (Q : R -> Prop) :
  increasing xs -> increasing ys -> (2 <= length xs)%nat -> (2 <= length ys)%nat -> length data = (length xs * length ys)%nat -> inside xs ys x y ->
  (exists o v, rgi_make [xs; ys] (mkND [length xs; length ys] data) = Ok o /\ rgi_interp bm o [x; y] false = Ok v /\ Q v) ->
  exists o v, new2d bm LINEAR xs ys data = Ok o /\ eval2d bm o x y = Ok v /\ Q v.
Proof.
  intros Hx Hy Lx Ly Hd Hi (o & v & A & B & C).
  destruct (grid_2d_lemma bm bm xs ys data x y Hx Hy Lx Ly Hd Hi) as (o' & o2 & v' & A' & N & B' & E).
  rewrite A in A'. injection A' as <-. rewrite B in B'. injection B' as <-. exists o2, v. auto.
Qed.
Lemma clamp2 xs ys x y : increasing xs -> increasing ys -> (2 <= length xs)%nat -> (2 <= length ys)%nat -> inside xs ys x y -> clamp_point [xs; ys] [x; y] = [x; y].
Proof. intros Hx Hy Lx Ly [A B]. unfold clamp_point, clamp. cbn [map2]. rewrite !Rmin_right, !Rmax_right by lra. reflexivity. Qed.

Lemma interp2d_error bm xs ys data f Mx My hx hy x y :
  increasing xs -> increasing ys -> (2 <= length xs)%nat -> (2 <= length ys)%nat -> length data = (length xs * length ys)%nat ->
  samples2 xs ys data f -> spacing hx xs -> spacing hy ys -> along2 curved xs ys f Mx My -> inside xs ys x y ->
  exists o v, new2d bm LINEAR xs ys data = Ok o /\ eval2d bm o x y = Ok v /\ Rabs (v - f x y) <= (Mx * hx ^ 2 + My * hy ^ 2) / 8.
Proof.
  intros Hx Hy Lx Ly Hd HS Sx Sy HA Hi. apply interp2d_from_grid; auto.
  destruct (grid_error bm [xs; ys] (mkND [length xs; length ys] data) (fun p => f (nth 0 p 0) (nth 1 p 0)) [Mx; My] [hx; hy] [x; y]) as (o & v & A & B & C); auto.
  - repeat constructor; auto; intros ->; simpl in *; lia.
  - simpl. lia.
  - apply samples2_grid, HS.
  - apply Forall2_cons; [exact Sx|]. apply Forall2_cons; [exact Sy|apply Forall2_nil].
  - apply along2_axes, HA.
  - exists o, v. split; [exact A|]. split; [exact B|]. rewrite clamp2 in C by assumption. unfold total, sum in C. cbn [map2 fold_right nth] in C. lra.
Qed.
Lemma spacing_nonneg h g : increasing g -> (2 <= length g)%nat -> spacing h g -> 0 <= h.
Proof. intros A B C. pose proof (A 0 1 ltac:(lia))%nat. pose proof (C 0%nat ltac:(lia)). lra. Qed.
Lemma first_final g : increasing g -> (2 <= length g)%nat -> first g < final g.
Proof. intros A B. apply A. lia. Qed.
Lemma interp2d_error_lip bm xs ys data f Kx Ky hx hy x y :
  increasing xs -> increasing ys -> (2 <= length xs)%nat -> (2 <= length ys)%nat -> length data = (length xs * length ys)%nat ->
  samples2 xs ys data f -> spacing hx xs -> spacing hy ys -> along2 sloped xs ys f Kx Ky -> inside xs ys x y ->
  exists o v, new2d bm LINEAR xs ys data = Ok o /\ eval2d bm o x y = Ok v /\ Rabs (v - f x y) <= (Kx * hx + Ky * hy) / 2.
Proof.
  intros Hx Hy Lx Ly Hd HS Sx Sy HA Hi. apply interp2d_from_grid; auto.
  pose proof (first_final xs Hx Lx). pose proof (first_final ys Hy Ly).
  assert (0 <= Kx) by (apply (lip_nonneg (fun t => f t (first ys)) _ _ _ H), (proj1 HA (first ys)); lra).
  assert (0 <= Ky) by (apply (lip_nonneg (f (first xs)) _ _ _ H0), (proj2 HA (first xs)); lra).
  pose proof (spacing_nonneg hx xs Hx Lx Sx). pose proof (spacing_nonneg hy ys Hy Ly Sy).
  destruct (grid_error_lip bm [xs; ys] (mkND [length xs; length ys] data) (fun p => f (nth 0 p 0) (nth 1 p 0)) [Kx; Ky] [hx; hy] [x; y]) as (o & v & A & B & C); auto.
  - repeat constructor; auto; intros ->; simpl in *; lia.
  - simpl. lia.
  - apply samples2_grid, HS.
  - apply Forall2_cons; [exact Sx|]. apply Forall2_cons; [exact Sy|apply Forall2_nil].
  - apply along2_axes, HA.
  - exists o, v. split; [exact A|]. split; [exact B|]. rewrite clamp2 in C by assumption. unfold total, sum in C. cbn [map2 fold_right nth] in C. lra.
Qed.

(** *** Nearest node *)
Lemma nearest_close g x i h : good_axis g -> spacing h g -> 0 <= h -> first g <= x <= final g -> nearest_on g x i -> Rabs (x - nth i g 0) <= h / 2.
Proof.
  intros Hg Hh H0 Hx [Hi HN]. unfold first, final in Hx.
  destruct (rop_cases g x Hg) as [[A _]|[[A _]|(j & Hj & A & _)]].
  - lra.
  - destruct (HN (length g - 1)%nat ltac:(pose proof (good_axis_length g Hg); lia)) as [B _].
    apply Rle_trans with (1 := B). rewrite Rminus_diag_eq, Rabs_R0 by lra. lra.
  - destruct (HN j ltac:(lia)) as [B _]. destruct (HN (S j) Hj) as [C _]. specialize (Hh j Hj).
    rewrite (Rabs_pos_eq (x - nth j g 0)) in B by lra. rewrite (Rabs_left1 (x - nth (S j) g 0)) in C by lra. lra.
Qed.
Lemma telescope : forall gs hs Ks p idx F, good_axes gs -> spacings hs gs -> Forall (fun h => 0 <= h) hs -> Forall (fun K => 0 <= K) Ks -> length Ks = length gs ->
  in_box gs p -> in_extents (map (@length R) gs) idx ->
  (forall k, (k < length gs)%nat -> nearest_on (nth k gs []) (nth k p 0) (nth k idx 0%nat)) ->
  along_axes sloped gs Ks F -> Rabs (F (node_at gs idx) - F p) <= total (fun K h => K * h / 2) Ks hs.
Proof.
  induction gs as [|g gs IH]; intros hs Ks p idx F Hg Hh Ph PK LK HB HI HN HA.
  - inversion HB; inversion HI; subst. unfold node_at. cbn [map2]. destruct Ks; [|discriminate].
    unfold total, sum. cbn [map2 fold_right]. rewrite Rminus_diag_eq, Rabs_R0 by reflexivity. lra.
  - destruct Ks as [|K Ks]; [discriminate|]. inversion Hh as [|h ? hs' ? Hh1 Hh2]; subst.
    inversion HB as [|? x ? p' Bx Bp]; subst. inversion HI as [|? i ? idx' Ii Iidx]; subst.
    inversion Hg as [|? ? Gg Ggs]; subst. inversion Ph; subst. inversion PK; subst. simpl in LK.
    change (node_at (g :: gs) (i :: idx')) with (nth i g 0 :: node_at gs idx').
    change (total (fun K h => K * h / 2) (K :: Ks) (h :: hs')) with (K * h / 2 + total (fun K h => K * h / 2) Ks hs').
    assert (Bi : first g <= nth i g 0 <= final g) by (unfold first, final; split; apply increasing_le; try apply Gg; lia).
    assert (A : Rabs (F (nth i g 0 :: p') - F (x :: p')) <= K * h / 2).
    { pose proof (HA [] p' ltac:(simpl; lia) ltac:(constructor) Bp (nth i g 0) x Bi Bx) as A. cbn [app length nth] in A.
      apply Rle_trans with (1 := A). rewrite Rabs_minus_sym.
      pose proof (nearest_close g x i h Gg Hh1 ltac:(assumption) Bx (HN 0%nat ltac:(simpl; lia))). nra. }
    assert (B : Rabs (F (nth i g 0 :: node_at gs idx') - F (nth i g 0 :: p')) <= total (fun K h => K * h / 2) Ks hs').
    { apply (IH hs' Ks p' idx' (fun q => F (nth i g 0 :: q))); auto.
      - intros k Hk. apply (HN (S k)). simpl. lia.
      - intros pre post Hpre B1 B2. apply (HA (nth i g 0 :: pre) post); [simpl; lia| |exact B2]. simpl. constructor; assumption. }
    replace (F (nth i g 0 :: node_at gs idx') - F (x :: p')) with ((F (nth i g 0 :: node_at gs idx') - F (nth i g 0 :: p')) + (F (nth i g 0 :: p') - F (x :: p'))) by ring.
    apply Rle_trans with (1 := Rabs_triang _ _). lra.
Qed.
Lemma nearest_error bm gs (a : ndarray R) F Ks hs p : good_axes gs -> nd_shape a = map (@length R) gs -> length (nd_flat a) = count (nd_shape a) ->
  samples gs (nd_flat a) F -> length Ks = length gs -> spacings hs gs -> Forall (fun K => 0 <= K) Ks -> Forall (fun h => 0 <= h) hs ->
  along_axes sloped gs Ks F -> in_box gs p ->
  exists o n, rgn_make gs a = Ok o /\ rgn_nearest bm o p = Ok n /\ Rabs (gn_val n - F p) <= total (fun K h => K * h / 2) Ks hs.
Proof.
  intros Hg Hsh Hl HS LK Hh PK Ph HA HB.
  assert (Hp : length p = length gs) by (symmetry; eapply Forall2_length; exact HB).
  destruct (nearest_lemma R bm gs a p 0 Hg Hsh Hl Hp) as (o & idx & A & B & C & D & _).
  exists o. eexists. split; [exact A|]. split; [exact B|]. cbn [gn_val].
  rewrite Hsh in C |- *. fold (element (map (@length R) gs) (nd_flat a) idx). rewrite (HS idx C). now apply telescope.
Qed.
