(** Accuracy and shape of the interpolants on a grid. *)
From Coq Require Import List Arith ZArith Reals Lra Lia Bool Permutation.
From Coquelicot Require Import Coquelicot.
From Verif Require Import Outcome Num StdAlgo S_Interp1d M_Grid S_Grid S_Integ S_Err S_Lim S_GShape
  L_Search L_Grid L_GridSimplex L_Err L_Lim L_GShape.
Import ListNotations.
Local Open Scope R_scope.

Lemma simplex_any_sort : forall bm gs data p s s', good_axes gs -> length p = length gs -> length data = count (map (@length R) gs) -> sorts_axes s -> sorts_axes s' ->
  interp_simplex bm gs data p s = interp_simplex bm gs data p s'.
Proof.
  intros bm gs data p s s' Hg Hp Hd H H'. destruct (simplex_int bm gs data p s Hg Hp Hd H) as (v & -> & A). destruct (simplex_int bm gs data p s' Hg Hp Hd H') as (v' & -> & B).
  f_equal. rewrite <- (is_RInt_unique _ _ _ _ A). now apply is_RInt_unique.
Qed.

(** *** Accuracy *)
Definition lin (a : list R) (gs : list (list R)) : list (nat -> R) := map2 (fun c g => fun i => c * nth i g 0) a gs.
Lemma lin_asum a gs idx : dot a (node_at gs idx) = asum (lin a gs) idx.
Proof.
  revert gs idx. induction a as [|c a IH]; intros [|g gs] [|i idx]; try reflexivity.
  change (c * nth i g 0 + dot a (node_at gs idx) = c * nth i g 0 + asum (lin a gs) idx). now rewrite IH.
Qed.
Lemma lin_rsum a gs p : good_axes gs -> length a = length gs -> length p = length gs -> rsum gs p (lin a gs) = dot a (clamp_point gs p).
Proof.
  intros H. revert a p. induction H as [|g gs Hg H IH]; intros [|c a] [|x p] Ha Hp; try discriminate; [reflexivity|].
  change (rop g x (fun i => c * nth i g 0) + rsum gs p (lin a gs) = c * clamp (nth 0 g 0) (nth (length g - 1) g 0) x + dot a (clamp_point gs p)).
  rewrite IH by (simpl in *; lia). f_equal. apply (rop_affine g x (fun u => c * u) Hg). intros; ring.
Qed.
Lemma lin_length a gs : length a = length gs -> length (lin a gs) = length gs.
Proof. revert gs. induction a as [|c a IH]; intros [|g gs] H; try discriminate; [reflexivity|]. simpl. f_equal. apply IH. simpl in H. lia. Qed.
Lemma int_abs (f g : R -> R) lf lg : is_RInt f 0 1 lf -> is_RInt g 0 1 lg -> (forall t, 0 < t < 1 -> Rabs (f t) <= g t) -> Rabs lf <= lg.
Proof.
  intros A B H. apply Rabs_le. split.
  - apply (is_RInt_le (fun t => - g t) f 0 1); [lra|apply (is_RInt_opp (V := R_NormedModule)); exact B|exact A|]. intros t Ht. specialize (H t Ht). apply Rabs_le_between in H. lra.
  - apply (is_RInt_le f g 0 1); [lra|exact A|exact B|]. intros t Ht. specialize (H t Ht). apply Rabs_le_between in H. lra.
Qed.
Lemma simplex_major bm gs data p s F a b hs : good_axes gs -> length p = length gs -> length data = count (map (@length R) gs) -> sorts_axes s -> samples gs data F ->
  length a = length gs -> length hs = length gs ->
  (forall t, 0 < t < 1 -> Rabs (F (node_at gs (J gs p t)) - affine a b (node_at gs (J gs p t))) <= asum hs (J gs p t)) ->
  exists v, interp_simplex bm gs data p s = Ok v /\ Rabs (v - affine a b (clamp_point gs p)) <= rsum gs p hs.
Proof.
  intros Hg Hp Hd Hs HF Ha Hh H. destruct (simplex_int bm gs data p s Hg Hp Hd Hs) as (v & E & I). exists v. split; [exact E|].
  pose proof (asum_int gs p Hg (lin a gs) Hp (lin_length a gs Ha)) as IA. rewrite lin_rsum in IA by assumption.
  pose proof (is_RInt_const (V := R_NormedModule) 0 1 b) as IB.
  pose proof (is_RInt_minus (V := R_NormedModule) _ _ _ _ _ _ I (is_RInt_plus (V := R_NormedModule) _ _ _ _ _ _ IB IA)) as IC.
  refine (int_abs _ _ _ _ _ (asum_int gs p Hg hs Hp Hh) H).
  apply (int_eq _ _ _ _ (v - affine a b (clamp_point gs p))) in IC.
  - revert IC. apply is_RInt_ext. intros t _. rewrite <- (HF (J gs p t)) by (now apply J_in). unfold affine. rewrite lin_asum. reflexivity.
  - unfold affine. unfold minus, plus, opp, scal; simpl. unfold mult; simpl. ring.
Qed.

Lemma quarter y : 0 <= y <= 1 -> 0 <= y * (1 - y) <= / 4.
Proof. intros H. split; [apply Rmult_le_pos; lra|]. pose proof (Rle_0_sqr (y - / 2)) as Q. unfold Rsqr in Q. lra. Qed.
Lemma axis_abs g x K h : good_axis g -> spacing h g -> 0 <= K -> 0 <= h -> rop g x (fun i => K * Rabs (nth i g 0 - onto g x)) <= K * h / 2.
Proof.
  intros Hg Hs HK Hh. pose proof (good_axis_length g Hg) as Hl. pose proof (proj1 Hg) as Hinc. pose proof (increasing_le g 0 (length g - 1) Hinc ltac:(lia)) as H01.
  assert (0 <= K * h) by (now apply Rmult_le_pos). unfold onto, first, final, clamp.
  destruct (jx_cases g x Hg) as [(A & B & _)|[(A & B & _)|(i & y & Hi & A & Ey & Hy & B & _)]]; rewrite B.
  - rewrite Rmin_right, Rmax_left by lra. rewrite Rminus_diag_eq, Rabs_R0 by reflexivity. lra.
  - rewrite Rmin_left, Rmax_right by lra. rewrite Rminus_diag_eq, Rabs_R0 by reflexivity. lra.
  - pose proof (increasing_le g 0 i Hinc ltac:(lia)). pose proof (increasing_le g (S i) (length g - 1) Hinc ltac:(lia)).
    rewrite Rmin_right, Rmax_right by lra. rewrite (Rabs_left1 (nth i g 0 - x)), (Rabs_pos_eq (nth (S i) g 0 - x)) by lra.
    specialize (Hs i Hi). set (D := nth (S i) g 0 - nth i g 0) in *. assert (D0 : 0 < D) by (unfold D; lra).
    assert (Ex : x = nth i g 0 + y * D) by (rewrite Ey; field; lra).
    replace (nth (S i) g 0) with (nth i g 0 + D) by (unfold D; ring). rewrite Ex.
    replace (K * - (nth i g 0 - (nth i g 0 + y * D)) + y * (K * (nth i g 0 + D - (nth i g 0 + y * D)) - K * - (nth i g 0 - (nth i g 0 + y * D)))) with (K * (2 * (y * (1 - y)) * D)) by ring.
    assert (P : 0 <= y * (1 - y) <= / 4) by (now apply quarter).
    assert (Q : y * (1 - y) * D <= / 4 * h) by (apply Rmult_le_compat; lra). assert (Q' : 2 * (y * (1 - y)) * D <= h / 2) by lra.
    pose proof (Rmult_le_compat_l K _ _ HK Q'). lra.
Qed.
Lemma axis_sqr g x M h : good_axis g -> spacing h g -> 0 <= M -> 0 <= h -> rop g x (fun i => M / 2 * Rabs (nth i g 0 - onto g x) ^ 2) <= M * h ^ 2 / 8.
Proof.
  intros Hg Hs HK Hh. pose proof (good_axis_length g Hg) as Hl. pose proof (proj1 Hg) as Hinc. pose proof (increasing_le g 0 (length g - 1) Hinc ltac:(lia)) as H01.
  assert (0 <= M * h ^ 2) by (apply Rmult_le_pos; [exact HK|apply pow2_ge_0]). unfold onto, first, final, clamp.
  destruct (jx_cases g x Hg) as [(A & B & _)|[(A & B & _)|(i & y & Hi & A & Ey & Hy & B & _)]]; rewrite B; rewrite <- ?Rsqr_pow2, <- ?Rsqr_abs.
  - rewrite Rmin_right, Rmax_left by lra. rewrite Rminus_diag_eq by reflexivity. rewrite Rsqr_0. unfold Rsqr. nra.
  - rewrite Rmin_left, Rmax_right by lra. rewrite Rminus_diag_eq by reflexivity. rewrite Rsqr_0. unfold Rsqr. nra.
  - pose proof (increasing_le g 0 i Hinc ltac:(lia)). pose proof (increasing_le g (S i) (length g - 1) Hinc ltac:(lia)).
    rewrite Rmin_right, Rmax_right by lra.
    specialize (Hs i Hi). set (D := nth (S i) g 0 - nth i g 0) in *. assert (D0 : 0 < D) by (unfold D; lra).
    assert (Ex : x = nth i g 0 + y * D) by (rewrite Ey; field; lra).
    replace (nth (S i) g 0) with (nth i g 0 + D) by (unfold D; ring). rewrite Ex. unfold Rsqr.
    match goal with |- ?l <= _ => replace l with (M / 2 * ((y * (1 - y)) * (D * D))) by field end.
    assert (P : 0 <= y * (1 - y) <= / 4) by (now apply quarter). assert (Q : 0 <= D * D <= h * h) by nra.
    assert (y * (1 - y) * (D * D) <= / 4 * (h * h)) by (apply Rmult_le_compat; lra). nra.
Qed.
Definition dists (c : R -> R -> R) (Ks q : list R) (gs : list (list R)) : list (nat -> R) :=
  map2 (fun Kq g => fun i => c (fst Kq) (Rabs (nth i g 0 - snd Kq))) (combine Ks q) gs.
Lemma dists_asum c : forall gs Ks q idx, length Ks = length gs -> length q = length gs -> length idx = length gs ->
  asum (dists c Ks q gs) idx = total c Ks (apart (node_at gs idx) q).
Proof.
  induction gs as [|g gs IH]; intros [|K Ks] [|x q] [|i idx] H1 H2 H3; try discriminate; [reflexivity|].
  change (c K (Rabs (nth i g 0 - x)) + asum (dists c Ks q gs) idx = c K (Rabs (nth i g 0 - x)) + total c Ks (apart (node_at gs idx) q)).
  rewrite IH by (simpl in *; lia). reflexivity.
Qed.
Lemma dists_length c : forall gs Ks q, length Ks = length gs -> length q = length gs -> length (dists c Ks q gs) = length gs.
Proof. induction gs as [|g gs IH]; intros [|K Ks] [|x q] H1 H2; try discriminate; [reflexivity|]. simpl. f_equal. apply IH; simpl in *; lia. Qed.
Lemma dists_rsum c e : (forall g x K h, good_axis g -> spacing h g -> 0 <= K -> 0 <= h -> rop g x (fun i => c K (Rabs (nth i g 0 - onto g x))) <= e K h) ->
  forall gs, good_axes gs -> forall Ks hs p, spacings hs gs -> length Ks = length gs -> length p = length gs -> List.Forall (fun K => 0 <= K) Ks -> List.Forall (fun h => 0 <= h) hs ->
  rsum gs p (dists c Ks (clamp_point gs p) gs) <= total e Ks hs.
Proof.
  intros HC gs Hg. induction Hg as [|g gs Hg Hgs IH]; intros [|K Ks] hs [|x p] Hs HK Hp PK Ph; try discriminate; [right; unfold total; destruct hs; reflexivity|].
  inversion Hs as [|h ? hs' ? S1 S2]; subst. inversion PK; inversion Ph; subst.
  change (rop g x (fun i => c K (Rabs (nth i g 0 - onto g x))) + rsum gs p (dists c Ks (clamp_point gs p) gs) <= e K h + total e Ks hs').
  apply Rplus_le_compat; [now apply HC|]. apply IH; auto; simpl in *; lia.
Qed.
Lemma J_length gs p t : length p = length gs -> length (J gs p t) = length gs.
Proof. revert p. induction gs as [|g gs IH]; intros [|x p] H; try discriminate; [reflexivity|]. simpl. f_equal. apply IH. simpl in H. lia. Qed.
Lemma clamp_length gs p : length p = length gs -> length (clamp_point gs p) = length gs.
Proof. revert p. induction gs as [|g gs IH]; intros [|x p] H; try discriminate; [reflexivity|]. simpl. f_equal. apply IH. simpl in H. lia. Qed.
Lemma nodes_box gs idx : good_axes gs -> in_extents (map (@length R) gs) idx -> in_box gs (node_at gs idx).
Proof.
  intros H. revert idx. induction H as [|g gs Hg H IH]; intros idx Hi; inversion Hi as [|? i ? idx' A B]; subst; [constructor|].
  constructor; [|now apply IH]. unfold first, final. split; apply increasing_le; try apply Hg; lia.
Qed.

Lemma simplex_error : forall bm gs data s F Ms hs p, good_axes gs -> length data = count (map (@length R) gs) -> length p = length gs -> sorts_axes s ->
  samples gs data F -> length Ms = length gs -> spacings hs gs -> List.Forall (fun M => 0 <= M) Ms -> List.Forall (fun h => 0 <= h) hs -> osculates gs Ms F (clamp_point gs p) ->
  exists v, interp_simplex bm gs data p s = Ok v /\ Rabs (v - F (clamp_point gs p)) <= total (fun M h => M * h ^ 2 / 8) Ms hs.
Proof.
  intros bm gs data s F Ms hs p Hg Hd Hp Hs HF LM Hh PM Ph (a & b & La & Eq & HO).
  pose proof (clamp_length gs p Hp) as Lq.
  destruct (simplex_major bm gs data p s F a b (dists (fun M d => M / 2 * d ^ 2) Ms (clamp_point gs p) gs) Hg Hp Hd Hs HF La (dists_length _ _ _ _ LM Lq)) as (v & E & B).
  - intros t Ht. rewrite dists_asum by (auto using J_length). apply HO. apply nodes_box; [exact Hg|now apply J_in].
  - exists v. split; [exact E|]. rewrite <- Eq. apply Rle_trans with (1 := B). apply (dists_rsum _ (fun M h => M * h ^ 2 / 8)); auto. intros. now apply axis_sqr.
Qed.
Lemma zeros_dot n q : dot (repeat 0 n) q = 0.
Proof. revert q. induction n as [|n IH]; intros [|x q]; try reflexivity. simpl. rewrite IH. ring. Qed.
(** Lipschitz along the axes, in the box. *)
Lemma box_lip : forall gs Ks F, length Ks = length gs -> along_axes sloped gs Ks F ->
  forall x q, in_box gs x -> in_box gs q -> Rabs (F x - F q) <= total (fun K d => K * d) Ks (apart x q).
Proof.
  induction gs as [|g gs IH]; intros [|K Ks] F LK HA x q Hx Hq; try discriminate; inversion Hx as [|? u ? x' Hu Hx']; inversion Hq as [|? w ? q' Hw Hq']; subst.
  - rewrite Rminus_diag_eq, Rabs_R0 by reflexivity. right. reflexivity.
  - change (Rabs (F (u :: x') - F (w :: q')) <= K * Rabs (u - w) + total (fun K d => K * d) Ks (apart x' q')).
    replace (F (u :: x') - F (w :: q')) with ((F (u :: x') - F (w :: x')) + (F (w :: x') - F (w :: q'))) by ring.
    apply Rle_trans with (1 := Rabs_triang _ _). apply Rplus_le_compat.
    + apply (HA [] x' ltac:(simpl; lia) ltac:(constructor) Hx'); assumption.
    + apply (IH Ks (fun y => F (w :: y))); auto. intros pre post Hpre B1 B2. apply (HA (w :: pre) post); [simpl; lia| |exact B2]. constructor; [exact Hw|exact B1].
Qed.
Lemma simplex_error_lip : forall bm gs data s F Ks hs p, good_axes gs -> length data = count (map (@length R) gs) -> length p = length gs -> sorts_axes s ->
  samples gs data F -> length Ks = length gs -> spacings hs gs -> List.Forall (fun K => 0 <= K) Ks -> List.Forall (fun h => 0 <= h) hs -> along_axes sloped gs Ks F ->
  exists v, interp_simplex bm gs data p s = Ok v /\ Rabs (v - F (clamp_point gs p)) <= total (fun K h => K * h / 2) Ks hs.
Proof.
  intros bm gs data s F Ks hs p Hg Hd Hp Hs HF LM Hh PM Ph HA.
  pose proof (clamp_length gs p Hp) as Lq. set (q := clamp_point gs p) in *.
  destruct (simplex_major bm gs data p s F (repeat 0 (length gs)) (F q) (dists (fun K d => K * d) Ks q gs) Hg Hp Hd Hs HF (repeat_length _ _) (dists_length _ _ _ _ LM Lq)) as (v & E & B).
  - intros t Ht. unfold affine. rewrite dists_asum by (auto using J_length). rewrite zeros_dot, Rplus_0_r.
    apply (box_lip gs Ks F LM HA); [apply nodes_box; [exact Hg|now apply J_in]|now apply clamp_in_box].
  - exists v. split; [exact E|]. unfold affine in B. rewrite zeros_dot, Rplus_0_r in B. apply Rle_trans with (1 := B). apply (dists_rsum _ (fun K h => K * h / 2)); auto. intros. now apply axis_abs.
Qed.
