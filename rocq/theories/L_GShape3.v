(** Convergence of simplex interpolation; slopes of the interpolants. *)
From Coq Require Import List Arith ZArith Reals Lra Lia Bool Permutation.
From Coquelicot Require Import Coquelicot.
From Verif Require Import Outcome Num StdAlgo S_Interp1d M_Grid S_Grid S_Integ S_Err S_Lim S_GShape
  L_Search L_Grid L_GridSimplex L_Err L_Lim L_GShape L_GShape2.
Import ListNotations.
Local Open Scope R_scope.

(** *** Convergence *)
Lemma simplex_const bm gs data p s F c e : good_axes gs -> length p = length gs -> length data = count (map (@length R) gs) -> sorts_axes s -> samples gs data F ->
  (forall t, 0 < t < 1 -> Rabs (F (node_at gs (J gs p t)) - c) <= e) -> exists v, interp_simplex bm gs data p s = Ok v /\ Rabs (v - c) <= e.
Proof.
  intros Hg Hp Hd Hs HF H. destruct (simplex_int bm gs data p s Hg Hp Hd Hs) as (v & E & I). exists v. split; [exact E|].
  pose proof (is_RInt_minus (V := R_NormedModule) _ _ _ _ _ _ I (is_RInt_const (V := R_NormedModule) 0 1 c)) as IC.
  pose proof (is_RInt_const (V := R_NormedModule) 0 1 e) as IE.
  apply (int_eq _ _ _ _ e) in IE; [|unfold scal; simpl; unfold mult; simpl; ring].
  apply (int_eq _ _ _ _ (v - c)) in IC; [|unfold minus, plus, opp, scal; simpl; unfold mult; simpl; ring].
  refine (int_abs _ _ _ _ IC IE _). intros t Ht. cbv beta. rewrite HF by (now apply J_in). now apply H.
Qed.
Lemma jx_close g x h t : good_axis g -> spacing h g -> 0 <= h -> Rabs (nth (jx g x t) g 0 - onto g x) <= h.
Proof.
  intros Hg Hs Hh. pose proof (good_axis_length g Hg) as Hl. pose proof (proj1 Hg) as Hinc. pose proof (increasing_le g 0 (length g - 1) Hinc ltac:(lia)) as H01.
  unfold onto, first, final, clamp.
  destruct (jx_cases g x Hg) as [(A & _ & ->)|[(A & _ & ->)|(i & y & Hi & A & Ey & Hy & _ & ->)]].
  - rewrite Rmin_right, Rmax_left by lra. rewrite Rminus_diag_eq, Rabs_R0 by reflexivity. lra.
  - rewrite Rmin_left, Rmax_right by lra. rewrite Rminus_diag_eq, Rabs_R0 by reflexivity. lra.
  - pose proof (increasing_le g 0 i Hinc ltac:(lia)). pose proof (increasing_le g (S i) (length g - 1) Hinc ltac:(lia)).
    rewrite Rmin_right, Rmax_right by lra. specialize (Hs i Hi). unfold bit. destruct Rlt_dec.
    + rewrite Nat.add_1_r. rewrite Rabs_pos_eq; lra.
    + rewrite Nat.add_0_r. rewrite Rabs_left1; lra.
Qed.
Lemma J_close h b gs : refines h b gs -> 0 <= h -> forall p t d, length p = length gs -> h < d ->
  close d (node_at gs (J gs p t)) (clamp_point gs p) /\ between b (node_at gs (J gs p t)) /\ between b (clamp_point gs p).
Proof.
  intros H Hh. induction H as [|c g b gs (A & Ea & Eb & B) H2 IH]; intros [|x p] t d Hp Hd; try discriminate; [repeat split; constructor|].
  destruct (IH p t d ltac:(simpl in Hp; lia) Hd) as (I1 & I2 & I3). pose proof (jx_close g x h t A B Hh). pose proof (clamp_bounds g x A) as C.
  change (node_at (g :: gs) (J (g :: gs) (x :: p) t)) with (nth (jx g x t) g 0 :: node_at gs (J gs p t)).
  change (clamp_point (g :: gs) (x :: p)) with (onto g x :: clamp_point gs p). repeat split.
  - constructor; [lra|exact I1].
  - constructor; [|exact I2]. rewrite <- Ea, <- Eb. pose proof (jx_lt g x t A). unfold first, final. split; apply increasing_le; try apply A; lia.
  - constructor; [|exact I3]. rewrite <- Ea, <- Eb. exact C.
Qed.
Lemma simplex_converges : forall b F, continuous_box b F -> forall eps, 0 < eps -> exists h, 0 < h /\
  forall bm gs data s, refines h b gs -> length data = count (map (@length R) gs) -> samples gs data F -> sorts_axes s ->
  forall p, length p = length b -> exists v, interp_simplex bm gs data p s = Ok v /\ Rabs (v - F (clamp_point gs p)) <= eps.
Proof.
  intros b F HC eps He. destruct (box_uniform b F HC eps He) as (d & D1 & D2). exists (d / 2). split; [lra|].
  intros bm gs data s HR Hd HF Hs p Hp. pose proof (refines_good _ _ _ HR) as Hg. pose proof (refines_length _ _ _ HR) as Lg.
  apply (simplex_const bm gs data p s F); auto; [lia|]. intros t Ht.
  destruct (J_close (d / 2) b gs HR ltac:(lra) p t d ltac:(lia) ltac:(lra)) as (A & B & C). now apply D2.
Qed.

(** *** Slopes *)
Lemma put_cons {A} k (x a : A) l : put (S k) x (a :: l) = a :: put k x l.
Proof. reflexivity. Qed.
Lemma put_length {A} k (x : A) l : (k < length l)%nat -> length (put k x l) = length l.
Proof. intros H. unfold put. rewrite app_length, firstn_length. cbn [length]. rewrite skipn_length. lia. Qed.
Lemma J_put : forall gs p k x t, (k < length gs)%nat -> length p = length gs -> J gs (put k x p) t = put k (jx (nth k gs []) x t) (J gs p t).
Proof.
  induction gs as [|g gs IH]; intros [|y p] k x t Hk Hp; simpl in Hk; try lia; try discriminate. destruct k as [|k]; [reflexivity|].
  rewrite put_cons. cbn [J map2 nth]. fold (J gs (put k x p) t) (J gs p t). rewrite put_cons. f_equal. apply IH; simpl in *; lia.
Qed.
Lemma clamp_mono a b x x' : x <= x' -> clamp a b x <= clamp a b x'.
Proof. intros H. unfold clamp. apply Rle_max_compat_l, Rle_min_compat_l, H. Qed.

(** From neighbouring indices to all pairs. *)
Lemma tele (g : list R) (N : nat -> R) m M : (forall i, (S i < length g)%nat -> m * (nth (S i) g 0 - nth i g 0) <= N (S i) - N i <= M * (nth (S i) g 0 - nth i g 0)) ->
  forall i i', (i <= i' < length g)%nat -> m * (nth i' g 0 - nth i g 0) <= N i' - N i <= M * (nth i' g 0 - nth i g 0).
Proof.
  intros H i i' [Hi Hl]. induction Hi as [|i' Hi IH]; [lra|]. specialize (IH ltac:(lia)). specialize (H i' Hl). lra.
Qed.
(** The general principle: two integrands whose differences are controlled by those of the coordinates. *)
Lemma int_slope (e e' : R -> R) g x x' m M v v' : good_axis g -> is_RInt e 0 1 v -> is_RInt e' 0 1 v' ->
  (forall t, m * (nth (jx g x' t) g 0 - nth (jx g x t) g 0) <= e' t - e t <= M * (nth (jx g x' t) g 0 - nth (jx g x t) g 0)) ->
  m * (onto g x' - onto g x) <= v' - v <= M * (onto g x' - onto g x).
Proof.
  intros Hg A B H.
  assert (I : forall u, is_RInt (fun t => nth (jx g u t) g 0) 0 1 (onto g u)).
  { intros u. eapply int_eq; [apply (jx_int g u (fun i => nth i g 0) Hg)|]. apply (rop_affine g u (fun w => w) Hg). intros; ring. }
  pose proof (is_RInt_minus (V := R_NormedModule) _ _ _ _ _ _ B A) as C.
  assert (S : forall c, is_RInt (fun t => c * (nth (jx g x' t) g 0 - nth (jx g x t) g 0)) 0 1 (c * (onto g x' - onto g x))).
  { intros c. apply (is_RInt_scal (V := R_NormedModule) (fun t => nth (jx g x' t) g 0 - nth (jx g x t) g 0)). apply (is_RInt_minus (V := R_NormedModule)); apply I. }
  split; [apply (is_RInt_le _ _ 0 1 _ _ ltac:(lra) (S m) C)|apply (is_RInt_le _ _ 0 1 _ _ ltac:(lra) C (S M))]; intros t _; destruct (H t); assumption.
Qed.
Lemma rop_slope g N x x' m M : good_axis g -> x <= x' ->
  (forall i, (S i < length g)%nat -> m * (nth (S i) g 0 - nth i g 0) <= N (S i) - N i <= M * (nth (S i) g 0 - nth i g 0)) ->
  m * (onto g x' - onto g x) <= rop g x' N - rop g x N <= M * (onto g x' - onto g x).
Proof.
  intros Hg Hx H. apply (int_slope (fun t => N (jx g x t)) (fun t => N (jx g x' t)) g x x' m M); auto using jx_int.
  intros t. apply (tele g N m M H). split; [now apply jx_mono|now apply jx_lt].
Qed.
Lemma simplex_slope : forall bm gs data s k m M p x x', good_axes gs -> length data = count (map (@length R) gs) -> length p = length gs -> sorts_axes s ->
  (k < length gs)%nat -> slopes gs data k m M -> x <= x' ->
  let g := nth k gs [] in
  exists v v', interp_simplex bm gs data (put k x p) s = Ok v /\ interp_simplex bm gs data (put k x' p) s = Ok v' /\
    m * (onto g x' - onto g x) <= v' - v <= M * (onto g x' - onto g x).
Proof.
  intros bm gs data s k m M p x x' Hg Hd Hp Hs Hk HS Hx g. pose proof (good_nth gs k Hg Hk) as Gg. fold g in Gg.
  destruct (simplex_int bm gs data (put k x p) s Hg ltac:(rewrite put_length; lia) Hd Hs) as (v & E & I).
  destruct (simplex_int bm gs data (put k x' p) s Hg ltac:(rewrite put_length; lia) Hd Hs) as (v' & E' & I').
  exists v, v'. split; [exact E|]. split; [exact E'|]. apply (int_slope _ _ g x x' m M v v' Gg I I'). intros t. cbv beta. rewrite !J_put by lia. fold g.
  apply (tele g (fun i => element (map (@length R) gs) data (put k i (J gs p t))) m M).
  - intros i Hi. apply HS; [now apply J_in|exact Hi].
  - split; [now apply jx_mono|now apply jx_lt].
Qed.

Lemma rop_sub g x h h' : good_axis g -> rop g x h' - rop g x h = rop g x (fun i => h' i - h i).
Proof. intros Hg. destruct (rop_cases g x Hg) as [[A B]|[[A B]|(j & Hj & A & B)]]; rewrite !B; ring. Qed.
Lemma nest_range : forall gs, good_axes gs -> forall p h h' m M, length p = length gs ->
  (forall idx, in_extents (map (@length R) gs) idx -> m <= h' idx - h idx <= M) -> m <= nest (map2 rop gs p) h' - nest (map2 rop gs p) h <= M.
Proof.
  induction 1 as [|g gs Hg Hgs IH]; intros [|x p] h h' m M Hp H; try discriminate; cbn [map2 nest].
  - apply H. constructor.
  - rewrite rop_sub by exact Hg. apply rop_range; [exact Hg|]. intros i Hi. apply IH; [simpl in Hp; lia|]. intros idx Hx. apply H. constructor; auto.
Qed.
Lemma extents_zero gs : good_axes gs -> in_extents (map (@length R) gs) (map (fun _ => 0%nat) gs).
Proof. induction 1 as [|g gs Hg H IH]; constructor; auto. now apply good_axis_length. Qed.
Lemma nest_slope : forall gs, good_axes gs -> forall k p h m M x x', (k < length gs)%nat -> length p = length gs -> x <= x' ->
  (forall idx i, in_extents (map (@length R) gs) idx -> (S i < length (nth k gs []))%nat ->
    m * (nth (S i) (nth k gs []) 0 - nth i (nth k gs []) 0) <= h (put k (S i) idx) - h (put k i idx) <= M * (nth (S i) (nth k gs []) 0 - nth i (nth k gs []) 0)) ->
  m * (onto (nth k gs []) x' - onto (nth k gs []) x) <= nest (map2 rop gs (put k x' p)) h - nest (map2 rop gs (put k x p)) h <= M * (onto (nth k gs []) x' - onto (nth k gs []) x).
Proof.
  induction 1 as [|g gs Hg Hgs IH]; intros k [|y p] h m M x x' Hk Hp Hx H; simpl in Hk; try lia; try discriminate. destruct k as [|k].
  - change (put 0 x' (y :: p)) with (x' :: p). change (put 0 x (y :: p)) with (x :: p). cbn [map2 nest nth].
    apply rop_slope; [exact Hg|exact Hx|]. intros i Hi. apply nest_range; [exact Hgs|simpl in Hp; lia|]. intros idx Hidx.
    apply (H (0%nat :: idx) i); [|exact Hi]. constructor; [|exact Hidx]. now apply good_axis_length.
  - rewrite !put_cons. cbn [map2 nest nth]. rewrite rop_sub by exact Hg. apply rop_range; [exact Hg|]. intros i Hi.
    apply (IH k p (fun is => h (i :: is))); [lia|simpl in Hp; lia|exact Hx|]. intros idx j Hidx Hj. apply (H (i :: idx) j); [|exact Hj]. constructor; auto.
Qed.
Lemma grid_slope : forall bm gs a k m M p x x', good_axes gs -> length (nd_flat a) = count (map (@length R) gs) -> length p = length gs ->
  (k < length gs)%nat -> slopes gs (nd_flat a) k m M -> x <= x' ->
  let g := nth k gs [] in
  exists o v v', rgi_make gs a = Ok o /\ rgi_interp bm o (put k x p) false = Ok v /\ rgi_interp bm o (put k x' p) false = Ok v' /\
    m * (onto g x' - onto g x) <= v' - v <= M * (onto g x' - onto g x).
Proof.
  intros bm gs a k m M p x x' Hg Hd Hp Hk HS Hx g. do 3 eexists. split; [now apply rgi_make_ok|].
  split; [apply interp_live; auto; rewrite put_length; lia|]. split; [apply interp_live; auto; rewrite put_length; lia|].
  apply nest_slope; auto.
Qed.

(** *** Several coordinates at once *)
Lemma chain : forall Ks (Phi : list R -> R),
  (forall k q x x', (k < length Ks)%nat -> length q = length Ks -> Rabs (Phi (put k x q) - Phi (put k x' q)) <= nth k Ks 0 * Rabs (x - x')) ->
  forall p p', length p = length Ks -> length p' = length Ks -> Rabs (Phi p - Phi p') <= total (fun K d => K * d) Ks (apart p p').
Proof.
  induction Ks as [|K Ks IH]; intros Phi H [|x p] [|x' p'] Hp Hp'; try discriminate.
  - rewrite Rminus_diag_eq, Rabs_R0 by reflexivity. right. reflexivity.
  - change (Rabs (Phi (x :: p) - Phi (x' :: p')) <= K * Rabs (x - x') + total (fun K d => K * d) Ks (apart p p')).
    replace (Phi (x :: p) - Phi (x' :: p')) with ((Phi (x :: p) - Phi (x' :: p)) + (Phi (x' :: p) - Phi (x' :: p'))) by ring.
    apply Rle_trans with (1 := Rabs_triang _ _). apply Rplus_le_compat.
    + apply (H 0%nat (x :: p) x x'); [simpl; lia|exact Hp].
    + apply (IH (fun q => Phi (x' :: q))); [|simpl in *; lia|simpl in *; lia].
      intros k q u u' Hk Hq. apply (H (S k) (x' :: q) u u'); simpl; lia.
Qed.
Lemma slope_abs a b K x x' v v' : 0 <= K ->
  (x <= x' -> - K * (clamp a b x' - clamp a b x) <= v' - v <= K * (clamp a b x' - clamp a b x)) ->
  (x' <= x -> - K * (clamp a b x - clamp a b x') <= v - v' <= K * (clamp a b x - clamp a b x')) -> Rabs (v - v') <= K * Rabs (x - x').
Proof.
  intros HK A B. pose proof (clamp_lip a b x x') as L. pose proof (Rmult_le_compat_l K _ _ HK L) as L'. apply Rle_trans with (2 := L').
  destruct (Rle_dec x x') as [C|C].
  - pose proof (clamp_mono a b x x' C). specialize (A C). rewrite (Rabs_left1 (clamp a b x - clamp a b x')) by lra. apply Rabs_le. lra.
  - pose proof (clamp_mono a b x' x ltac:(lra)). specialize (B ltac:(lra)). rewrite (Rabs_pos_eq (clamp a b x - clamp a b x')) by lra. apply Rabs_le. lra.
Qed.
Lemma grid_lipschitz : forall bm gs a Ks p p', good_axes gs -> length (nd_flat a) = count (map (@length R) gs) -> length Ks = length gs -> length p = length gs -> length p' = length gs ->
  List.Forall (fun K => 0 <= K) Ks -> (forall k, (k < length gs)%nat -> slopes gs (nd_flat a) k (- nth k Ks 0) (nth k Ks 0)) ->
  exists o v v', rgi_make gs a = Ok o /\ rgi_interp bm o p false = Ok v /\ rgi_interp bm o p' false = Ok v' /\ Rabs (v - v') <= total (fun K d => K * d) Ks (apart p p').
Proof.
  intros bm gs a Ks p p' Hg Hd LK Hp Hp' PK HS. do 3 eexists. split; [now apply rgi_make_ok|]. split; [now apply interp_live|]. split; [now apply interp_live|].
  apply (chain Ks (fun q => nest (map2 rop gs q) (element (map (@length R) gs) (nd_flat a)))); [|lia|lia].
  intros k q x x' Hk Hq. rewrite LK in Hk, Hq. assert (K0 : 0 <= nth k Ks 0) by (rewrite List.Forall_forall in PK; apply PK, nth_In; lia).
  apply (slope_abs (first (nth k gs [])) (final (nth k gs []))); [exact K0| |]; intros Hx; apply (nest_slope gs Hg k q _ (- nth k Ks 0) (nth k Ks 0)); auto; intros idx i; apply (HS k Hk).
Qed.
Lemma simplex_lipschitz : forall bm gs data s Ks p p', good_axes gs -> length data = count (map (@length R) gs) -> sorts_axes s -> length Ks = length gs -> length p = length gs -> length p' = length gs ->
  List.Forall (fun K => 0 <= K) Ks -> (forall k, (k < length gs)%nat -> slopes gs data k (- nth k Ks 0) (nth k Ks 0)) ->
  exists v v', interp_simplex bm gs data p s = Ok v /\ interp_simplex bm gs data p' s = Ok v' /\ Rabs (v - v') <= total (fun K d => K * d) Ks (apart p p').
Proof.
  intros bm gs data s Ks p p' Hg Hd Hs LK Hp Hp' PK HS.
  set (Phi := fun q => match interp_simplex bm gs data q s with Ok v => v | _ => 0 end).
  assert (C : Rabs (Phi p - Phi p') <= total (fun K d => K * d) Ks (apart p p')).
  { apply (chain Ks Phi); [|lia|lia]. intros k q x x' Hk Hq. rewrite LK in Hk, Hq.
    assert (K0 : 0 <= nth k Ks 0) by (rewrite List.Forall_forall in PK; apply PK, nth_In; lia).
    apply (slope_abs (first (nth k gs [])) (final (nth k gs []))); [exact K0| |]; intros Hx; unfold Phi.
    - destruct (simplex_slope bm gs data s k _ _ q x x' Hg Hd Hq Hs Hk (HS k Hk) Hx) as (v & v' & -> & -> & B). exact B.
    - destruct (simplex_slope bm gs data s k _ _ q x' x Hg Hd Hq Hs Hk (HS k Hk) Hx) as (v & v' & -> & -> & B). exact B. }
  destruct (simplex_int bm gs data p s Hg Hp Hd Hs) as (v & E & _). destruct (simplex_int bm gs data p' s Hg Hp' Hd Hs) as (v' & E' & _).
  exists v, v'. split; [exact E|]. split; [exact E'|]. unfold Phi in C. rewrite E, E' in C. exact C.
Qed.
