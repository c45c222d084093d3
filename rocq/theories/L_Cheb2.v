(** Discrete orthogonality, interpolation and exactness of Chebyshev series. *)
From Coq Require Import List Arith ZArith Reals Lra Lia Bool.
From Verif Require Import Outcome Num NumFun M_Series S_Series L_Series M_Cheb S_Cheb L_Cheb.
Import ListNotations.
Local Open Scope R_scope.

(** *** Angles of the nodes *)
Definition theta (n r : nat) : R := PI * (2 * INR r + 1) / (2 * (INR n + 1)).
Lemma npos n : 0 < INR n + 1.
Proof. pose proof (pos_INR n). lra. Qed.
Lemma cheb_node_ok n r : cheb_node n r = node n r.
Proof.
  unfold cheb_node, node. rn. rewrite <- !INR_IZR_INZ. f_equal. pose proof (npos n). field. lra.
Qed.
Lemma theta_bounds n r : (r < n + 1)%nat -> 0 < theta n r < PI.
Proof.
  intros H. unfold theta. pose proof (npos n) as P. pose proof PI_RGT_0 as Q. pose proof (pos_INR r).
  assert (INR r <= INR n) by (apply le_INR; lia).
  set (k := 2 * INR r + 1). assert (0 < k < 2 * (INR n + 1)) by (unfold k; lra).
  split.
  - apply Rmult_lt_0_compat; [nra|]. apply Rinv_0_lt_compat. lra.
  - apply (Rmult_lt_reg_r (2 * (INR n + 1))); [lra|]. unfold Rdiv. rewrite Rmult_assoc, Rinv_l by lra. nra.
Qed.

(** Dirichlet kernel. *)
Definition dirichlet (n : nat) (phi : R) : R := 1 + 2 * bsum n (fun i => cos (INR (S i) * phi)).
Lemma dirichlet_sin n phi : dirichlet n phi * sin (phi / 2) = sin ((INR n + / 2) * phi).
Proof.
  unfold dirichlet. induction n as [|n IH].
  - simpl. rewrite Rmult_0_r, Rplus_0_r, Rmult_1_l. f_equal. field.
  - cbn [bsum].
    replace ((1 + 2 * (bsum n (fun i => cos (INR (S i) * phi)) + cos (INR (S n) * phi))) * sin (phi / 2))
      with ((1 + 2 * bsum n (fun i => cos (INR (S i) * phi))) * sin (phi / 2) + 2 * cos (INR (S n) * phi) * sin (phi / 2)) by ring.
    rewrite IH, S_INR.
    replace ((INR n + / 2) * phi) with ((INR n + 1) * phi - phi / 2) by field.
    replace ((INR n + 1 + / 2) * phi) with ((INR n + 1) * phi + phi / 2) by field.
    rewrite sin_plus, sin_minus. ring.
Qed.
Lemma dirichlet_at n phi k : (INR n + 1) * phi = IZR k * PI -> sin (phi / 2) <> 0 ->
  dirichlet n phi = - cos (IZR k * PI).
Proof.
  intros H Hs. apply (Rmult_eq_reg_r (sin (phi / 2))); [|exact Hs].
  rewrite dirichlet_sin. replace ((INR n + / 2) * phi) with (IZR k * PI - phi / 2) by (rewrite <- H; field).
  rewrite sin_minus, (sin_eq_0_1 (IZR k * PI)) by eauto. ring.
Qed.
Lemma dirichlet_0 n : dirichlet n 0 = 2 * INR n + 1.
Proof.
  unfold dirichlet.
  rewrite (bsum_ext n _ (fun _ => 1)) by (intros; now rewrite Rmult_0_r, cos_0).
  enough (bsum n (fun _ => 1) = INR n) as -> by ring.
  induction n as [|n IH]; [reflexivity|]. cbn [bsum]. rewrite IH, S_INR. reflexivity.
Qed.

(** The kernel of the interpolation operator. *)
Definition kern (n r : nat) (u : R) : R := bsum (n + 1) (fun i => weight n i * cheb i (node n r) * cheb i u).
Lemma kern_dirichlet n r s :
  kern n r (node n s) = (dirichlet n (theta n r + theta n s) + dirichlet n (theta n r - theta n s)) / (2 * (INR n + 1)).
Proof.
  unfold kern, dirichlet. rewrite Nat.add_1_r, bsum_shift. pose proof (npos n).
  rewrite (bsum_ext n _ (fun i => / (INR n + 1) * (cos (INR (S i) * (theta n r + theta n s)) + cos (INR (S i) * (theta n r - theta n s))))).
  - rewrite bsum_scal, bsum_plus. simpl (weight _ _). simpl (cheb 0 _). field. lra.
  - intros i _. unfold node. fold (theta n r) (theta n s). rewrite !cheb_cos.
    rewrite (Rmult_plus_distr_l (INR (S i)) (theta n r)), (Rmult_minus_distr_l (INR (S i)) (theta n r)), cos_plus, cos_minus. simpl (weight _ _). field. lra.
Qed.
Lemma sin_half_pos x : 0 < x < 2 * PI -> sin (x / 2) <> 0.
Proof. intros H. apply Rgt_not_eq, sin_gt_0; lra. Qed.
Lemma kern_node n r s : (r < n + 1)%nat -> (s < n + 1)%nat ->
  kern n r (node n s) = if (r =? s)%nat then 1 else 0.
Proof.
  intros Hr Hs. rewrite kern_dirichlet. pose proof (npos n).
  pose proof (theta_bounds n r Hr). pose proof (theta_bounds n s Hs).
  rewrite (dirichlet_at n (theta n r + theta n s) (Z.of_nat r + Z.of_nat s + 1)).
  2:{ rewrite !plus_IZR, <- !INR_IZR_INZ. unfold theta. field. lra. }
  2:{ apply sin_half_pos. lra. }
  destruct (Nat.eqb_spec r s) as [<-|N].
  - replace (theta n r - theta n r) with 0 by ring. rewrite dirichlet_0.
    replace (IZR (Z.of_nat r + Z.of_nat r + 1) * PI) with (PI + 2 * INR r * PI)
      by (rewrite !plus_IZR, <- !INR_IZR_INZ; ring).
    rewrite cos_period, cos_PI. field. lra.
  - rewrite (dirichlet_at n (theta n r - theta n s) (Z.of_nat r - Z.of_nat s)).
    2:{ rewrite minus_IZR, <- !INR_IZR_INZ. unfold theta. field. lra. }
    2:{ assert (theta n r <> theta n s).
        { unfold theta. intros E. apply N, INR_eq. pose proof PI_RGT_0.
          apply (Rmult_eq_reg_r (/ (2 * (INR n + 1)))) in E; [|apply Rinv_neq_0_compat; lra].
          apply (Rmult_eq_reg_l PI) in E; lra. }
        destruct (Rle_or_lt (theta n s) (theta n r)).
        - apply sin_half_pos. lra.
        - replace ((theta n r - theta n s) / 2) with (- ((theta n s - theta n r) / 2)) by field.
          rewrite sin_neg. apply Ropp_neq_0_compat, sin_half_pos. lra. }
    replace (IZR (Z.of_nat r + Z.of_nat s + 1) * PI) with (IZR (Z.of_nat r - Z.of_nat s) * PI + PI + 2 * INR s * PI)
      by (rewrite !plus_IZR, minus_IZR, <- !INR_IZR_INZ; ring).
    rewrite cos_period, neg_cos. field. lra.
Qed.
Lemma bsum_delta n f r : (r < n)%nat -> bsum n (fun i => f i * (if (i =? r)%nat then 1 else 0)) = f r.
Proof.
  induction n as [|n IH]; intros H; [lia|]. cbn [bsum].
  destruct (Nat.eqb_spec n r) as [<-|N].
  - rewrite (bsum_ext n _ (fun _ => 0)), bsum_0; [ring|].
    intros i Hi. destruct (Nat.eqb_spec i n); [lia|ring].
  - rewrite IH by lia. ring.
Qed.
Lemma interp_node n (F : nat -> R) s : (s < n + 1)%nat ->
  bsum (n + 1) (fun r => F r * kern n r (node n s)) = F s.
Proof.
  intros H. rewrite <- (bsum_delta (n + 1) F s H). apply bsum_ext. intros r Hr. now rewrite kern_node.
Qed.
Lemma node_inj n r s : (r < n + 1)%nat -> (s < n + 1)%nat -> node n r = node n s -> r = s.
Proof.
  intros Hr Hs E. pose proof (kern_node n r r Hr Hr) as A. pose proof (kern_node n r s Hr Hs) as B.
  rewrite Nat.eqb_refl in A. rewrite <- E, A in B. destruct (Nat.eqb_spec r s); [auto|lra].
Qed.
Lemma node_lt_1 n r : (r < n + 1)%nat -> -1 < node n r < 1.
Proof.
  intros H. pose proof (theta_bounds n r H). unfold node. fold (theta n r).
  rewrite <- cos_0, <- cos_PI. pose proof PI_RGT_0.
  split; apply cos_decreasing_1; lra.
Qed.

(** *** Polynomials are determined by their values *)
Definition isp (N : nat) (F : R -> R) : Prop := exists g, forall u, F u = pvf N g u.
Lemma pvf_shift N g x : pvf (S N) g x = g 0%nat + x * pvf N (fun i => g (S i)) x.
Proof.
  unfold pvf. rewrite bsum_shift, <- bsum_scal. simpl (x ^ 0). rewrite Rmult_1_r. f_equal.
  apply bsum_ext. intros. simpl. ring.
Qed.
Lemma pvf_div N : forall g a, exists h, forall x, pvf (S N) g x = pvf (S N) g a + (x - a) * pvf N h x.
Proof.
  induction N as [|N IH]; intros g a.
  - exists (fun _ => 0). intros x. unfold pvf. simpl. ring.
  - destruct (IH (fun i => g (S i)) a) as [h Hh].
    exists (fun i => match i with O => pvf (S N) (fun i => g (S i)) a | S j => h j end).
    intros x. rewrite (pvf_shift (S N) g x), (pvf_shift (S N) g a), (Hh x), (pvf_shift N _ x).
    cbv beta iota. change (fun i => h i) with h. ring.
Qed.
Lemma pvf_roots N : forall g (pt : nat -> R),
  (forall r s, (r < N)%nat -> (s < N)%nat -> pt r = pt s -> r = s) ->
  (forall r, (r < N)%nat -> pvf N g (pt r) = 0) -> forall x, pvf N g x = 0.
Proof.
  induction N as [|N IH]; intros g pt Hd Hz x; [reflexivity|].
  destruct (pvf_div N g (pt N)) as [h Hh].
  assert (Z : forall y, pvf N h y = 0).
  { apply (IH h pt); [intros; apply Hd; auto with arith|].
    intros r Hr. assert (pt r <> pt N) by (intros E; apply Hd in E; lia).
    assert (E : (pt r - pt N) * pvf N h (pt r) = 0) by (rewrite <- (Hz r) by lia; rewrite (Hh (pt r)), (Hz N) by lia; ring).
    apply Rmult_integral in E as [E|E]; [lra|exact E]. }
  rewrite Hh, Z, Hz by lia. ring.
Qed.
Lemma isp_plus N F G : isp N F -> isp N G -> isp N (fun u => F u + G u).
Proof.
  intros [f Hf] [g Hg]. exists (fun i => f i + g i). intros u. rewrite Hf, Hg. unfold pvf.
  rewrite <- bsum_plus. apply bsum_ext. intros. ring.
Qed.
Lemma isp_scal N a F : isp N F -> isp N (fun u => a * F u).
Proof. intros [f Hf]. exists (fun i => a * f i). intros u. now rewrite Hf, pvf_scal. Qed.
Lemma isp_bsum N M (F : nat -> R -> R) : (forall i, (i < M)%nat -> isp N (F i)) -> isp N (fun u => bsum M (fun i => F i u)).
Proof.
  induction M as [|M IH]; intros H.
  - exists (fun _ => 0). intros u. unfold pvf. simpl.
    rewrite (bsum_ext N _ (fun _ => 0)), bsum_0; auto. intros; ring.
  - cbn [bsum]. apply isp_plus; auto with arith.
Qed.
Lemma isp_ext N F G : (forall u, F u = G u) -> isp N G -> isp N F.
Proof. intros E [g H]. exists g. intros u. now rewrite E. Qed.
Lemma isp_cheb N i : (i < N)%nat -> isp N (cheb i).
Proof. intros H. exists (tcz i). intros u. now apply cheb_poly_gen. Qed.
Lemma isp_mono N i : (i < N)%nat -> isp N (fun u => u ^ i).
Proof.
  intros H. exists (fun j => if (j =? i)%nat then 1 else 0). intros u. unfold pvf.
  rewrite <- (bsum_delta N (fun j => u ^ j) i H). apply bsum_ext. intros. ring.
Qed.
(** Composition with an affine map. *)
Lemma isp_affine N : forall g a b, isp N (fun u => pvf N g (a * u + b)).
Proof.
  induction N as [|N IH]; intros g a b.
  - exists (fun _ => 0). reflexivity.
  - destruct (IH (fun i => g (S i)) a b) as [h Hh].
    exists (fun i => (match i with O => g 0%nat | S j => a * h j end) + b * (if (i <? N)%nat then h i else 0)).
    intros u. rewrite pvf_shift, Hh. unfold pvf at 2.
    rewrite (bsum_ext (S N) _ (fun i => (match i with O => g 0%nat | S j => a * h j end) * u ^ i + b * ((if (i <? N)%nat then h i else 0) * u ^ i)))
      by (intros; ring).
    rewrite bsum_plus, bsum_scal, bsum_shift. cbn [bsum]. rewrite (proj2 (Nat.ltb_ge N N)) by lia.
    rewrite (bsum_ext N (fun i => (if (i <? N)%nat then h i else 0) * u ^ i) (fun i => h i * u ^ i))
      by (intros i Hi; rewrite (proj2 (Nat.ltb_lt i N)) by lia; reflexivity).
    rewrite (bsum_ext N (fun i => a * h i * u ^ S i) (fun i => a * u * (h i * u ^ i))) by (intros; simpl; ring).
    rewrite bsum_scal. unfold pvf. simpl. ring.
Qed.
Lemma isp_unique n F G : isp (n + 1) F -> isp (n + 1) G ->
  (forall r, (r < n + 1)%nat -> F (node n r) = G (node n r)) -> forall u, F u = G u.
Proof.
  intros HF HG HE u.
  destruct (isp_plus _ _ _ HF (isp_scal _ (-1) _ HG)) as [g Hg].
  enough (F u + -1 * G u = 0) by lra. rewrite Hg. apply (pvf_roots (n + 1) g (node n)).
  - intros; now apply (node_inj n).
  - intros r Hr. rewrite <- Hg, HE by assumption. ring.
Qed.
Lemma interp_isp n F : isp (n + 1) F -> forall u,
  bsum (n + 1) (fun r => F (node n r) * kern n r u) = F u.
Proof.
  intros HF. apply (isp_unique n); auto.
  - apply isp_bsum. intros r _. apply isp_scal. unfold kern. apply isp_bsum. intros i Hi.
    apply isp_scal. now apply isp_cheb.
  - intros s Hs. now apply (interp_node n (fun r => F (node n r))).
Qed.

(** *** Axes *)
Definition seg (a : axis R) (n r : nat) : R := to_segment a (node n r).
Lemma unit_of_ok a x : regular a x -> to_unit a x = unit_of a x.
Proof.
  destruct a; intros H; [now apply to_unit_closed|apply to_unit_opened].
Qed.
Lemma seg_node a n r : axis_valid a -> (r < n + 1)%nat -> regular a (seg a n r) /\ unit_of a (seg a n r) = node n r.
Proof.
  intros Ha Hr. pose proof (node_lt_1 n r Hr). unfold seg. destruct a as [lo hi|lo]; cbn [axis_valid] in Ha.
  - split; [exact Ha|]. unfold to_segment, unit_of, segment_unit. rn. field. lra.
  - unfold to_segment, unit_of, halfline_unit, regular. rn.
    assert (0 < lo / (1 - node n r)) by (apply Rmult_lt_0_compat; [lra|apply Rinv_0_lt_compat; lra]).
    split; [lra|]. field. lra.
Qed.
Lemma seg_unique a n r x : axis_valid a -> is_node a n r x -> (r < n + 1)%nat -> x = seg a n r.
Proof.
  intros Ha [Hx Hu] Hr. destruct (seg_node a n r Ha Hr) as [Hs E]. rewrite <- E in Hu. clear E.
  revert Hs Hu. generalize (seg a n r) as y. intros y Hy Hu.
  destruct a as [lo hi|lo]; cbn in *.
  - unfold segment_unit in Hu. apply Rmult_eq_reg_r in Hu; [lra|apply Rinv_neq_0_compat; lra].
  - unfold halfline_unit in Hu.
    assert (E : 2 * lo / x = 2 * lo / y) by lra. unfold Rdiv in E. apply Rmult_eq_reg_l in E; [|lra].
    rewrite <- (Rinv_inv x), E, Rinv_inv. reflexivity.
Qed.
Lemma poly_var_affine a : axis_valid a -> exists al be,
  forall x, regular a x -> poly_var a x = al * unit_of a x + be.
Proof.
  destruct a as [lo hi|lo]; cbn; intros H.
  - exists ((hi - lo) / 2), ((hi + lo) / 2). intros x _. unfold segment_unit. field. lra.
  - exists (- / (2 * lo)), (/ (2 * lo)). intros x Hx. unfold halfline_unit. field. lra.
Qed.
(** Exactness along one axis. *)
Lemma exact1 a n g x : axis_valid a -> regular a x ->
  bsum (n + 1) (fun r => bsum (n + 1) (fun i => g i * poly_var a (seg a n r) ^ i) * kern n r (unit_of a x)) =
  bsum (n + 1) (fun i => g i * poly_var a x ^ i).
Proof.
  intros Ha Hx. destruct (poly_var_affine a Ha) as (al & be & H).
  rewrite (bsum_ext (n + 1) _ (fun r => pvf (n + 1) g (al * node n r + be) * kern n r (unit_of a x))).
  - rewrite (interp_isp n (fun u => pvf (n + 1) g (al * u + be)) (isp_affine _ _ _ _)).
    unfold pvf. now rewrite <- H.
  - intros r Hr. destruct (seg_node a n r Ha Hr) as [E1 E2]. f_equal. unfold pvf. rewrite H, E2 by exact E1. reflexivity.
Qed.
