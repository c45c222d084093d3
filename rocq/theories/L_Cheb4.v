(** Conversion of Chebyshev series to power series; repeated computations. *)
From Coq Require Import List Arith ZArith Reals Lra Lia Bool.
From Verif Require Import Outcome Num NumFun M_Series S_Series L_Series M_Cheb S_Cheb L_Cheb L_Cheb2 L_Cheb3.
Import ListNotations.
Local Open Scope R_scope.

(** *** Conversion *)
Lemma from_tcz i n (c : nat -> R) : (i < n + 1)%nat ->
  acc_loop_from i n 0 (fun r => c r * transformation_coefficient r i) = bsum (n + 1) (fun r => c r * tcz r i).
Proof.
  intros H. rewrite acc_from_ok by lia. apply bsum_ext. intros r _. unfold tcz.
  destruct (i <=? r)%nat; ring.
Qed.
Lemma conv n (c : nat -> R) u :
  bsum (n + 1) (fun i => bsum (n + 1) (fun r => c r * tcz r i) * u ^ i) = bsum (n + 1) (fun r => c r * cheb r u).
Proof.
  rewrite (bsum_ext (n + 1) (fun r => c r * cheb r u) (fun r => bsum (n + 1) (fun i => c r * tcz r i * u ^ i))).
  - rewrite bsum_swap. apply bsum_ext. intros i _. now rewrite bsum_scal_r.
  - intros r Hr. rewrite (cheb_poly_gen r (n + 1) u) by lia. unfold pvf. rewrite <- bsum_scal.
    apply bsum_ext. intros. ring.
Qed.
Lemma bi1 s : (c1_n s <= 18)%nat -> exists b, cs1_compute_bi s = Ok b /\ length b = (c1_n s + 1)%nat /\
  forall x, ps1_evaluate (mkPS1 b (c1_x s)) x = Ok (cs1_evaluate s x).
Proof.
  intros H. unfold cs1_compute_bi. rewrite (proj2 (Nat.ltb_ge 18 _)) by exact H.
  eexists. split; [reflexivity|]. split; [now rewrite map_length, seq_length|].
  intros x. unfold ps1_evaluate. cbn [p1_b p1_x]. rewrite horner_seq by lia. f_equal.
  rewrite eval1, <- conv. unfold pvf. apply bsum_ext. intros i Hi. f_equal. now apply from_tcz.
Qed.
Lemma bi1_exit s : (18 < c1_n s)%nat -> cs1_compute_bi s = Exit 0.
Proof. intros H. unfold cs1_compute_bi. now rewrite (proj2 (Nat.ltb_lt 18 _)). Qed.

Lemma from_sum i n (G : nat -> R) (c : nat -> R) : (i < n + 1)%nat ->
  (forall r, (r < n + 1)%nat -> G r = c r * transformation_coefficient r i) ->
  acc_loop_from i n 0 G = bsum (n + 1) (fun r => c r * tcz r i).
Proof.
  intros H E. rewrite acc_from_ok by lia. apply bsum_ext. intros r Hr. unfold tcz.
  destruct (i <=? r)%nat; [now apply E|ring].
Qed.
Lemma bij s bm : (c2_m s <= 18)%nat -> (c2_n s <= 18)%nat ->
  exists b, cs2_compute_bij s = Ok b /\ m_rows b = (c2_m s + 1)%nat /\ m_cols b = (c2_n s + 1)%nat /\
  forall x y, ps2_evaluate bm (mkPS2 b (c2_x s) (c2_y s)) x y = Ok (cs2_evaluate s x y).
Proof.
  intros Hm Hn. unfold cs2_compute_bij. rewrite !(proj2 (Nat.ltb_ge 18 _)) by assumption. cbn [orb].
  eexists. split; [reflexivity|]. do 2 (split; [reflexivity|]). intros x y. unfold ps2_evaluate. cbn [p2_b p2_x p2_y].
  rewrite unit2_ok by (cbn [m_rows m_cols]; lia). cbn [m_rows m_cols m_at]. f_equal.
  set (u := to_unit (c2_x s) x). set (v := to_unit (c2_y s) y).
  unfold cs2_evaluate. rewrite clenshaw_sum_ok. fold u v.
  unfold val2. unfold pvf at 1. rewrite <- conv. apply bsum_ext. intros i Hi. f_equal.
  transitivity (pvf (c2_n s + 1) (fun j => bsum (c2_m s + 1) (fun r =>
     bsum (c2_n s + 1) (fun t => c2_a s r t * tcz t j) * tcz r i)) v).
  - apply pvf_ext. intros j Hj. apply from_sum; [assumption|]. intros r Hr.
    apply (f_equal (fun q => q * transformation_coefficient r i)). now apply (from_tcz j (c2_n s) (c2_a s r)).
  - unfold pvf. rewrite (bsum_ext _ _ (fun j => bsum (c2_m s + 1) (fun r => bsum (c2_n s + 1) (fun t => c2_a s r t * tcz t j) * v ^ j * tcz r i))).
    + rewrite bsum_swap. apply bsum_ext. intros r _. rewrite bsum_scal_r. f_equal.
      rewrite clenshaw_sum_ok. apply conv.
    + intros j _. rewrite <- bsum_scal_r. apply bsum_ext. intros. ring.
Qed.
Lemma bij_exit s : (18 < c2_m s)%nat \/ (18 < c2_n s)%nat -> cs2_compute_bij s = Exit 0.
Proof.
  intros H. unfold cs2_compute_bij.
  destruct (Nat.ltb_spec 18 (c2_m s)), (Nat.ltb_spec 18 (c2_n s)); cbn [orb]; try reflexivity; lia.
Qed.
Lemma bijk s bm : (c3_m s <= 18)%nat -> (c3_n s <= 18)%nat -> (c3_p s <= 18)%nat ->
  exists b t, cs3_compute_bijk s = Ok b /\ shaped b (c3_m s + 1) (c3_n s + 1) /\ length b = (c3_p s + 1)%nat /\
  ps3_make b (c3_x s) (c3_y s) (c3_z s) = Ok t /\
  forall x y z, ps3_evaluate bm t x y z = Ok (cs3_evaluate s x y z).
Proof.
  intros Hm Hn Hp. unfold cs3_compute_bijk. rewrite !(proj2 (Nat.ltb_ge 18 _)) by assumption. cbn [orb].
  match goal with |- context [Ok ?b = _] => set (b0 := b) end.
  assert (Hs : shaped b0 (c3_m s + 1) (c3_n s + 1)).
  { split; [lia|]. split; [lia|]. split.
    - unfold b0. destruct (c3_p s); discriminate.
    - unfold b0. apply Forall_forall. intros A HA. apply in_map_iff in HA as (k & <- & _). split; reflexivity. }
  exists b0, (mkPS3 b0 (c3_m s + 1) (c3_n s + 1) (c3_x s) (c3_y s) (c3_z s)).
  split; [reflexivity|]. split; [exact Hs|].
  assert (Hl : length b0 = (c3_p s + 1)%nat) by (unfold b0; now rewrite map_length, seq_length).
  split; [exact Hl|]. split; [now apply ps3_make_ok|]. intros x y z. unfold ps3_evaluate. cbn [p3_x p3_y p3_z].
  rewrite (ps3_eval_unit b0 (c3_m s + 1) (c3_n s + 1) Hs). f_equal.
  set (u := to_unit (c3_x s) x). set (v := to_unit (c3_y s) y). set (w := to_unit (c3_z s) z).
  rewrite (val3_sum b0 (c3_m s + 1) (c3_n s + 1)). rewrite Hl.
  unfold cs3_evaluate. rewrite clenshaw_sum_ok. fold u v w. rewrite <- conv.
  apply bsum_ext. intros i Hi.
  (* the i-th coefficient *)
  transitivity (bsum (c3_n s + 1) (fun j => bsum (c3_p s + 1) (fun k =>
    bsum (c3_m s + 1) (fun r => bsum (c3_n s + 1) (fun t => bsum (c3_p s + 1) (fun q => c3_a s q r t * tcz q k) * tcz t j) * tcz r i)
    * u ^ i * v ^ j * w ^ k))).
  - apply bsum_ext. intros j Hj. apply bsum_ext. intros k Hk. do 3 f_equal.
    unfold coef3, b0. rewrite nth_map_seq0 by exact Hk. cbn [m_at].
    apply from_sum; [assumption|]. intros r Hr.
    apply (f_equal (fun q => q * transformation_coefficient r i)). apply (from_sum j (c3_n s) _ (fun t => bsum (c3_p s + 1) (fun q => c3_a s q r t * tcz q k))); [assumption|]. intros t Ht.
    apply (f_equal (fun q => q * transformation_coefficient t j)). now apply (from_tcz k (c3_p s) (fun q => c3_a s q r t)).
  - transitivity (bsum (c3_n s + 1) (fun j => bsum (c3_p s + 1) (fun k => bsum (c3_m s + 1) (fun r =>
      bsum (c3_n s + 1) (fun t => bsum (c3_p s + 1) (fun q => c3_a s q r t * tcz q k) * w ^ k * tcz t j) * v ^ j * tcz r i * u ^ i)))).
    + apply bsum_ext. intros j _. apply bsum_ext. intros k _. rewrite <- !bsum_scal_r. apply bsum_ext. intros r _.
      replace (bsum (c3_n s + 1) (fun t => bsum (c3_p s + 1) (fun q => c3_a s q r t * tcz q k) * w ^ k * tcz t j))
        with (bsum (c3_n s + 1) (fun t => bsum (c3_p s + 1) (fun q => c3_a s q r t * tcz q k) * tcz t j) * w ^ k); [ring|].
      rewrite <- bsum_scal_r. apply bsum_ext. intros. ring.
    + rewrite swap_in. rewrite <- bsum_scal_r. apply bsum_ext. intros r _.
      rewrite clenshaw_sum_ok, <- conv.
      rewrite <- !bsum_scal_r. apply bsum_ext. intros j _.
      rewrite !bsum_scal_r. do 3 f_equal.
      rewrite bsum_swap. apply bsum_ext. intros t _. rewrite bsum_scal_r. f_equal.
      rewrite clenshaw_sum_ok. apply conv.
Qed.
Lemma bijk_exit s : (18 < c3_m s)%nat \/ (18 < c3_n s)%nat \/ (18 < c3_p s)%nat -> cs3_compute_bijk s = Exit 0.
Proof.
  intros H. unfold cs3_compute_bijk.
  destruct (Nat.ltb_spec 18 (c3_m s)), (Nat.ltb_spec 18 (c3_n s)), (Nat.ltb_spec 18 (c3_p s)); cbn [orb]; try reflexivity; lia.
Qed.

(** *** Repeated computations *)
Lemma iter_affine (A w : R) : forall k, Nat.iter k (fun a => (a + A) * w) 0 = A * bsum k (fun j => w ^ (S j)).
Proof.
  induction k as [|k IH]; [simpl; ring|].
  change (Nat.iter (S k) (fun a => (a + A) * w) 0) with ((Nat.iter k (fun a => (a + A) * w) 0 + A) * w).
  rewrite IH, bsum_shift. rewrite (bsum_ext k (fun j => w ^ S (S j)) (fun j => w ^ S j * w)) by (intros; simpl; ring).
  rewrite bsum_scal_r. simpl. ring.
Qed.
Lemma iter_S {A} k (F : A -> A) x : Nat.iter (S k) F x = F (Nat.iter k F x).
Proof. reflexivity. Qed.
Lemma rep1 f a n k i :
  c1_a (Nat.iter (S k) cs1_compute_ai (cs1_new f a n)) i =
  c1_a (cs1_compute_ai (cs1_new f a n)) i * bsum (S k) (fun j => weight n i ^ j).
Proof.
  set (A := bsum (n + 1) (fun r => f (seg a n r) * cheb i (node n r))).
  assert (H : forall k, c1_f (Nat.iter k cs1_compute_ai (cs1_new f a n)) = f /\
                        c1_x (Nat.iter k cs1_compute_ai (cs1_new f a n)) = a /\
                        c1_n (Nat.iter k cs1_compute_ai (cs1_new f a n)) = n /\
                        c1_a (Nat.iter k cs1_compute_ai (cs1_new f a n)) i = Nat.iter k (fun b => (b + A) * weight n i) 0).
  { intros q. induction q as [|q (H1 & H2 & H3 & H4)]; [repeat split; reflexivity|].
    rewrite !iter_S.
    set (s := Nat.iter q cs1_compute_ai (cs1_new f a n)) in *.
    repeat split; try assumption. rewrite coef1, H1, H2, H3. f_equal. f_equal. exact H4. }
  destruct (H (S k)) as (_ & _ & _ & ->). destruct (H 1%nat) as (_ & _ & _ & H').
  change (c1_a (cs1_compute_ai (cs1_new f a n)) i = (0 + A) * weight n i) in H'. rewrite H'.
  rewrite iter_affine. rewrite Rplus_0_l, Rmult_assoc. f_equal.
  rewrite <- bsum_scal. reflexivity.
Qed.
Lemma rep2 f ax ay m n k i j :
  c2_a (Nat.iter (S k) cs2_compute_aij (cs2_new f ax ay m n)) i j =
  c2_a (cs2_compute_aij (cs2_new f ax ay m n)) i j * bsum (S k) (fun l => (weight m i * weight n j) ^ l).
Proof.
  set (w := weight m i * weight n j).
  set (A := bsum (m + 1) (fun r => bsum (n + 1) (fun t =>
     f (seg ax m r) (seg ay n t) * cheb i (node m r) * cheb j (node n t)))).
  assert (H : forall k, c2_f (Nat.iter k cs2_compute_aij (cs2_new f ax ay m n)) = f /\
                        c2_x (Nat.iter k cs2_compute_aij (cs2_new f ax ay m n)) = ax /\
                        c2_y (Nat.iter k cs2_compute_aij (cs2_new f ax ay m n)) = ay /\
                        c2_m (Nat.iter k cs2_compute_aij (cs2_new f ax ay m n)) = m /\
                        c2_n (Nat.iter k cs2_compute_aij (cs2_new f ax ay m n)) = n /\
                        c2_a (Nat.iter k cs2_compute_aij (cs2_new f ax ay m n)) i j = Nat.iter k (fun b => (b + A) * w) 0).
  { intros q. induction q as [|q (H1 & H2 & H3 & H4 & H5 & H6)]; [repeat split; reflexivity|].
    rewrite !iter_S.
    set (s := Nat.iter q cs2_compute_aij (cs2_new f ax ay m n)) in *.
    repeat split; try assumption. rewrite coef2, H1, H2, H3, H4, H5. f_equal. f_equal. exact H6. }
  destruct (H (S k)) as (_ & _ & _ & _ & _ & ->). destruct (H 1%nat) as (_ & _ & _ & _ & _ & H').
  change (c2_a (cs2_compute_aij (cs2_new f ax ay m n)) i j = (0 + A) * w) in H'. rewrite H'.
  rewrite iter_affine. rewrite Rplus_0_l, Rmult_assoc. f_equal.
  rewrite <- bsum_scal. reflexivity.
Qed.
Lemma rep3 f ax ay az m n p k l i j :
  c3_a (Nat.iter (S k) cs3_compute_aijk (cs3_new f ax ay az m n p)) l i j =
  c3_a (cs3_compute_aijk (cs3_new f ax ay az m n p)) l i j * bsum (S k) (fun q => (weight m i * weight n j * weight p l) ^ q).
Proof.
  set (w := weight m i * weight n j * weight p l).
  set (A := bsum (m + 1) (fun r => bsum (n + 1) (fun t => bsum (p + 1) (fun q =>
     f (seg ax m r) (seg ay n t) (seg az p q)
     * cheb i (node m r) * cheb j (node n t) * cheb l (node p q))))).
  assert (H : forall k, c3_f (Nat.iter k cs3_compute_aijk (cs3_new f ax ay az m n p)) = f /\
                        c3_x (Nat.iter k cs3_compute_aijk (cs3_new f ax ay az m n p)) = ax /\
                        c3_y (Nat.iter k cs3_compute_aijk (cs3_new f ax ay az m n p)) = ay /\
                        c3_z (Nat.iter k cs3_compute_aijk (cs3_new f ax ay az m n p)) = az /\
                        c3_m (Nat.iter k cs3_compute_aijk (cs3_new f ax ay az m n p)) = m /\
                        c3_n (Nat.iter k cs3_compute_aijk (cs3_new f ax ay az m n p)) = n /\
                        c3_p (Nat.iter k cs3_compute_aijk (cs3_new f ax ay az m n p)) = p /\
                        c3_a (Nat.iter k cs3_compute_aijk (cs3_new f ax ay az m n p)) l i j = Nat.iter k (fun b => (b + A) * w) 0).
  { intros q. induction q as [|q (H1 & H2 & H3 & H4 & H5 & H6 & H7 & H8)]; [repeat split; reflexivity|].
    rewrite !iter_S.
    set (s := Nat.iter q cs3_compute_aijk (cs3_new f ax ay az m n p)) in *.
    repeat split; try assumption. rewrite coef3_ok, H1, H2, H3, H4, H5, H6, H7. f_equal. f_equal. exact H8. }
  destruct (H (S k)) as (_ & _ & _ & _ & _ & _ & _ & ->). destruct (H 1%nat) as (_ & _ & _ & _ & _ & _ & _ & H').
  change (c3_a (cs3_compute_aijk (cs3_new f ax ay az m n p)) l i j = (0 + A) * w) in H'. rewrite H'.
  rewrite iter_affine. rewrite Rplus_0_l, Rmult_assoc. f_equal.
  rewrite <- bsum_scal. reflexivity.
Qed.
Lemma weight_pos n i : 0 < weight n i.
Proof. pose proof (npos n). destruct i; simpl; apply Rdiv_lt_0_compat; lra. Qed.
Lemma geo_pos w k : 0 < w -> 1 < bsum (S (S k)) (fun j => w ^ j).
Proof.
  intros H. induction k as [|k IH].
  - simpl. lra.
  - change (1 < bsum (S (S k)) (fun j => w ^ j) + w ^ (S (S k))). pose proof (pow_lt w (S (S k)) H). lra.
Qed.
Lemma grow x g : 1 < g -> (x * g = x <-> x = 0).
Proof. intros H. split; [nra|intros ->; ring]. Qed.

(** *** Nodes *)
Lemma node_domain a n r : axis_valid a -> (r <= n)%nat ->
  exists x, is_node a n r x /\ (forall r', (r' <= n)%nat -> is_node a n r' x -> r' = r) /\
    match a with Closed lo hi => lo <= x <= hi | Opened lo => lo <= x end.
Proof.
  intros Ha Hr. exists (seg a n r). pose proof (seg_node a n r Ha ltac:(lia)) as Hn.
  split; [exact Hn|]. split.
  - intros r' Hr' [_ H']. destruct Hn as [_ H]. rewrite H in H'. symmetry. apply (node_inj n); lia || (now symmetry) || auto.
  - destruct Hn as [Hreg Hu]. pose proof (node_lt_1 n r ltac:(lia)) as H1.
    assert (H2 : -1 <= node n r) by (unfold node; apply COS_bound).
    destruct a as [lo hi|lo]; cbn [axis_valid unit_of] in *.
    + apply (proj2 (proj2 (unit_closed_lemma lo hi Ha))). rewrite Hu. lra.
    + unfold halfline_unit in Hu. cbn [regular] in Hreg. set (x := seg (Opened lo) n r) in *.
      assert (E : 2 * lo = (1 - node n r) * x) by (rewrite <- Hu; field; exact Hreg).
      destruct (Rlt_or_le x 0) as [Hx|Hx]; nra.
Qed.
Lemma twice1 f a n i :
  c1_a (cs1_compute_ai (cs1_compute_ai (cs1_new f a n))) i = c1_a (cs1_compute_ai (cs1_new f a n)) i <->
  c1_a (cs1_compute_ai (cs1_new f a n)) i = 0.
Proof. pose proof (rep1 f a n 1 i) as E. rewrite !iter_S in E. cbn [Nat.iter nat_rect] in E. rewrite E. apply grow. apply geo_pos, weight_pos. Qed.
Lemma twice2 f ax ay m n i j :
  c2_a (cs2_compute_aij (cs2_compute_aij (cs2_new f ax ay m n))) i j = c2_a (cs2_compute_aij (cs2_new f ax ay m n)) i j <->
  c2_a (cs2_compute_aij (cs2_new f ax ay m n)) i j = 0.
Proof.
  pose proof (rep2 f ax ay m n 1 i j) as E. rewrite !iter_S in E. cbn [Nat.iter nat_rect] in E. rewrite E. apply grow. apply geo_pos. apply Rmult_lt_0_compat; apply weight_pos.
Qed.
Lemma twice3 f ax ay az m n p k i j :
  c3_a (cs3_compute_aijk (cs3_compute_aijk (cs3_new f ax ay az m n p))) k i j = c3_a (cs3_compute_aijk (cs3_new f ax ay az m n p)) k i j <->
  c3_a (cs3_compute_aijk (cs3_new f ax ay az m n p)) k i j = 0.
Proof.
  pose proof (rep3 f ax ay az m n p 1 k i j) as E. rewrite !iter_S in E. cbn [Nat.iter nat_rect] in E. rewrite E. apply grow. apply geo_pos. repeat apply Rmult_lt_0_compat; apply weight_pos.
Qed.
(** Order 0 in every direction, a constant function. *)
Lemma w00 : weight 0 0 = 1.
Proof. simpl. field. Qed.
Lemma const1 c a x : cs1_evaluate (cs1_compute_ai (cs1_new (fun _ => c) a 0)) x = c /\
  cs1_evaluate (cs1_compute_ai (cs1_compute_ai (cs1_new (fun _ => c) a 0))) x = 2 * c.
Proof.
  assert (E : c1_a (cs1_compute_ai (cs1_new (fun _ => c) a 0)) 0%nat = c).
  { rewrite coef1. cbn [cs1_new c1_a c1_f c1_n]. rn. rewrite w00. simpl. ring. }
  split.
  - rewrite eval1. change (c1_n _ + 1)%nat with 1%nat. cbn [bsum]. rewrite E. simpl. ring.
  - rewrite eval1. change (c1_n _ + 1)%nat with 1%nat. cbn [bsum]. 
    pose proof (rep1 (fun _ => c) a 0 1 0) as E2. rewrite !iter_S in E2. cbn [Nat.iter nat_rect] in E2. rewrite E2, E, w00. simpl. ring.
Qed.
Lemma const2 c ax ay x y : cs2_evaluate (cs2_compute_aij (cs2_new (fun _ _ => c) ax ay 0 0)) x y = c /\
  cs2_evaluate (cs2_compute_aij (cs2_compute_aij (cs2_new (fun _ _ => c) ax ay 0 0))) x y = 2 * c.
Proof.
  assert (E : c2_a (cs2_compute_aij (cs2_new (fun _ _ => c) ax ay 0 0)) 0%nat 0%nat = c).
  { rewrite coef2. cbn [cs2_new c2_a c2_f c2_m c2_n]. rn. rewrite w00. simpl. ring. }
  split.
  - rewrite eval2. change (c2_n _ + 1)%nat with 1%nat. change (c2_m _ + 1)%nat with 1%nat. cbn [bsum]. rewrite E. simpl. ring.
  - rewrite eval2. change (c2_n _ + 1)%nat with 1%nat. change (c2_m _ + 1)%nat with 1%nat. cbn [bsum].
    pose proof (rep2 (fun _ _ => c) ax ay 0 0 1 0 0) as E2. rewrite !iter_S in E2. cbn [Nat.iter nat_rect] in E2. rewrite E2, E, w00. simpl. ring.
Qed.
Lemma const3 c ax ay az x y z : cs3_evaluate (cs3_compute_aijk (cs3_new (fun _ _ _ => c) ax ay az 0 0 0)) x y z = c /\
  cs3_evaluate (cs3_compute_aijk (cs3_compute_aijk (cs3_new (fun _ _ _ => c) ax ay az 0 0 0))) x y z = 2 * c.
Proof.
  assert (E : c3_a (cs3_compute_aijk (cs3_new (fun _ _ _ => c) ax ay az 0 0 0)) 0%nat 0%nat 0%nat = c).
  { rewrite coef3_ok. cbn [cs3_new c3_a c3_f c3_m c3_n c3_p]. rn. rewrite w00. simpl. ring. }
  split.
  - rewrite eval3. change (c3_n _ + 1)%nat with 1%nat. change (c3_m _ + 1)%nat with 1%nat. change (c3_p _ + 1)%nat with 1%nat.
    cbn [bsum]. rewrite E. simpl. ring.
  - rewrite eval3. change (c3_n _ + 1)%nat with 1%nat. change (c3_m _ + 1)%nat with 1%nat. change (c3_p _ + 1)%nat with 1%nat.
    cbn [bsum]. pose proof (rep3 (fun _ _ _ => c) ax ay az 0 0 0 1 0 0 0) as E2. rewrite !iter_S in E2. cbn [Nat.iter nat_rect] in E2. rewrite E2, E, w00. simpl. ring.
Qed.
Lemma eval1_unit s x : regular (c1_x s) x ->
  cs1_evaluate s x = bsum (c1_n s + 1) (fun i => c1_a s i * cheb i (unit_of (c1_x s) x)).
Proof. intros. rewrite eval1, unit_of_ok by assumption. reflexivity. Qed.
Lemma eval2_unit s x y : regular (c2_x s) x -> regular (c2_y s) y ->
  cs2_evaluate s x y = bsum (c2_m s + 1) (fun i => bsum (c2_n s + 1) (fun j =>
    c2_a s i j * cheb i (unit_of (c2_x s) x) * cheb j (unit_of (c2_y s) y))).
Proof. intros. rewrite eval2, !unit_of_ok by assumption. reflexivity. Qed.
Lemma eval3_unit s x y z : regular (c3_x s) x -> regular (c3_y s) y -> regular (c3_z s) z ->
  cs3_evaluate s x y z = bsum (c3_m s + 1) (fun i => bsum (c3_n s + 1) (fun j => bsum (c3_p s + 1) (fun k =>
    c3_a s k i j * cheb i (unit_of (c3_x s) x) * cheb j (unit_of (c3_y s) y) * cheb k (unit_of (c3_z s) z)))).
Proof. intros. rewrite eval3, !unit_of_ok by assumption. reflexivity. Qed.
Lemma recompute_witness : exists f a n x, axis_valid a /\ regular a x /\
  cs1_evaluate (cs1_compute_ai (cs1_compute_ai (cs1_new f a n))) x <>
  cs1_evaluate (cs1_compute_ai (cs1_new f a n)) x.
Proof.
  exists (fun _ => 7), (Closed 0 1), 0%nat, 3. split; [cbn; lra|]. split; [cbn; lra|].
  destruct (const1 7 (Closed 0 1) 3) as [-> ->]. lra.
Qed.
