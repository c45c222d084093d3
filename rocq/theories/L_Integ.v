(** Lemmas on one-dimensional integration. *)
From Coq Require Import List Arith ZArith Reals Lra Lia Bool.
From Coquelicot Require Import Coquelicot.
From Verif Require Import Outcome Num M_Basics M_Integ S_Series L_Series S_Integ L_Cheb.
Import ListNotations.
Local Open Scope R_scope.

Lemma areas_cons x0 x1 xs y0 y1 ys :
  areas (x0 :: x1 :: xs) (y0 :: y1 :: ys) = (x1 - x0) * (y0 + y1) / 2 + areas (x1 :: xs) (y1 :: ys).
Proof. reflexivity. Qed.
(** *** Sums by indices *)
Lemma foldM_sum (y : list R) : forall k i a, (i + k <= length y)%nat ->
  foldM (fun sum i => let* yi := vidx y i in Ok (sum + yi)%num) a (seq i k) =
  Ok (a + bsum k (fun j => nth (i + j) y 0)).
Proof.
  induction k as [|k IH]; intros i a H; cbn [seq foldM bsum]; [f_equal; ring|].
  rewrite (vidx_lt y i 0) by lia. cbn [bind]. rewrite IH by lia. f_equal. rn.
  change (bsum k (fun j => nth (i + j) y 0) + nth (i + k) y 0) with (bsum (S k) (fun j => nth (i + j) y 0)).
  rewrite bsum_shift, Nat.add_0_r.
  rewrite (bsum_ext k (fun j => nth (S i + j) y 0) (fun j => nth (i + S j) y 0)) by (intros; f_equal; lia).
  ring.
Qed.
Lemma foldM_sum_ub (y : list R) : forall k i a, (length y < i + k)%nat -> (0 < k)%nat ->
  foldM (fun sum i => let* yi := vidx y i in Ok (sum + yi)%num) a (seq i k) = UB.
Proof.
  induction k as [|k IH]; intros i a H Hk; [lia|]. cbn [seq foldM].
  destruct (Nat.lt_ge_cases i (length y)) as [L|L].
  - rewrite (vidx_lt y i 0) by lia. cbn [bind]. apply IH; lia.
  - rewrite vidx_ge by lia. reflexivity.
Qed.
Lemma areas_idx : forall x y, length x = length y -> areas x y =
  bsum (length y - 1) (fun i => (nth (S i) x 0 - nth i x 0) * (nth i y 0 + nth (S i) y 0) / 2).
Proof.
  induction x as [|x0 x IH]; intros [|y0 y] H; try discriminate; [reflexivity|].
  destruct x as [|x1 x], y as [|y1 y]; try discriminate; [reflexivity|].
  rewrite areas_cons, IH by (cbn in *; lia). cbn [length]. replace (S (S (length y)) - 1)%nat with (S (length y)) by lia.
  rewrite bsum_shift. cbn [nth]. rewrite Nat.sub_succ, Nat.sub_0_r. ring.
Qed.
Lemma trap_regroup n (y : nat -> R) : (2 <= n)%nat ->
  bsum (n - 2) (fun j => y (1 + j)%nat) + / 2 * (y 0%nat + y (n - 1)%nat) = bsum (n - 1) (fun i => (y i + y (S i)) / 2).
Proof.
  intros H. destruct n as [|[|n]]; try lia. clear H. replace (S (S n) - 2)%nat with n by lia. replace (S (S n) - 1)%nat with (S n) by lia.
  induction n as [|n IH]; [simpl; lra|].
  cbn [bsum] in *. replace (1 + n)%nat with (S n) in * by lia. lra.
Qed.
Lemma trapz_uniform_ok y dx : (2 <= length y)%nat ->
  trapz_uniform y dx = Ok (dx * bsum (length y - 1) (fun i => (nth i y 0 + nth (S i) y 0) / 2)).
Proof.
  intros H. unfold trapz_uniform. rewrite (proj2 (Nat.eqb_neq _ 0)) by lia.
  rewrite foldM_sum by lia. cbn [bind]. rewrite (vidx_lt y 0 0) by lia. cbn [bind].
  unfold vidx_sub. rewrite (proj2 (Nat.leb_le 1 _)) by lia. rewrite (vidx_lt y _ 0) by lia. cbn [bind].
  rewrite <- (trap_regroup _ (fun i => nth i y 0)) by exact H. f_equal. rn. set (B := bsum _ _). field.
Qed.
Lemma trapz_uniform_one y0 dx : trapz_uniform [y0] dx = Ok (dx * y0).
Proof. unfold trapz_uniform. cbn. f_equal. field. Qed.
Lemma trapz_uniform_nil dx : trapz_uniform (T := R) [] dx = UB.
Proof. reflexivity. Qed.

Lemma map_grid a h n i : (i < n)%nat -> nth i (grid a h n) 0 = a + INR i * h.
Proof. intros H. unfold grid. now rewrite nth_map_seq0. Qed.
Lemma grid_length a h n : length (grid a h n) = n.
Proof. unfold grid. now rewrite map_length, seq_length. Qed.
Lemma areas_grid a h y : areas (grid a h (length y)) y = h * bsum (length y - 1) (fun i => (nth i y 0 + nth (S i) y 0) / 2).
Proof.
  rewrite areas_idx by apply grid_length. rewrite <- bsum_scal. apply bsum_ext. intros i Hi.
  rewrite !map_grid by lia. rewrite S_INR. field.
Qed.
Lemma trapz_uniform_lemma a h y : (2 <= length y)%nat -> trapz_uniform y h = Ok (areas (grid a h (length y)) y).
Proof. intros H. rewrite trapz_uniform_ok, areas_grid by exact H. reflexivity. Qed.

(** *** Non-uniform rule *)
Lemma foldM_xy (x y : list R) : forall k i a d, (i + k < length y)%nat -> length x = length y -> (0 < i)%nat ->
  d = nth i x 0 - nth (i - 1) x 0 ->
  exists s, foldM (trapz_step x y) (a, d) (seq i k) = Ok s /\
  fst s = a + bsum k (fun j => nth (i + j) y 0 * (nth (i + j + 1) x 0 - nth (i + j - 1) x 0)).
Proof.
  induction k as [|k IH]; intros i a d H L Hi E; cbn [seq foldM].
  - eexists. split; [reflexivity|]. cbn [fst bsum]. ring.
  - cbn [trapz_step]. rewrite (vidx_lt x (i + 1) 0), (vidx_lt x i 0), (vidx_lt y i 0) by lia. cbn [bind].
    destruct (IH (S i) (a + nth i y 0 * (d + (nth (i + 1) x 0 - nth i x 0)))%num (nth (i + 1) x 0 - nth i x 0)%num) as (s & Hs & Es);
      [lia|lia|lia|rn; do 2 f_equal; lia|].
    exists s. split; [exact Hs|]. rewrite Es. rn.
    change (bsum (S k)) with (bsum (S k)). rewrite (bsum_shift k (fun j => nth (i + j) y 0 * _)), Nat.add_0_r, E.
    rewrite (bsum_ext k (fun j => nth (S i + j) y 0 * _) (fun j => nth (i + S j) y 0 * (nth (i + S j + 1) x 0 - nth (i + S j - 1) x 0))).
    + ring.
    + intros j _. f_equal; [f_equal; lia|]. f_equal; f_equal; lia.
Qed.
Lemma xy_regroup n (x y : nat -> R) :
  / 2 * (bsum n (fun j => y (1 + j)%nat * (x (1 + j + 1)%nat - x (1 + j - 1)%nat)) + y 0%nat * (x 1%nat - x 0%nat)
         + y (S n) * (x (S n) - x n)) =
  bsum (S n) (fun i => (x (S i) - x i) * (y i + y (S i)) / 2).
Proof.
  induction n as [|n IH]; [simpl; lra|].
  remember (S n) as m. cbn [bsum] in *. rewrite <- IH. rewrite Heqm.
  cbn [bsum]. replace (1 + n)%nat with (S n) by lia. replace (S n + 1)%nat with (S (S n)) by lia. replace (S n - 1)%nat with n by lia.
  field.
Qed.
Lemma trapz_xy_ok bm x y : (2 <= length y)%nat -> length x = length y -> trapz_xy bm x y = Ok (areas x y).
Proof.
  intros H L. unfold trapz_xy. rewrite (proj2 (Nat.ltb_lt 1 _)) by lia. rewrite (proj2 (Nat.eqb_eq _ _)) by lia.
  replace (cassert bm true) with (Ok tt) by (destruct bm; reflexivity). cbn [bind].
  rewrite (vidx_lt x 1 0), (vidx_lt x 0 0) by lia. cbn [bind]. unfold vidx_sub.
  rewrite (proj2 (Nat.leb_le 1 _)), (proj2 (Nat.leb_le 2 _)) by lia.
  rewrite (vidx_lt x _ 0) by lia. cbn [bind]. rewrite (vidx_lt x _ 0) by lia. cbn [bind].
  destruct (foldM_xy x y (length y - 2) 1 0 (nth 1 x 0 - nth 0 x 0)) as (s & Hs & Es); [lia|lia|lia|reflexivity|].
  change (nofZ 0) with 0. change (nth 1 x 0 - nth 0 x 0)%num with (nth 1 x 0 - nth 0 x 0).
  rewrite Hs. cbn [bind]. rewrite (vidx_lt y 0 0), (vidx_lt y _ 0) by lia. cbn [bind]. rewrite Es. f_equal.
  rewrite areas_idx by exact L. rn.
  destruct (length y) as [|[|n]]; [lia|lia|].
  replace (S (S n) - 2)%nat with n by lia. replace (S (S n) - 1)%nat with (S n) by lia.
  rewrite <- (xy_regroup n (fun i => nth i x 0) (fun i => nth i y 0)).
  set (B := bsum _ _). field.
Qed.
Lemma trapz_xy_debug (x y : list R) : (length y < 2)%nat \/ length x <> length y -> trapz_xy Debug x y = Abort.
Proof.
  intros H. unfold trapz_xy, cassert. destruct (Nat.ltb_spec 1 (length y)); cbn [bind]; [|reflexivity].
  rewrite (proj2 (Nat.eqb_neq _ _)) by lia. reflexivity.
Qed.
Lemma trapz_xy_release_short (x y : list R) : (length y < 2)%nat \/ (length x < length y)%nat -> trapz_xy Release x y = UB.
Proof.
  intros H. unfold trapz_xy, cassert. cbn [bind].
  destruct (Nat.lt_ge_cases 1 (length x)) as [L|L].
  - rewrite (vidx_lt x 1 0), (vidx_lt x 0 0) by lia. cbn [bind]. unfold vidx_sub.
    destruct (length y) as [|[|n]].
    + reflexivity.
    + rewrite (proj2 (Nat.leb_le 1 1)) by lia. rewrite (vidx_lt x _ 0) by lia. reflexivity.
    + destruct H as [H|H]; [lia|]. rewrite (proj2 (Nat.leb_le 1 _)) by lia.
      rewrite vidx_ge by lia. reflexivity.
  - rewrite vidx_ge by lia. reflexivity.
Qed.

(** *** Properties of the area *)
Lemma areas_linear a b : forall x y z, length x = length y -> length y = length z ->
  areas x (axpy a b y z) = a * areas x y + b * areas x z.
Proof.
  induction x as [|x0 x IH]; intros [|y0 y] [|z0 z] H1 H2; try discriminate; [simpl; ring|].
  destruct x as [|x1 x], y as [|y1 y], z as [|z1 z]; try discriminate; [simpl; ring|].
  change (axpy a b (y0 :: y1 :: y) (z0 :: z1 :: z)) with ((a * y0 + b * z0) :: (a * y1 + b * z1) :: axpy a b y z).
  rewrite !areas_cons. change ((a * y1 + b * z1) :: axpy a b y z) with (axpy a b (y1 :: y) (z1 :: z)).
  rewrite IH by (cbn in *; lia). field.
Qed.
Lemma areas_app : forall xa ya p q xb yb, length xa = length ya -> length xb = length yb ->
  areas (xa ++ p :: xb) (ya ++ q :: yb) = areas (xa ++ [p]) (ya ++ [q]) + areas (p :: xb) (q :: yb).
Proof.
  induction xa as [|x0 xa IH]; intros [|y0 ya] p q xb yb H1 H2; try discriminate.
  - simpl app. change (areas [p] [q]) with 0. ring.
  - destruct xa as [|x1 xa], ya as [|y1 ya]; try discriminate.
    + cbn [app]. rewrite !areas_cons. change (areas [p] [q]) with 0. ring.
    + cbn [app] in *. rewrite !areas_cons.
      specialize (IH (y1 :: ya) p q xb yb ltac:(cbn in *; lia) H2). cbn [app] in IH. rewrite IH. ring.
Qed.
Lemma areas_affine m q : forall x, (0 < length x)%nat ->
  areas x (map (fun t => m * t + q) x) =
  (m * (last x 0) ^ 2 / 2 + q * last x 0) - (m * (hd 0 x) ^ 2 / 2 + q * hd 0 x).
Proof.
  induction x as [|x0 x IH]; intros H; [cbn in H; lia|]. destruct x as [|x1 x]; [simpl; ring|].
  change (map (fun t => m * t + q) (x0 :: x1 :: x)) with ((m * x0 + q) :: (m * x1 + q) :: map (fun t => m * t + q) x).
  rewrite areas_cons. change ((m * x1 + q) :: map (fun t => m * t + q) x) with (map (fun t => m * t + q) (x1 :: x)).
  rewrite IH by (cbn; lia). change (last (x0 :: x1 :: x) 0) with (last (x1 :: x) 0). cbn [hd]. field.
Qed.
Lemma areas_mono : forall x y z h, steps h x -> length x = length y -> Forall2 Rle y z -> areas x y <= areas x z.
Proof.
  induction x as [|x0 x IH]; intros [|y0 y] z h Hs L F; try discriminate; [simpl; lra|].
  inversion F as [|a b y' z' F0 F' Ea Eb]; subst. rename b into z0.
  destruct x as [|x1 x], y as [|y1 y]; try discriminate; [simpl; lra|].
  inversion F' as [|a b y'' z'' F1 F'' Ea Eb]; subst. rename b into z1.
  rewrite !areas_cons. destruct Hs as [Hx Hs]. specialize (IH (y1 :: y) (z1 :: z'') h Hs ltac:(cbn in *; lia) F').
  nra.
Qed.

(** *** The error of the rule *)
Lemma deriv_eq f x a b : a = b -> derivable_pt_lim f x a -> derivable_pt_lim f x b.
Proof. now intros ->. Qed.
Lemma deriv_scal_r f x d c : derivable_pt_lim f x d -> derivable_pt_lim (fun t => f t * c) x (d * c).
Proof.
  intros H. apply (deriv_eq _ _ (d * c + f x * 0)); [ring|].
  apply (derivable_pt_lim_mult f (fun _ => c)); [exact H|apply derivable_pt_lim_const].
Qed.

(** If |g'| <= k' on [0, h] and g(0) = k(0) = 0 then |g| <= k. *)
Lemma compare (g g' k k' : R -> R) h : 0 <= h ->
  (forall t, 0 <= t <= h -> derivable_pt_lim g t (g' t)) ->
  (forall t, 0 <= t <= h -> derivable_pt_lim k t (k' t)) ->
  (forall t, 0 <= t <= h -> Rabs (g' t) <= k' t) -> g 0 = 0 -> k 0 = 0 ->
  forall t, 0 <= t <= h -> Rabs (g t) <= k t.
Proof.
  intros Hh Hg Hk Hle G0 K0 t Ht.
  assert (P : forall s, (s = 1 \/ s = -1) -> 0 <= k t - s * g t).
  { intros s Hs.
    destruct (Req_dec t 0) as [->|Ht0]; [rewrite G0, K0; lra|].
    destruct (MVT_cor2 (fun u => k u - s * g u) (fun u => k' u - s * g' u) 0 t) as (c & Ec & Hc); [lra| |].
    - intros u Hu. apply (derivable_pt_lim_minus k (fun u => s * g u)); [apply Hk; lra|].
      apply (derivable_pt_lim_scal g). apply Hg; lra.
    - rewrite G0, K0 in Ec. specialize (Hle c ltac:(lra)). apply Rabs_le_between in Hle.
      replace (k t - s * g t) with ((k' c - s * g' c) * (t - 0)) by lra.
      apply Rmult_le_pos; [|lra]. destruct Hs; subst; lra. }
  pose proof (P 1 (or_introl eq_refl)). pose proof (P (-1) (or_intror eq_refl)). apply Rabs_le. lra.
Qed.

Lemma panel f f1 f2 a b M F : a <= b -> twice_derivable f f1 f2 a b M ->
  (forall x, a <= x <= b -> derivable_pt_lim F x (f x)) ->
  Rabs (F b - F a - (b - a) * (f a + f b) / 2) <= M * (b - a) ^ 3 / 12.
Proof.
  intros Hab (D1 & D2 & DM) DF. set (h := b - a).
  assert (sh : forall (g : R -> R) t l, derivable_pt_lim g (a + t) l -> derivable_pt_lim (fun t => g (a + t)) t l).
  { intros g t l H. replace l with (l * 1) by ring.
    apply (derivable_pt_lim_comp (fun t => a + t) g); [|exact H].
    replace 1 with (0 + 1) by ring. apply (derivable_pt_lim_plus (fun _ => a) (fun t => t)); [apply derivable_pt_lim_const|apply derivable_pt_lim_id]. }
  (* second derivative, first, value *)
  assert (B1 : forall t, 0 <= t <= h -> Rabs ((f (a + t) - f a) / 2 - t / 2 * f1 (a + t)) <= M * t ^ 2 / 4).
  { apply (compare (fun t => (f (a + t) - f a) / 2 - t / 2 * f1 (a + t)) (fun t => - (t / 2) * f2 (a + t))
            (fun t => M * t ^ 2 / 4) (fun t => M * t / 2)); try (unfold h; lra).
    - intros t Ht. unfold h in Ht.
      apply (deriv_eq _ _ (f1 (a + t) / 2 - (/ 2 * f1 (a + t) + t / 2 * f2 (a + t)))); [lra|].
      apply (derivable_pt_lim_minus (fun t => (f (a + t) - f a) / 2) (fun t => t / 2 * f1 (a + t))).
      + apply (deriv_eq _ _ ((f1 (a + t) - 0) * / 2)); [lra|].
        apply (deriv_scal_r (fun t => f (a + t) - f a)).
        apply (derivable_pt_lim_minus (fun t => f (a + t)) (fun _ => f a)); [apply sh, D1; lra|apply derivable_pt_lim_const].
      + apply (derivable_pt_lim_mult (fun t => t / 2) (fun t => f1 (a + t))).
        * apply (deriv_eq _ _ (1 * / 2)); [lra|]. apply (deriv_scal_r (fun t => t)). apply derivable_pt_lim_id.
        * apply sh, D2. lra.
    - intros t Ht. apply (deriv_eq _ _ (M * (INR 2 * t ^ 1) * / 4)); [simpl; lra|].
      apply (deriv_scal_r (fun t => M * t ^ 2)). apply (derivable_pt_lim_scal (fun t => t ^ 2)). apply (derivable_pt_lim_pow t 2).
    - intros t Ht. rewrite Rabs_mult, Rabs_Ropp, (Rabs_pos_eq (t / 2)) by lra.
      specialize (DM (a + t) ltac:(unfold h in Ht; lra)). nra.
    - rewrite Rplus_0_r. lra. }
  assert (B0 : forall t, 0 <= t <= h -> Rabs (F (a + t) - F a - t / 2 * (f a + f (a + t))) <= M * t ^ 3 / 12).
  { apply (compare (fun t => F (a + t) - F a - t / 2 * (f a + f (a + t))) (fun t => (f (a + t) - f a) / 2 - t / 2 * f1 (a + t))
            (fun t => M * t ^ 3 / 12) (fun t => M * t ^ 2 / 4)); try (unfold h; lra).
    - intros t Ht. unfold h in Ht.
      apply (deriv_eq _ _ ((f (a + t) - 0) - (1 * / 2 * (f a + f (a + t)) + t / 2 * (0 + f1 (a + t))))); [lra|].
      apply (derivable_pt_lim_minus (fun t => F (a + t) - F a) (fun t => t / 2 * (f a + f (a + t)))).
      + apply (derivable_pt_lim_minus (fun t => F (a + t)) (fun _ => F a)); [apply sh, DF; lra|apply derivable_pt_lim_const].
      + apply (derivable_pt_lim_mult (fun t => t / 2) (fun t => f a + f (a + t))).
        * apply (deriv_scal_r (fun t => t)). apply derivable_pt_lim_id.
        * apply (derivable_pt_lim_plus (fun _ => f a) (fun t => f (a + t))); [apply derivable_pt_lim_const|apply sh, D1; lra].
    - intros t Ht. apply (deriv_eq _ _ (M * (INR 3 * t ^ 2) * / 12)); [simpl; lra|].
      apply (deriv_scal_r (fun t => M * t ^ 3)). apply (derivable_pt_lim_scal (fun t => t ^ 3)). apply (derivable_pt_lim_pow t 3).
    - exact B1.
    - rewrite Rplus_0_r. lra. }
  specialize (B0 h ltac:(unfold h; lra)). unfold h in B0. replace (a + (b - a)) with b in B0 by ring.
  unfold h. replace ((b - a) * (f a + f b) / 2) with ((b - a) / 2 * (f a + f b)) by field. exact B0.
Qed.

Lemma deriv_continuous f x d : derivable_pt_lim f x d -> continuous f x.
Proof.
  intros H. apply continuity_pt_filterlim. apply derivable_continuous_pt. now exists d.
Qed.
Lemma primitive f a b : a <= b -> (forall x, a <= x <= b -> continuous f x) ->
  exists F, (forall x, a <= x <= b -> derivable_pt_lim F x (f x)) /\ F a = 0 /\ F b = RInt f a b.
Proof.
  intros Hab Hf. destruct (C0_extension_le f a b Hf) as [g [Hg Eg]].
  exists (fun t => RInt g a t). split; [|split].
  - intros x Hx. rewrite <- Eg by exact Hx. apply is_derive_Reals.
    apply (is_derive_RInt g (fun t => RInt g a t) a x).
    + apply filter_forall. intros t. apply (@RInt_correct R_CompleteNormedModule). apply (@ex_RInt_continuous R_CompleteNormedModule). intros z _. apply Hg.
    + apply Hg.
  - apply (@RInt_point R_CompleteNormedModule).
  - apply (@RInt_ext R_CompleteNormedModule). intros x Hx. rewrite Rmin_left, Rmax_right in Hx by exact Hab. apply Eg. lra.
Qed.
Lemma steps_le h : forall x, steps h x -> (0 < length x)%nat -> hd 0 x <= last x 0 /\ (forall t, In t x -> hd 0 x <= t <= last x 0).
Proof.
  induction x as [|x0 x IH]; intros H L; [cbn in L; lia|]. destruct x as [|x1 x].
  - cbn. split; [lra|]. intros t [->|[]]. lra.
  - destruct H as [H0 H]. destruct (IH H ltac:(cbn; lia)) as [I1 I2]. change (last (x0 :: x1 :: x) 0) with (last (x1 :: x) 0). cbn [hd] in *.
    split; [lra|]. intros t [->|Ht]; [lra|]. specialize (I2 t Ht). lra.
Qed.
Lemma error_sum f f1 f2 F M h : 0 <= M -> forall x, (0 < length x)%nat -> steps h x ->
  twice_derivable f f1 f2 (hd 0 x) (last x 0) M ->
  (forall t, hd 0 x <= t <= last x 0 -> derivable_pt_lim F t (f t)) ->
  Rabs (areas x (map f x) - (F (last x 0) - F (hd 0 x))) <= M * h ^ 2 * (last x 0 - hd 0 x) / 12.
Proof.
  intros HM. induction x as [|x0 x IH]; intros L H D DF; [cbn in L; lia|].
  destruct x as [|x1 x].
  - cbn. replace (0 - (F x0 - F x0)) with 0 by ring. rewrite Rabs_R0. lra.
  - destruct H as [H0 H]. destruct (steps_le h (x1 :: x) H ltac:(cbn; lia)) as [Hle _].
    change (last (x0 :: x1 :: x) 0) with (last (x1 :: x) 0) in *. set (e := last (x1 :: x) 0) in *.
    cbn [hd] in *. change (map f (x0 :: x1 :: x)) with (f x0 :: f x1 :: map f x). rewrite areas_cons.
    change (f x1 :: map f x) with (map f (x1 :: x)).
    assert (D1 : twice_derivable f f1 f2 x1 e M).
    { destruct D as (A & B & C). repeat split; intros t Ht; [apply A|apply B|apply C]; lra. }
    assert (D0 : twice_derivable f f1 f2 x0 x1 M).
    { destruct D as (A & B & C). repeat split; intros t Ht; [apply A|apply B|apply C]; lra. }
    specialize (IH ltac:(cbn; lia) H D1 ltac:(intros; apply DF; lra)).
    pose proof (panel f f1 f2 x0 x1 M F ltac:(lra) D0 ltac:(intros; apply DF; lra)) as P.
    assert (Q : M * (x1 - x0) ^ 3 / 12 <= M * h ^ 2 * (x1 - x0) / 12).
    { assert (0 <= h ^ 2 - (x1 - x0) ^ 2) by nra.
      assert (0 <= (x1 - x0) * (h ^ 2 - (x1 - x0) ^ 2)) by (apply Rmult_le_pos; lra).
      assert (0 <= M * ((x1 - x0) * (h ^ 2 - (x1 - x0) ^ 2))) by (apply Rmult_le_pos; lra). lra. }
    apply Rabs_le_between in P. apply Rabs_le_between in IH. apply Rabs_le.
    replace (M * h ^ 2 * (e - x0) / 12) with (M * h ^ 2 * (x1 - x0) / 12 + M * h ^ 2 * (e - x1) / 12) by field.
    split; lra.
Qed.
Lemma error_lemma f f1 f2 M h x : (0 < length x)%nat -> steps h x ->
  twice_derivable f f1 f2 (hd 0 x) (last x 0) M ->
  Rabs (areas x (map f x) - RInt f (hd 0 x) (last x 0)) <= M * h ^ 2 * (last x 0 - hd 0 x) / 12.
Proof.
  intros L H D. destruct (steps_le h x H L) as [Hle _].
  destruct (primitive f (hd 0 x) (last x 0) Hle) as (F & DF & F0 & Fe).
  { intros t Ht. eapply deriv_continuous. apply D. exact Ht. }
  rewrite <- Fe. replace (F (last x 0)) with (F (last x 0) - F (hd 0 x)) by (rewrite F0; ring).
  apply (error_sum f f1 f2 F M h); auto.
  apply Rle_trans with (Rabs (f2 (hd 0 x))); [apply Rabs_pos|]. apply D. lra.
Qed.
