(** Proofs about elementwise operations, test functions, comparisons and
    saturation. *)
From Coq Require Import List Arith ZArith Reals Bool Lia Lra Psatz Ascii.
From Coq Require String.
From Flocq Require Import Core.Core IEEE754.BinarySingleNaN.
From Verif Require Import Outcome Num NumFun F64 L_F64 M_Basics S_Angles S_Basics L_Angles L_Basics.
Import ListNotations.
Local Open Scope R_scope.
Local Open Scope nat_scope.

(** ** StdVector.h *)
Section Zip.
Context {T : Type} `{NT : Num T}.

Fixpoint zip (f : T -> T -> T) (a b : list T) : list T :=
  match a, b with x :: a', y :: b' => f x y :: zip f a' b' | _, _ => [] end.

Lemma zip_length f a b : length a <= length b -> length (zip f a b) = length a.
Proof. revert b; induction a as [|x a IH]; intros [|y b]; simpl; intros; auto; try lia. rewrite IH; lia. Qed.

Lemma zip_nth f a b d i : i < length a -> length a <= length b -> nth i (zip f a b) d = f (nth i a d) (nth i b d).
Proof.
  revert b i; induction a as [|x a IH]; intros [|y b] [|i]; simpl; intros; try lia; auto. apply IH; lia.
Qed.

Lemma vidx_shift (pre : list T) x l i : vidx ((pre ++ [x]) ++ l) i = vidx (pre ++ x :: l) i.
Proof. rewrite <- app_assoc. reflexivity. Qed.

Lemma zip_loop_from f : forall a b pa pb, length pa = length pb ->
  mapM (fun i => let* x := vidx (pa ++ a) i in let* y := vidx (pb ++ b) i in Ok (f x y))
       (seq (length pa) (length a)) =
  if length a <=? length b then Ok (zip f a b) else UB.
Proof.
  induction a as [|x a IH]; intros b pa pb Hp; [reflexivity|].
  simpl seq. cbn [mapM].
  rewrite (vidx_lt (pa ++ x :: a) (length pa) x) by (rewrite app_length; simpl; lia).
  rewrite app_nth2, Nat.sub_diag by lia. cbn [bind nth].
  destruct b as [|y b].
  - rewrite vidx_ge by (rewrite app_length; simpl; lia). reflexivity.
  - rewrite (vidx_lt (pb ++ y :: b) (length pa) y) by (rewrite app_length; simpl; lia).
    rewrite app_nth2, Hp, Nat.sub_diag by lia. cbn [bind nth length Nat.leb zip].
    specialize (IH b (pa ++ [x]) (pb ++ [y])). rewrite <- !app_assoc in IH. cbn [app] in IH.
    rewrite !app_length in IH. cbn [length] in IH. rewrite Nat.add_1_r in IH. rewrite <- Hp.
    rewrite IH by lia. destruct (length a <=? length b); reflexivity.
Qed.

Lemma zip_loop_eq f a b : zip_loop f a b = if length a <=? length b then Ok (zip f a b) else UB.
Proof. unfold zip_loop. exact (zip_loop_from f a b [] [] eq_refl). Qed.

Lemma zip_checked_lemma (f : T -> T -> T) :
  (forall bm a b d, length a = length b ->
     exists l, zip_checked f bm a b = Ok l /\ length l = length a /\
       forall i, i < length a -> nth i l d = f (nth i a d) (nth i b d)) /\
  (forall a b, length a <> length b -> zip_checked f Debug a b = Abort) /\
  (forall a b, length b < length a -> zip_checked f Release a b = UB) /\
  (forall a b d, length a <= length b ->
     exists l, zip_checked f Release a b = Ok l /\ length l = length a /\
       forall i, i < length a -> nth i l d = f (nth i a d) (nth i b d)).
Proof.
  assert (H0 : forall a b d, length a <= length b ->
     exists l, zip_loop f a b = Ok l /\ length l = length a /\
       forall i, i < length a -> nth i l d = f (nth i a d) (nth i b d)).
  { intros a b d H. exists (zip f a b). rewrite zip_loop_eq. destruct (Nat.leb_spec (length a) (length b)); [|lia].
    split; [auto|]. split; [apply zip_length; auto|]. intros i Hi. apply zip_nth; auto. }
  unfold zip_checked. repeat split.
  - intros bm a b d H. rewrite H, Nat.eqb_refl. destruct bm; cbn [cassert bind]; rewrite <- H; apply H0; lia.
  - intros a b H. cbn [cassert]. destruct (Nat.eqb_spec (length b) (length a)); [lia|reflexivity].
  - intros a b H. cbn [cassert bind]. rewrite zip_loop_eq. destruct (Nat.leb_spec (length a) (length b)); [lia|auto].
  - intros a b d H. cbn [cassert bind]. apply H0; auto.
Qed.
End Zip.

Lemma zip_elementwise (f : R -> R -> R) : elementwise f (zip_checked f).
Proof.
  destruct (zip_checked_lemma f) as (H1 & H2 & H3 & H4). unfold elementwise, elements.
  repeat split; eauto.
Qed.

Lemma fold_left_plus l : forall a, fold_left Rplus l a = (a + total l)%R.
Proof. induction l as [|x l IH]; intros a; simpl; [lra|]. rewrite IH. lra. Qed.

Lemma Rcpow_nat x n : Rcpow x (INR n) = (x ^ n)%R.
Proof.
  unfold Rcpow. rcmp.
  - apply Rpower_pow. auto.
  - assert (Hz : Zfloor (INR n) = Z.of_nat n) by (rewrite INR_IZR_INZ; apply Zfloor_IZR).
    destruct (Reqb x 0) eqn:E1.
    + apply Reqb_true in E1. subst. destruct (Reqb (INR n) 0) eqn:E2.
      * apply Reqb_true in E2. destruct n; [simpl; auto|]. exfalso. apply (not_0_INR (S n)); auto.
      * apply Reqb_false in E2. destruct n; [simpl in E2; lra|]. simpl. lra.
    + rewrite Hz, <- INR_IZR_INZ. destruct (Reqb (INR n) (INR n)) eqn:E2; [|apply Reqb_false in E2; lra].
      symmetry. apply pow_powerRZ.
Qed.

Lemma map_elements (f : R -> R) l : elements (map f l) (length l) (fun i => f (nth i l 0%R)).
Proof.
  split; [apply map_length|]. intros k Hk. rewrite nth_indep with (d' := f 0%R) by (rewrite map_length; auto).
  apply map_nth.
Qed.

Lemma stdvector_lemma : forall p (v : list R) c,
  elements (vec_add_scalar (NT := RNum_at p) v c) (length v) (fun i => nth i v 0 + c)%R /\
  elements (vec_scale (NT := RNum_at p) v c) (length v) (fun i => nth i v 0 * c)%R /\
  elements (vec_negate (NT := RNum_at p) v) (length v) (fun i => - nth i v 0)%R /\
  (forall n, elements (vec_pow v (INR n)) (length v) (fun i => nth i v 0 ^ n)%R) /\
  (Forall (Rlt 0) v -> elements (vec_pow v c) (length v) (fun i => Rpower (nth i v 0%R) c)) /\
  vec_sum (NT := RNum_at p) v = total v.
Proof.
  intros p v c. split; [apply map_elements|]. split; [apply map_elements|]. split; [|split; [|split]].
  - unfold vec_negate, vec_scale. destruct (map_elements (fun x => x * -1)%R v) as [H1 H2]. split; [exact H1|].
    intros k Hk. transitivity (nth k v 0 * -1)%R; [apply H2; auto|ring].
  - intros n. unfold vec_pow. destruct (map_elements (fun x => Rcpow x (INR n)) v) as [H1 H2]. split; [exact H1|].
    intros k Hk. transitivity (Rcpow (nth k v 0%R) (INR n)); [apply H2; auto|apply Rcpow_nat].
  - intros Hv. unfold vec_pow. destruct (map_elements (fun x => Rcpow x c) v) as [H1 H2]. split; [exact H1|].
    intros k Hk. transitivity (Rcpow (nth k v 0%R) c); [apply H2; auto|apply Rcpow_pos].
    rewrite Forall_forall in Hv. apply Hv. apply nth_In. auto.
  - unfold vec_sum. cbn [nadd nofZ RNum_at]. rewrite (fold_left_plus v 0). lra.
Qed.

(** ** Functions.h *)
Open Scope R_scope.

Lemma heaviside_lemma : forall p x s,
  exists f, Heaviside (NT := RNum_at p) x s = map f x /\
    forall v, (v < s -> f v = 0) /\ (v = s -> f v = 1 / 2) /\ (s < v -> f v = 1).
Proof.
  intros p x s. eexists. split; [reflexivity|]. intros v.
  unfold nlit. cbn [nlt nofZ RNum_at ndiv]. repeat split; intros; repeat rcmp; lra.
Qed.

Lemma zip_map (f : R -> R -> R) (g h : R -> R) l : zip f (map g l) (map h l) = map (fun x => f (g x) (h x)) l.
Proof. induction l; simpl; f_equal; auto. Qed.

Lemma door_lemma : forall p bm x lo hi height, lo < hi ->
  exists f, Door (NT := RNum_at p) bm x lo hi height = Ok (map f x) /\
    forall v, (v < lo \/ hi < v -> f v = 0) /\ (v = lo \/ v = hi -> f v = height / 2) /\ (lo < v < hi -> f v = height).
Proof.
  intros p bm x lo hi height H. unfold Door, vec_minus, zip_checked, vec_scale.
  destruct (heaviside_lemma p x lo) as (f & -> & Hf). destruct (heaviside_lemma p x hi) as (g & -> & Hg).
  rewrite !map_length, Nat.eqb_refl.
  assert (E : cassert bm true = Ok tt) by (destruct bm; auto). rewrite E. cbn [bind].
  rewrite zip_loop_eq, !map_length, Nat.leb_refl, zip_map. cbn [bind]. rewrite map_map.
  eexists. split; [reflexivity|]. intros v. cbv beta. cbn [nmul nsub RNum_at].
  destruct (Hf v) as (f1 & f2 & f3). destruct (Hg v) as (g1 & g2 & g3).
  repeat split; intros Hv.
  - destruct Hv; [rewrite f1, g1 by lra|rewrite f3, g3 by lra]; ring.
  - destruct Hv; [rewrite f2, g1 by lra|rewrite f3, g2 by lra]; field.
  - rewrite f3, g1 by lra. ring.
Qed.

Definition ramp1 (lo hi yl yr v : R) : R :=
  if Rleb v lo then yl else if Rleb v hi then (yr - yl) / (hi - lo) * v + (yl - (yr - yl) / (hi - lo) * lo) else yr.

Lemma ramp_ok p bm x lo hi yl yr : lo <= hi ->
  (bm = Debug -> x <> [] /\ nth 0 x 0 <= lo /\ hi <= nth (length x - 1) x 0) ->
  Ramp (NT := RNum_at p) bm x lo hi yl yr = Ok (map (ramp1 lo hi yl yr) x).
Proof.
  intros H Hd. unfold Ramp. cbn [nle RNum_at].
  assert (E : cassert bm (Rleb lo hi) = Ok tt) by (destruct bm; auto; rewrite Rleb_refl_true; auto).
  rewrite E. cbn [bind]. destruct bm; [|reflexivity].
  destruct (Hd eq_refl) as (Hx & H1 & H2). assert (Hl : (0 < length x)%nat) by (destruct x; [congruence|simpl; lia]).
  rewrite (vidx_lt x 0 0) by lia. cbn [bind]. rewrite Rleb_refl_true by auto.
  rewrite (vidx_lt x (length x - 1) 0) by lia. cbn [bind]. rewrite Rleb_refl_true by auto. reflexivity.
Qed.

Lemma ramp_lemma : forall p bm x lo hi yl yr, lo < hi ->
  (bm = Debug -> x <> [] /\ nth 0 x 0 <= lo /\ hi <= nth (length x - 1) x 0) ->
  exists f, Ramp (NT := RNum_at p) bm x lo hi yl yr = Ok (map f x) /\
    (forall v, v <= lo -> f v = yl) /\ (forall v, hi <= v -> f v = yr) /\
    (forall v, lo <= v <= hi -> (f v - yl) * (hi - lo) = (yr - yl) * (v - lo)) /\
    (forall v, Rmin yl yr <= f v <= Rmax yl yr) /\
    (forall v w, Rabs (f v - f w) <= Rabs (yr - yl) / (hi - lo) * Rabs (v - w)).
Proof.
  intros p bm x lo hi yl yr H Hd. exists (ramp1 lo hi yl yr).
  split; [apply ramp_ok; auto; lra|].
  assert (Hmid : forall v, lo <= v <= hi -> ramp1 lo hi yl yr v = yl + (yr - yl) * ((v - lo) / (hi - lo))).
  { intros v Hv. unfold ramp1. rcmp; [assert (v = lo) by lra; subst; field; lra|]. rcmp; [field; lra|lra]. }
  assert (Hlo : forall v, v <= lo -> ramp1 lo hi yl yr v = yl) by (intros v Hv; unfold ramp1; rcmp; auto; lra).
  assert (Hhi : forall v, hi <= v -> ramp1 lo hi yl yr v = yr).
  { intros v Hv. destruct (Req_dec v hi) as [->|].
    - rewrite Hmid by lra. field. lra.
    - unfold ramp1. rcmp; [lra|]. rcmp; [lra|auto]. }
  assert (Hc : forall v, exists t, 0 <= t <= 1 /\ ramp1 lo hi yl yr v = yl + (yr - yl) * t /\
                 t = (Rmax lo (Rmin hi v) - lo) / (hi - lo)).
  { intros v. exists ((Rmax lo (Rmin hi v) - lo) / (hi - lo)).
    assert (B : lo <= Rmax lo (Rmin hi v) <= hi).
    { split; [apply Rmax_l|]. apply Rmax_lub; [lra|apply Rmin_l]. }
    assert (P : 0 < / (hi - lo)) by (apply Rinv_0_lt_compat; lra).
    split; [|split; auto].
    - split; [apply Rmult_le_pos; lra|]. apply Rmult_le_reg_r with (hi - lo); [lra|].
      unfold Rdiv. rewrite Rmult_assoc, Rinv_l by lra. lra.
    - destruct (Rle_or_lt v lo) as [L|L]; [|destruct (Rle_or_lt hi v) as [U|U]].
      + rewrite Hlo by auto. rewrite (Rmin_right hi v), (Rmax_left lo v) by lra. field. lra.
      + rewrite Hhi by auto. rewrite (Rmin_left hi v), (Rmax_right lo hi) by lra. field. lra.
      + rewrite Hmid by lra. rewrite (Rmin_right hi v), (Rmax_right lo v) by lra. reflexivity. }
  split; [auto|]. split; [auto|]. split; [|split].
  - intros v Hv. rewrite Hmid by auto. field. lra.
  - intros v. destruct (Hc v) as (t & Ht & -> & _). unfold Rmin, Rmax.
    destruct (Rle_dec yl yr); split; nra.
  - intros v w. destruct (Hc v) as (t & _ & -> & Et). destruct (Hc w) as (s & _ & -> & Es).
    replace (yl + (yr - yl) * t - (yl + (yr - yl) * s)) with ((yr - yl) * (t - s)) by ring.
    rewrite Rabs_mult. unfold Rdiv. rewrite Rmult_assoc. apply Rmult_le_compat_l; [apply Rabs_pos|].
    replace (t - s) with (/ (hi - lo) * (Rmax lo (Rmin hi v) - Rmax lo (Rmin hi w))) by (subst; field; lra).
    rewrite Rabs_mult, (Rabs_pos_eq (/ (hi - lo))) by (left; apply Rinv_0_lt_compat; lra).
    apply Rmult_le_compat_l; [left; apply Rinv_0_lt_compat; lra|].
    unfold Rmin. destruct (Rle_dec hi v), (Rle_dec hi w); unfold Rmax;
      repeat match goal with |- context[Rle_dec ?a ?b] => destruct (Rle_dec a b) end;
      unfold Rabs; repeat match goal with |- context[Rcase_abs ?a] => destruct (Rcase_abs a) end; lra.
Qed.

Lemma ramp_pre_lemma : forall p x lo hi yl yr,
  (hi < lo -> Ramp (NT := RNum_at p) Debug x lo hi yl yr = Abort) /\
  (lo <= hi -> Ramp (NT := RNum_at p) Debug [] lo hi yl yr = UB) /\
  (lo <= hi -> x <> [] -> lo < nth 0 x 0 \/ nth (length x - 1) x 0 < hi ->
     Ramp (NT := RNum_at p) Debug x lo hi yl yr = Abort) /\
  (lo = hi -> Ramp (NT := RNum_at p) Release x lo hi yl yr = Ok (map (fun v => if Rle_dec v lo then yl else yr) x)).
Proof.
  intros p x lo hi yl yr. unfold Ramp. cbn [nle RNum_at]. repeat split.
  - intros H. cbn [cassert]. destruct (Rleb lo hi) eqn:E; [apply Rleb_true in E; lra|]. reflexivity.
  - intros H. rewrite Rleb_refl_true by auto. reflexivity.
  - intros H Hx Hb. rewrite Rleb_refl_true by auto. cbn [cassert bind].
    assert (Hl : (0 < length x)%nat) by (destruct x; [congruence|simpl; lia]).
    rewrite (vidx_lt x 0 0) by lia. cbn [bind].
    destruct (Rleb (nth 0 x 0) lo) eqn:E; [apply Rleb_true in E|reflexivity].
    rewrite (vidx_lt x (length x - 1) 0) by lia. cbn [bind].
    destruct (Rleb hi (nth (length x - 1) x 0)) eqn:E2; [apply Rleb_true in E2; destruct Hb; lra|reflexivity].
  - intros <-. cbn [cassert bind]. f_equal. apply map_ext. intros v.
    destruct (Rle_dec v lo); rcmp; try lra.
Qed.

Lemma sin_abs_le x : Rabs (sin x) <= Rabs x.
Proof.
  assert (H : forall y, 0 < y -> Rabs (sin y) <= y).
  { intros y Hy. apply Rabs_le. split; [|left; apply sin_lt_x; auto].
    destruct (Rle_or_lt y PI) as [L|L].
    - assert (0 <= sin y) by (apply sin_ge_0; lra). lra.
    - assert (-1 <= sin y) by apply SIN_bound. assert (Q := PI2_1). lra. }
  destruct (Rtotal_order x 0) as [L|[->|L]].
  - rewrite (Rabs_left x) by auto. rewrite <- (Rabs_Ropp (sin x)), <- sin_neg. apply H. lra.
  - rewrite sin_0. lra.
  - rewrite (Rabs_pos_eq x) by lra. apply H. auto.
Qed.

Lemma sinc_lemma : forall p x,
  exists f, Sinc (NT := RNum_at p) x = map f x /\
    f 0 = 1 /\ (forall v, f v * v = sin v) /\ (forall v, f (- v) = f v) /\ (forall v, Rabs (f v) <= 1).
Proof.
  intros p x. eexists. split; [reflexivity|]. cbv beta. cbn [neq nofZ RNum_at nsin ndiv RNumTr]. repeat split.
  - rcmp; lra.
  - intros v. rcmp; [subst; rewrite sin_0; ring|field; auto].
  - intros v. rcmp; rcmp; try lra. rewrite sin_neg. field. lra.
  - intros v. rcmp; [rewrite Rabs_R1; lra|]. unfold Rdiv. rewrite Rabs_mult, Rabs_inv.
    apply Rmult_le_reg_r with (Rabs v); [apply Rabs_pos_lt; auto|].
    rewrite Rmult_assoc, Rinv_l by (apply Rabs_no_R0; auto). rewrite Rmult_1_r, Rmult_1_l. apply sin_abs_le.
Qed.

Lemma sinc_range_lemma : forall p bm lo hi n, (2 <= n)%nat -> lo <= hi ->
  exists l, Sinc_range (NT := RNum_at p) bm lo hi n = Ok l /\ length l = n /\
    forall k, (k < n)%nat ->
      nth k l 0 * (lo + INR k * ((hi - lo) / INR (n - 1))) = sin (lo + INR k * ((hi - lo) / INR (n - 1))).
Proof.
  intros p bm lo hi n Hn H. destruct (linspace_lemma p bm lo hi n Hn H) as (l & H1 & (H2 & H3) & _).
  unfold Sinc_range. rewrite H1. cbn [bind]. destruct (sinc_lemma p l) as (f & -> & _ & Hf & _).
  eexists. split; [reflexivity|]. split; [rewrite map_length; auto|].
  intros k Hk. rewrite <- H3 by auto. destruct (map_elements f l) as [_ E]. rewrite E by lia. apply Hf.
Qed.

(** ** Check.h *)
Lemma isclose_spec p a b rtol atol :
  IsClose (NT := RNum_at p) a b rtol atol = true <-> Rabs (a - b) <= atol + rtol * Rabs b.
Proof. unfold IsClose. cbn [nle nfabs nsub nadd nmul RNum_at RNumFm]. split; intros H; [apply Rleb_true in H; auto|apply Rleb_refl_true; auto]. Qed.

Lemma isclose_lemma : forall p a b rtol atol, 0 <= rtol -> 0 <= atol ->
  IsClose (NT := RNum_at p) a a rtol atol = true /\
  (forall rtol' atol', rtol <= rtol' -> atol <= atol' ->
     IsClose (NT := RNum_at p) a b rtol atol = true -> IsClose (NT := RNum_at p) a b rtol' atol' = true) /\
  (rtol < 1 -> IsClose (NT := RNum_at p) a b rtol atol = true ->
     IsClose (NT := RNum_at p) b a (rtol / (1 - rtol)) (atol / (1 - rtol)) = true).
Proof.
  intros p a b rtol atol Hr Ha. rewrite !isclose_spec. split; [|split].
  - rewrite Rminus_diag_eq, Rabs_R0 by auto. assert (0 <= Rabs a) by apply Rabs_pos. nra.
  - intros rtol' atol' H1 H2. rewrite !isclose_spec. assert (0 <= Rabs b) by apply Rabs_pos. nra.
  - intros H1 H. rewrite isclose_spec. rewrite Rabs_minus_sym.
    assert (T : Rabs b <= Rabs a + Rabs (a - b)).
    { replace b with (a - (a - b)) at 1 by ring. apply Rle_trans with (1 := Rabs_triang _ _). rewrite Rabs_Ropp. lra. }
    apply Rmult_le_reg_r with (1 - rtol); [lra|].
    replace ((atol / (1 - rtol) + rtol / (1 - rtol) * Rabs a) * (1 - rtol)) with (atol + rtol * Rabs a) by (field; lra).
    nra.
Qed.

Lemma isclose_asym_pf : exists a b rtol,
  0 < rtol < 1 /\ IsClose (T := R) a b rtol 0 = true /\ IsClose (T := R) b a rtol 0 = false.
Proof.
  exists 1, 2, (1 / 2). split; [lra|]. split.
  - apply (isclose_spec PI). rewrite (Rabs_pos_eq 2) by lra. rewrite Rabs_left; lra.
  - destruct (IsClose 2 1 (1 / 2) 0) eqn:E; auto. apply (isclose_spec PI) in E.
    rewrite (Rabs_pos_eq 1), Rabs_pos_eq in E; lra.
Qed.

Lemma isclose_loop_eq p rtol atol : forall a b, length a = length b ->
  exists c, is_close_loop (NT := RNum_at p) a b rtol atol = Ok c /\
    (c = true <-> forall i, (i < length a)%nat -> Rabs (nth i a 0 - nth i b 0) <= atol + rtol * Rabs (nth i b 0)).
Proof.
  induction a as [|x a IH]; intros [|y b] H; try discriminate.
  - exists true. split; [reflexivity|]. simpl. split; auto. intros _ i Hi. lia.
  - cbn [is_close_loop]. destruct (IsClose x y rtol atol) eqn:E.
    + apply isclose_spec in E. destruct (IH b) as (c & H1 & H2); [simpl in H; lia|]. exists c. split; [auto|].
      rewrite H2. split; intros Hi.
      * intros [|i] L; simpl; [auto|]. apply Hi. simpl in L. lia.
      * intros i L. apply (Hi (S i)). simpl. lia.
    + exists false. split; [reflexivity|]. split; [discriminate|]. intros Hi.
      specialize (Hi 0%nat ltac:(simpl; lia)). simpl in Hi. apply (isclose_spec p) in Hi. congruence.
Qed.

Lemma isclose_vec_lemma : forall p bm a b rtol atol,
  (length a = length b ->
     exists c, IsClose_vec (NT := RNum_at p) bm a b rtol atol = Ok c /\
     (c = true <-> forall i, (i < length a)%nat -> Rabs (nth i a 0 - nth i b 0) <= atol + rtol * Rabs (nth i b 0))) /\
  (length a <> length b -> IsClose_vec (NT := RNum_at p) Debug a b rtol atol = Abort).
Proof.
  intros p bm a b rtol atol. split; intros H; unfold IsClose_vec.
  - rewrite H, Nat.eqb_refl. replace (cassert bm true) with (Ok tt) by (destruct bm; auto). cbn [bind].
    rewrite <- H. apply isclose_loop_eq. auto.
  - destruct (Nat.eqb_spec (length a) (length b)); [lia|reflexivity].
Qed.

Lemma parity_lemma : forall v : Z,
  (is_odd v = true <-> exists k, v = 2 * k + 1)%Z /\ (is_even v = true <-> exists k, v = 2 * k)%Z /\
  is_even v = negb (is_odd v).
Proof.
  intros v. unfold is_even, is_odd. rewrite negb_involutive.
  assert (H := Z.quot_rem' v 2). 
  assert (B : (Z.rem v 2 = 0 <-> exists k, v = 2 * k)%Z).
  { split; [intros R0; exists (Z.quot v 2); lia|]. intros (k & ->). rewrite Z.mul_comm. apply Z.rem_mul. lia. }
  split; [|split; [|reflexivity]].
  - rewrite negb_true_iff, Z.eqb_neq, B. split.
    + intros N. destruct (Z.Even_or_Odd v) as [(k & Hk)|(k & Hk)]; [exfalso; apply N; eauto|eauto].
    + intros (k & Hk) (j & Hj). lia.
  - rewrite Z.eqb_eq. exact B.
Qed.

(** ** Maths.h *)
Lemma sgn_lemma : forall p (v : R),
  (v < 0 -> sgn (NT := RNum_at p) v = (-1)%Z) /\ (v = 0 -> sgn (NT := RNum_at p) v = 0%Z) /\
  (0 < v -> sgn (NT := RNum_at p) v = 1%Z).
Proof.
  intros p v. unfold sgn. cbn [nlt nofZ RNum_at]. repeat split; intros H; rcmp; rcmp; try lra; reflexivity.
Qed.

Lemma saturate_lemma : forall p v lo hi, lo <= hi ->
  closest_point lo hi v (Saturate (NT := RNum_at p) v lo hi) /\
  (Saturate (NT := RNum_at p) v lo hi = v <-> lo <= v <= hi).
Proof.
  intros p v lo hi H. unfold Saturate, closest_point. cbn [nlt RNum_at].
  destruct (Rltb hi v) eqn:E1; [apply Rltb_true in E1|apply Rltb_false in E1];
    (split; [split|split]); repeat rcmp; try lra; try (intros; lra); try (split; lra);
    try (intros q Hq; unfold Rabs; destruct (Rcase_abs _), (Rcase_abs _); lra).
Qed.

Lemma sgnsqrt_lemma : forall p x,
  SgnSqrt (NT := RNum_at p) x * Rabs (SgnSqrt (NT := RNum_at p) x) = x.
Proof.
  intros p x. unfold SgnSqrt. destruct (sgn_lemma p x) as (H1 & H2 & H3).
  cbn [nmul nsqrt nfabs nofZ RNum_at RNumFm RNumTr].
  destruct (Rtotal_order x 0) as [L|[->|L]].
  - rewrite H1 by auto. rewrite Rabs_mult, (Rabs_left x) by auto.
    rewrite (Rabs_pos_eq (sqrt _)) by apply sqrt_pos. rewrite (Rabs_left (-1)) by lra.
    replace (-1 * sqrt (- x) * (- -1 * sqrt (- x))) with (- (sqrt (- x) * sqrt (- x))) by ring.
    rewrite sqrt_sqrt by lra. ring.
  - rewrite H2 by auto. ring.
  - rewrite H3 by auto. rewrite Rabs_mult, (Rabs_pos_eq x), (Rabs_pos_eq (sqrt _)) by (apply sqrt_pos || lra).
    rewrite (Rabs_pos_eq 1) by lra. replace (1 * sqrt x * (1 * sqrt x)) with (sqrt x * sqrt x) by ring.
    apply sqrt_sqrt. lra.
Qed.

(** Integers through a double. *)
Lemma f64_toZ_fin (x : f64) : is_finite x = true -> f64_toZ x = Some (Ztrunc (val x)).
Proof.
  intros H. assert (E : Btrunc x = Ztrunc (val x)).
  { apply eq_IZR. rewrite Btrunc_correct by exact emax1024. rewrite round_FIX_IZR. reflexivity. }
  rewrite <- E. destruct x; try discriminate; reflexivity.
Qed.

Lemma rnd_int c : exists z : Z, IZR z = rnd64 (IZR c).
Proof.
  assert (H : mult_of 0 (rnd64 (IZR c))).
  { apply mult_of_rnd. apply mult_of_iff. exists c. simpl. ring. }
  apply mult_of_iff in H. destruct H as (z & H). exists z. rewrite H. simpl. ring.
Qed.

Lemma rnd_int_id c : (Z.abs c <= 2 ^ 53)%Z -> rnd64 (IZR c) = IZR c.
Proof.
  intros H. destruct (Z.eq_dec (Z.abs c) (2 ^ 53)) as [E|E].
  - apply rnd64_id. assert (F : fmt64 (IZR (2 ^ 53))).
    { change (2 ^ 53)%Z with (Zpower radix2 53). rewrite IZR_Zpower by lia. apply fmt64_bpow. lia. }
    destruct (Z.abs_eq_or_opp c) as [E'|E']; rewrite E' in E.
    + rewrite E. exact F.
    + replace c with (- 2 ^ 53)%Z by lia. rewrite opp_IZR. apply generic_format_opp. exact F.
  - apply rnd64_id, fmt64_IZR. lia.
Qed.

Lemma rnd_int64_low c : (- 2 ^ 63 <= c)%Z -> - IZR (2 ^ 63) <= rnd64 (IZR c).
Proof.
  intros H. assert (F : fmt64 (- IZR (2 ^ 63))).
  { apply generic_format_opp. change (2 ^ 63)%Z with (Zpower radix2 63). rewrite IZR_Zpower by lia. apply fmt64_bpow. lia. }
  rewrite <- (rnd64_id _ F). apply rnd64_le. rewrite <- opp_IZR. apply IZR_le. auto.
Qed.

Lemma saturate_int_gen : forall lo_T hi_T v lo hi, int64 v -> int64 lo -> int64 hi -> (lo <= hi)%Z ->
  exists z, IZR z = dround (IZR (clampZ lo hi v)) /\
    ((Z.abs (clampZ lo hi v) <= 2 ^ 53)%Z -> z = clampZ lo hi v) /\
    (- 2 ^ 63 <= z)%Z /\
    Saturate_int lo_T hi_T v lo hi = if ((lo_T <=? z) && (z <=? hi_T))%Z then Ok z else UB.
Proof.
  unfold int64. intros lo_T hi_T v lo hi Hv Hlo Hhi H.
  destruct (rnd_int (clampZ lo hi v)) as (z & Hz). exists z.
  change (dround (IZR (clampZ lo hi v))) with (rnd64 (IZR (clampZ lo hi v))).
  split; [exact Hz|]. split.
  { intros Hs. apply eq_IZR. rewrite Hz. apply rnd_int_id. auto. }
  split.
  { apply le_IZR. rewrite Hz, opp_IZR. apply rnd_int64_low. unfold clampZ. lia. }
  unfold Saturate_int.
  set (m := (if (hi <? v)%Z then hi else v)).
  assert (Hm : m = Z.min hi v) by (unfold m; destruct (Z.ltb_spec hi v); lia).
  destruct (ofZ_gen m ltac:(lia)) as [Fm Vm]. destruct (ofZ_gen lo ltac:(lia)) as [Fl Vl].
  assert (Hc : clampZ lo hi v = Z.max lo m) by (unfold clampZ; rewrite Hm; reflexivity).
  cbn [nlt F64Num]. rewrite Bltb_correct by auto.
  set (x := if Rlt_bool (val (f64_ofZ m)) (val (f64_ofZ lo)) then f64_ofZ lo else f64_ofZ m).
  assert (Hx : is_finite x = true /\ val x = IZR z).
  { rewrite Hz, Hc. unfold x. destruct (Rlt_bool_spec (val (f64_ofZ m)) (val (f64_ofZ lo))) as [L|L].
    - split; auto. rewrite Vl. rewrite Vm, Vl in L. destruct (Z.max_spec lo m) as [[A B]|[A B]]; rewrite B; auto.
      exfalso. assert (rnd64 (IZR lo) <= rnd64 (IZR m)) by (apply rnd64_le, IZR_le; lia). lra.
    - split; auto. rewrite Vm. rewrite Vm, Vl in L. destruct (Z.max_spec lo m) as [[A B]|[A B]]; rewrite B; auto.
      apply Rle_antisym; [apply rnd64_le, IZR_le; lia|auto]. }
  destruct Hx as [Fx Vx]. rewrite f64_toZ_fin, Vx, Ztrunc_IZR by auto.
  reflexivity.
Qed.

Lemma saturate_int_lemma : forall v lo hi, int64 v -> int64 lo -> int64 hi -> (lo <= hi)%Z ->
  exists z, IZR z = dround (IZR (clampZ lo hi v)) /\
    Saturate_int (- 2 ^ 63) (2 ^ 63 - 1) v lo hi = if (z <=? 2 ^ 63 - 1)%Z then Ok z else UB.
Proof.
  intros v lo hi Hv Hlo Hhi H. destruct (saturate_int_gen (- 2 ^ 63) (2 ^ 63 - 1) v lo hi Hv Hlo Hhi H) as (z & H1 & _ & H3 & H4).
  exists z. split; [auto|]. rewrite H4. destruct (Z.leb_spec (- 2 ^ 63) z); [|lia]. reflexivity.
Qed.

Lemma saturate_small_lemma : forall lo_T hi_T v lo hi, (lo_T <= lo <= hi)%Z -> (hi <= hi_T)%Z ->
  int64 v -> (- 2 ^ 53 <= lo)%Z -> (hi <= 2 ^ 53)%Z ->
  Saturate_int lo_T hi_T v lo hi = Ok (clampZ lo hi v).
Proof.
  intros lo_T hi_T v lo hi H1 H2 H3 H4 H5.
  destruct (saturate_int_gen lo_T hi_T v lo hi) as (z & _ & E & _ & H); auto; try (unfold int64; lia).
  rewrite H, E by (unfold clampZ; lia).
  destruct (Z.leb_spec lo_T (clampZ lo hi v)); [|unfold clampZ in *; lia].
  destruct (Z.leb_spec (clampZ lo hi v) hi_T); [|unfold clampZ in *; lia]. reflexivity.
Qed.

Lemma saturate_int_refuted_pf :
  Saturate_int (- 2 ^ 63) (2 ^ 63 - 1) (2 ^ 53 + 1) 0 (2 ^ 62) = Ok (2 ^ 53)%Z /\
  Saturate_int (- 2 ^ 63) (2 ^ 63 - 1) (2 ^ 63 - 1) 0 (2 ^ 63 - 1) = UB.
Proof. split; vm_compute; reflexivity. Qed.

(** ** Angle units *)
Lemma trigo_lemma : forall (a : R),
  get_trigo a RAD = (cos a, sin a) /\ get_trigo a DEG = (cos (a * (PI / 180)), sin (a * (PI / 180))) /\
  forall u, fst (get_trigo a u) * fst (get_trigo a u) + snd (get_trigo a u) * snd (get_trigo a u) = 1.
Proof.
  intros a. split; [reflexivity|]. split; [reflexivity|].
  assert (H : forall t, cos t * cos t + sin t * sin t = 1) by (intros t; generalize (sin2_cos2 t); unfold Rsqr; lra).
  intros []; apply H.
Qed.

Lemma string2angle_lemma : forall s u,
  (string2angle s = Ok u <-> (s = String.String "D" (String.String "E" (String.String "G" String.EmptyString)) /\ u = DEG) \/
                             (s = String.String "R" (String.String "A" (String.String "D" String.EmptyString)) /\ u = RAD)) /\
  (~ (exists u', string2angle s = Ok u') -> string2angle s = Exit 1).
Proof.
  intros s u. unfold string2angle.
  destruct (String.eqb_spec s (String.String "D" (String.String "E" (String.String "G" String.EmptyString)))) as [->|N1].
  - split; [|intros N; exfalso; apply N; eauto]. split; [intros E; inversion E; auto|]. intros [[_ ->]|[H _]]; [auto|discriminate].
  - destruct (String.eqb_spec s (String.String "R" (String.String "A" (String.String "D" String.EmptyString)))) as [->|N2].
    + split; [|intros N; exfalso; apply N; eauto]. split; [intros E; inversion E; auto|]. intros [[H _]|[_ ->]]; [discriminate|auto].
    + split; [|auto]. split; [discriminate|]. intros [[-> _]|[-> _]]; congruence.
Qed.

Lemma binary_lemma : forall p,
  elementwise Rplus (vec_add (NT := RNum_at p)) /\ elementwise Rminus (vec_minus (NT := RNum_at p)) /\
  elementwise Rmult (vec_mult (NT := RNum_at p)) /\ elementwise Rdiv (vec_divide (NT := RNum_at p)).
Proof. intros p. repeat split; apply zip_elementwise. Qed.
