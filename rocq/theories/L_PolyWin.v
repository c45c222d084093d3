(** A cheaper sign test for polynomials with long coefficients: move the
    interval to [0, w) and round the coefficients down. *)
From Coq Require Import ZArith Reals Lra Lia Bool List.
From Coquelicot Require Import Coquelicot.
From Verif Require Import L_Poly.
Import ListNotations.
Open Scope R_scope.

(** Coefficients divided by 2^k, rounded down. *)
Definition zfloor (k : Z) (c : list Z) : list Z := map (fun z => Z.shiftr z k) c.
Lemma zfloor_val k c x : (0 <= k)%Z -> 0 <= x ->
  IZR (2 ^ k) * zev (zfloor k c) x <= zev c x <= IZR (2 ^ k) * (zev (zfloor k c) x + zev (map (fun _ => 1%Z) c) x).
Proof.
  intros Hk Hx. assert (P : (0 < 2 ^ k)%Z) by (apply Z.pow_pos_nonneg; lia).
  induction c as [|h c IH]; [cbn; lra|]. cbn [zfloor map zev]. fold (zfloor k c).
  rewrite Z.shiftr_div_pow2 by exact Hk.
  assert (E := Z.div_mod h (2 ^ k) ltac:(lia)). assert (M := Z.mod_pos_bound h (2 ^ k) P).
  assert (E1 : (2 ^ k * (h / 2 ^ k) <= h)%Z) by lia. assert (E2 : (h <= 2 ^ k * (h / 2 ^ k) + 2 ^ k)%Z) by lia.
  apply IZR_le in E1, E2. rewrite plus_IZR in E2. rewrite mult_IZR in E1, E2.
  destruct IH as [I1 I2]. apply (Rmult_le_compat_l x) in I1, I2; try exact Hx. lra.
Qed.
(** The number of bits to drop so that about [bits] remain. *)
Definition shave (bits : Z) (c : list Z) : Z :=
  Z.max 0 (fold_right (fun z m => Z.max (Z.log2 (Z.abs z)) m) 0%Z c - bits).
Lemma shave_pos bits c : (0 <= shave bits c)%Z.
Proof. unfold shave. lia. Qed.
Definition zround (bits : Z) (c : list Z) : list Z := zfloor (shave bits c) c.
Lemma zround_pos bits c x : 0 <= x -> 0 < zev (zround bits c) x -> 0 < zev c x.
Proof.
  intros Hx H. destruct (zfloor_val (shave bits c) c x (shave_pos _ _) Hx) as [F _].
  assert (P : 0 < IZR (2 ^ shave bits c)) by (apply IZR_lt, Z.pow_pos_nonneg; [lia|apply shave_pos]). unfold zround in H.
  assert (0 < IZR (2 ^ shave bits c) * zev (zfloor (shave bits c) c) x) by (apply Rmult_lt_0_compat; assumption). lra.
Qed.

(** Positive on [0,1] because the constant term outweighs the negative ones. *)
Definition zquick (c : list Z) : bool :=
  match c with [] => false | h :: c' => (0 <? h + fold_right (fun z s => Z.min 0 z + s) 0 c')%Z end.
Lemma zquick_val c x : zquick c = true -> 0 <= x <= 1 -> 0 < zev c x.
Proof.
  intros H Hx. destruct c as [|h c]; [discriminate|]. cbn [zquick] in H. apply Z.ltb_lt in H. apply IZR_lt in H. rewrite plus_IZR in H.
  cbn [zev]. assert (K : forall c, IZR (fold_right (fun z s => Z.min 0 z + s) 0 c)%Z <= x * zev c x /\ IZR (fold_right (fun z s => Z.min 0 z + s) 0 c)%Z <= zev c x /\ (fold_right (fun z s => Z.min 0 z + s) 0 c <= 0)%Z).
  { clear h c H. induction c as [|h c [I1 [I2 I3]]]; [cbn; split; [|split]; [lra|lra|lia]|]. cbn [fold_right zev].
    assert (M1 : IZR (Z.min 0 h) <= IZR h) by (apply IZR_le; lia). assert (M0 : IZR (Z.min 0 h) <= 0) by (apply IZR_le; lia).
    apply IZR_le in I3. set (s := fold_right _ _ _) in *. rewrite plus_IZR. set (m := IZR (Z.min 0 h)) in *.
    assert (S1 : m + IZR s <= IZR h + x * zev c x) by lra.
    assert (S2 : m + IZR s <= 0) by lra.
    split; [|split].
    - destruct (Rle_lt_dec 0 (IZR h + x * zev c x)) as [L|L]; [assert (0 <= x * (IZR h + x * zev c x)) by (apply Rmult_le_pos; lra); lra|nra].
    - exact S1.
    - apply le_IZR. rewrite plus_IZR. exact S2. }
  destruct (K c) as [K1 _]. lra.
Qed.

(** d^n c(z/d). *)
Fixpoint zdilr (d : Z) (c : list Z) : list Z * Z :=
  match c with [] => ([], 1%Z) | h :: c' => let (l, w) := zdilr d c' in ((h * w)%Z :: l, (w * d)%Z) end.
Lemma zdilr_val d c y : IZR d * zev (fst (zdilr d c)) (IZR d * y) = IZR (snd (zdilr d c)) * zev c y /\ ((0 < d)%Z -> (0 < snd (zdilr d c))%Z).
Proof.
  induction c as [|h c [IH P]]; [cbn; split; [ring|reflexivity]|]. cbn [zdilr].
  destruct (zdilr d c) as [l w]. cbn [fst snd zev] in *. split.
  - rewrite !mult_IZR. replace (IZR d * (IZR h * IZR w + IZR d * y * zev l (IZR d * y)))
      with (IZR d * (IZR h * IZR w) + IZR d * y * (IZR d * zev l (IZR d * y))) by ring. rewrite IH. ring.
  - intros H. apply Z.mul_pos_pos; [apply P, H|exact H].
Qed.

(** c(k z). *)
Fixpoint zdil_from (w k : Z) (c : list Z) : list Z := match c with [] => [] | h :: c' => (w * h)%Z :: zdil_from (w * k) k c' end.
Definition zdil (k : Z) (c : list Z) := zdil_from 1 k c.
Lemma zdil_from_val k c y : forall w, zev (zdil_from w k c) y = IZR w * zev c (IZR k * y).
Proof.
  induction c as [|h c IH]; intros w; [cbn; ring|]. cbn [zdil_from zev]. rewrite IH, !mult_IZR. ring.
Qed.
Lemma zdil_val k c y : zev (zdil k c) y = zev c (IZR k * y).
Proof. unfold zdil. rewrite zdil_from_val. ring. Qed.

(** c(a + z). *)
Fixpoint zsh (a : Z) (c : list Z) : list Z :=
  match c with [] => [] | h :: c' => let s := zsh a c' in zadd (h :: s) (zscale a s) end.
Lemma zsh_val a c t : zev (zsh a c) t = zev c (IZR a + t).
Proof. induction c as [|h c IH]; [reflexivity|]. cbn [zsh]. rewrite zev_add, zev_scale, zev_cons, IH, zev_cons. ring. Qed.
Fixpoint zsh1 (c : list Z) : list Z :=
  match c with [] => [] | h :: c' => let s := zsh1 c' in zadd (h :: s) s end.
Lemma zsh1_val c t : zev (zsh1 c) t = zev c (1 + t).
Proof. induction c as [|h c IH]; [reflexivity|]. cbn [zsh1]. rewrite zev_add, zev_cons, IH, zev_cons. ring. Qed.

(** Positive on [0,1]: at 0, and the reversed polynomial from 1 on. *)
Lemma zev_snoc c h x : zev (c ++ [h]) x = zev c x + x ^ length c * IZR h.
Proof. induction c as [|k c IH]; cbn [app zev length pow]; [ring|]. rewrite IH. ring. Qed.
Lemma zev_rev c x : x <> 0 -> x * zev c x = x ^ length c * zev (rev c) (/ x).
Proof.
  intros H. induction c as [|h c IH]; [cbn; ring|]. cbn [rev zev length pow]. rewrite zev_snoc, rev_length.
  replace (x * (IZR h + x * zev c x)) with (x * IZR h + x * (x * zev c x)) by ring. rewrite IH.
  replace (x * x ^ length c * (zev (rev c) (/ x) + (/ x) ^ length c * IZR h))
    with (x * (x ^ length c * zev (rev c) (/ x)) + x * (x ^ length c * (/ x) ^ length c) * IZR h) by ring.
  rewrite <- Rpow_mult_distr, Rinv_r, pow1 by exact H. ring.
Qed.
Definition zunit (c : list Z) : bool := zquick c || ((0 <? hd 0 c)%Z && zpos (zsh1 (rev c))).
Lemma zunit_val c x : zunit c = true -> 0 <= x <= 1 -> 0 < zev c x.
Proof.
  intros H Hx. apply orb_true_iff in H. destruct H as [H|H]; [apply (zquick_val _ _ H Hx)|].
  apply andb_true_iff in H. destruct H as [H0 H]. apply Z.ltb_lt in H0. apply IZR_lt in H0.
  destruct (Req_dec x 0) as [->|N].
  - destruct c as [|h c]; cbn in *; lra.
  - assert (X : 0 < x) by lra. assert (I : 0 <= / x - 1).
    { assert (1 <= / x); [|lra]. rewrite <- Rinv_1. apply Rinv_le_contravar; lra. }
    assert (P := zpos_val _ _ I H). rewrite zsh1_val in P. replace (1 + (/ x - 1)) with (/ x) in P by ring.
    assert (E := zev_rev c x N). assert (W := pow_lt x (length c) X).
    apply (Rmult_lt_reg_l x); [exact X|]. rewrite E, Rmult_0_r. apply Rmult_lt_0_compat; assumption.
Qed.

(** Positive on [a/d, b/d]. *)
Definition zwin (bits a b d : Z) (c : list Z) : bool :=
  (0 <? d)%Z && (0 <? b - a)%Z && zunit (zdil (b - a) (zround bits (zsh a (fst (zdilr d c))))).
Lemma zwin_val bits a b d c x : zwin bits a b d c = true -> IZR a / IZR d <= x <= IZR b / IZR d -> 0 < zev c x.
Proof.
  unfold zwin. intros H Hx. apply andb_true_iff in H. destruct H as [H0 H]. apply andb_true_iff in H0. destruct H0 as [Hd Hw].
  apply Z.ltb_lt in Hd, Hw. apply IZR_lt in Hw.
  assert (D := IZR_lt _ _ Hd). destruct (zdilr_val d c x) as [E W]. specialize (W Hd). apply IZR_lt in W.
  assert (X : 0 <= IZR d * x - IZR a <= IZR (b - a)).
  { rewrite minus_IZR. destruct Hx as [H1 H2]. apply (Rmult_le_compat_l (IZR d)) in H1, H2; [|lra..].
    replace (IZR d * (IZR a / IZR d)) with (IZR a) in H1 by (field; lra). replace (IZR d * (IZR b / IZR d)) with (IZR b) in H2 by (field; lra). lra. }
  set (w := IZR (b - a)) in *. set (y := IZR d * x - IZR a) in *.
  assert (Y : 0 <= y / w <= 1).
  { split; [apply Rmult_le_pos; [lra|left; apply Rinv_0_lt_compat, Hw]|]. apply (Rmult_le_reg_r w); [exact Hw|].
    replace (y / w * w) with y by (field; lra). lra. }
  assert (P := zunit_val _ _ H Y). rewrite zdil_val in P. fold w in P. replace (w * (y / w)) with y in P by (field; lra).
  apply zround_pos in P; [|lra]. rewrite zsh_val in P. replace (IZR a + y) with (IZR d * x) in P by (unfold y; ring).
  assert (0 < IZR d * zev (fst (zdilr d c)) (IZR d * x)) by (apply Rmult_lt_0_compat; assumption).
  rewrite E in H0. apply (Rmult_lt_reg_l (IZR (snd (zdilr d c)))); [exact W|]. lra.
Qed.
Fixpoint zwins_aux (bits a : Z) (cuts : list Z) (d : Z) (c : list Z) : bool :=
  match cuts with [] => true | b :: cuts' => zwin bits a b d c && zwins_aux bits b cuts' d c end.
Lemma last_cons (l : list Z) : forall b e, last (e :: l) b = last l e.
Proof. induction l as [|g l IH]; intros b e; [reflexivity|]. change (last (e :: g :: l) b) with (last (g :: l) b). rewrite !IH. reflexivity. Qed.
Lemma zwins_aux_val bits c d b cuts : forall a x, zwins_aux bits a (b :: cuts) d c = true ->
  IZR a / IZR d <= x <= IZR (last cuts b) / IZR d -> 0 < zev c x.
Proof.
  revert b. induction cuts as [|e cuts IH]; intros b a x H Hx.
  - cbn in H. rewrite andb_true_r in H. apply (zwin_val bits a b d); [exact H|exact Hx].
  - cbn [zwins_aux] in H. apply andb_true_iff in H. destruct H as [H1 H2].
    destruct (Rle_lt_dec x (IZR b / IZR d)) as [L|L].
    + apply (zwin_val bits a b d); [exact H1|lra].
    + apply (IH e b); [exact H2|]. split; [lra|]. rewrite <- (last_cons cuts b). apply Hx.
Qed.
(** Positive on [a/d, a1/d], [a1/d, a2/d], ...; [pre] and [bits] are the bits kept
    before and after the shift. *)
Definition zwins (pre bits a b : Z) (cuts : list Z) (d : Z) (c : list Z) : bool :=
  (0 <=? a)%Z && (0 <? d)%Z && zwins_aux bits a (b :: cuts) d (zround pre c).
Lemma zwins_val pre bits c d a b cuts x : zwins pre bits a b cuts d c = true ->
  IZR a / IZR d <= x <= IZR (last cuts b) / IZR d -> 0 < zev c x.
Proof.
  unfold zwins. intros H Hx. apply andb_true_iff in H. destruct H as [H0 H]. apply andb_true_iff in H0. destruct H0 as [Ha Hd].
  apply Z.leb_le, IZR_le in Ha. apply Z.ltb_lt, IZR_lt in Hd.
  apply (zround_pos pre); [|apply (zwins_aux_val _ _ _ _ _ _ _ H Hx)].
  apply Rle_trans with (2 := proj1 Hx). apply Rmult_le_pos; [exact Ha|left; apply Rinv_0_lt_compat, Hd].
Qed.

(** Value at an integer. *)
Fixpoint zatZ (n : Z) (c : list Z) : Z := match c with [] => 0%Z | h :: c' => (h + n * zatZ n c')%Z end.
Lemma zatZ_val n c : zev c (IZR n) = IZR (zatZ n c).
Proof. induction c as [|h c IH]; [reflexivity|]. cbn [zatZ]. rewrite zev_cons, IH, plus_IZR, mult_IZR. reflexivity. Qed.

(** Rounding up, and products of rounded factors. *)
Definition zceil (k : Z) (c : list Z) : list Z := zadd (zfloor k c) (map (fun _ => 1%Z) c).
Lemma ones_pos (c : list Z) x : 0 <= x -> 0 <= zev (map (fun _ => 1%Z) c) x.
Proof.
  intros H. induction c as [|h c IH]; [cbn; lra|]. cbn [map zev]. assert (0 <= x * zev (map (fun _ => 1%Z) c) x) by (apply Rmult_le_pos; assumption). lra.
Qed.
Lemma pow2_pos k : (0 <= k)%Z -> 0 < IZR (2 ^ k).
Proof. intros H. apply IZR_lt, Z.pow_pos_nonneg; lia. Qed.
Lemma zceil_val k c x : (0 <= k)%Z -> 0 <= x -> zev c x <= IZR (2 ^ k) * zev (zceil k c) x /\ zev (zfloor k c) x <= zev (zceil k c) x.
Proof.
  intros Hk Hx. destruct (zfloor_val k c x Hk Hx) as [_ U]. assert (O := ones_pos c x Hx). unfold zceil. rewrite zev_add. split; lra.
Qed.
Lemma prod_up n m C T x : (0 <= n)%Z -> (0 <= m)%Z -> 0 <= x -> 0 < zev (zfloor n C) x -> 0 <= zev T x ->
  zev C x * zev T x <= IZR (2 ^ (n + m)) * (zev (zceil n C) x * zev (zceil m T) x).
Proof.
  intros Hn Hm Hx HC HT. destruct (zceil_val n C x Hn Hx) as [C1 C2]. destruct (zceil_val m T x Hm Hx) as [T1 _].
  rewrite Z.pow_add_r, mult_IZR by assumption. assert (N := pow2_pos n Hn). assert (M := pow2_pos m Hm).
  set (w := IZR (2 ^ n)) in *. set (v := IZR (2 ^ m)) in *.
  apply Rle_trans with (w * zev (zceil n C) x * zev T x); [apply Rmult_le_compat_r; assumption|].
  replace (w * v * (zev (zceil n C) x * zev (zceil m T) x)) with (w * zev (zceil n C) x * (v * zev (zceil m T) x)) by ring.
  apply Rmult_le_compat_l; [apply Rmult_le_pos; lra|exact T1].
Qed.
Lemma prod_lo n m C T x : (0 <= n)%Z -> (0 <= m)%Z -> 0 <= x -> 0 < zev (zfloor n C) x -> 0 < zev (zfloor m T) x ->
  IZR (2 ^ (n + m)) * (zev (zfloor n C) x * zev (zfloor m T) x) <= zev C x * zev T x.
Proof.
  intros Hn Hm Hx HC HT. destruct (zfloor_val n C x Hn Hx) as [C1 _]. destruct (zfloor_val m T x Hm Hx) as [T1 _].
  rewrite Z.pow_add_r, mult_IZR by assumption. assert (N := pow2_pos n Hn). assert (M := pow2_pos m Hm).
  set (w := IZR (2 ^ n)) in *. set (v := IZR (2 ^ m)) in *.
  replace (w * v * (zev (zfloor n C) x * zev (zfloor m T) x)) with (w * zev (zfloor n C) x * (v * zev (zfloor m T) x)) by ring.
  apply Rmult_le_compat; try assumption; apply Rmult_le_pos; lra.
Qed.
