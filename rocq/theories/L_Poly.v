(** Integer polynomials, evaluated at reals, with a sign test on intervals. *)
From Coq Require Import ZArith Reals Lra Lia Bool List.
From Coquelicot Require Import Coquelicot.
Import ListNotations.
Open Scope R_scope.

Fixpoint zev (c : list Z) (x : R) : R := match c with [] => 0 | a :: c' => IZR a + x * zev c' x end.

Fixpoint zadd (a b : list Z) : list Z :=
  match a, b with
  | [], _ => b
  | _, [] => a
  | x :: a', y :: b' => (x + y)%Z :: zadd a' b'
  end.
Definition zscale (k : Z) (a : list Z) : list Z := map (Z.mul k) a.
Definition zsub (a b : list Z) : list Z := zadd a (zscale (-1) b).
Fixpoint zmul (a b : list Z) : list Z :=
  match a with [] => [] | x :: a' => zadd (zscale x b) (0%Z :: zmul a' b) end.
Fixpoint zder_from (k : Z) (a : list Z) : list Z :=
  match a with [] => [] | x :: a' => (k * x)%Z :: zder_from (k + 1) a' end.
Definition zder (a : list Z) : list Z := match a with [] => [] | _ :: a' => zder_from 1 a' end.

Lemma zev_add a b x : zev (zadd a b) x = zev a x + zev b x.
Proof.
  revert b. induction a as [|h a IH]; intros [|k b]; cbn; try ring. rewrite IH, plus_IZR. ring.
Qed.
Lemma zev_scale k a x : zev (zscale k a) x = IZR k * zev a x.
Proof.
  unfold zscale. induction a as [|h a IH]; [cbn; ring|].
  change (map (Z.mul k) (h :: a)) with ((k * h)%Z :: map (Z.mul k) a). cbn [zev]. rewrite IH, mult_IZR. ring.
Qed.
Lemma zev_sub a b x : zev (zsub a b) x = zev a x - zev b x.
Proof. unfold zsub. rewrite zev_add, zev_scale. ring. Qed.
Lemma zev_cons a c x : zev (a :: c) x = IZR a + x * zev c x.
Proof. reflexivity. Qed.
Lemma zev_mul a b x : zev (zmul a b) x = zev a x * zev b x.
Proof.
  induction a as [|h a IH]; cbn [zmul]; [cbn; ring|].
  rewrite zev_add, zev_scale, !zev_cons, IH. ring.
Qed.

Lemma zder_from_val c : forall k x, zev (zder_from k c) x = IZR k * zev c x + x * zev (zder c) x.
Proof.
  induction c as [|h c IH]; intros k x; [cbn; ring|].
  cbn [zder_from zder]. rewrite !zev_cons. rewrite (IH (k + 1)%Z), (IH 1%Z), mult_IZR, plus_IZR. ring.
Qed.
Lemma zev_derive c x : is_derive (zev c) x (zev (zder c) x).
Proof.
  apply is_derive_Reals. induction c as [|h c IH].
  - apply (derivable_pt_lim_const 0).
  - cbn [zder]. rewrite zder_from_val.
    assert (D := derivable_pt_lim_plus _ _ _ _ _ (derivable_pt_lim_const (IZR h) x)
                   (derivable_pt_lim_mult _ _ _ _ _ (derivable_pt_lim_id x) IH)).
    unfold id in D. replace (1 * zev c x + x * zev (zder c) x) with (0 + (1 * zev c x + x * zev (zder c) x)) by ring.
    exact D.
Qed.
Lemma zev_continuous c x : continuous (zev c) x.
Proof.
  apply continuity_pt_filterlim. apply derivable_continuous_pt. exists (zev (zder c) x).
  apply is_derive_Reals. apply zev_derive.
Qed.

(** x / d for x, times d^n; m x for x, times w; reversal. *)
Fixpoint zdil (d : Z) (c : list Z) : list Z * Z :=
  match c with [] => ([], 1%Z) | h :: c' => let (l, w) := zdil d c' in ((h * w)%Z :: l, (w * d)%Z) end.
Lemma zdil_val d c x : IZR (snd (zdil d c)) = IZR d ^ length c /\ IZR d * zev (fst (zdil d c)) (IZR d * x) = IZR d ^ length c * zev c x.
Proof.
  induction c as [|h c [IH1 IH2]]; [cbn; split; ring|]. cbn [zdil]. destruct (zdil d c) as [l w]. cbn [fst snd length pow] in *.
  rewrite zev_cons, !mult_IZR, IH1, zev_cons. split; [ring|].
  replace (IZR d * (IZR h * IZR d ^ length c + IZR d * x * zev l (IZR d * x))) with (IZR d * (IZR h * IZR d ^ length c + x * (IZR d * zev l (IZR d * x)))) by ring.
  rewrite IH2. ring.
Qed.
Fixpoint zscl (m w : Z) (c : list Z) : list Z := match c with [] => [] | h :: c' => (w * h)%Z :: zscl m (m * w) c' end.
Lemma zscl_val m c x : forall w, zev (zscl m w c) x = IZR w * zev c (IZR m * x).
Proof. induction c as [|h c IH]; intros w; [cbn; ring|]. cbn [zscl]. rewrite !zev_cons, IH, !mult_IZR. ring. Qed.
Lemma zev_app a b x : zev (a ++ b) x = zev a x + x ^ length a * zev b x.
Proof. induction a as [|h a IH]; [cbn; ring|]. cbn [app]. rewrite !zev_cons, IH. cbn [length pow]. ring. Qed.
Lemma zev_rev c z : z <> 0 -> z * zev (rev c) z = z ^ length c * zev c (/ z).
Proof.
  intros H. induction c as [|h c IH]; [cbn; ring|]. cbn [rev]. rewrite zev_app, Rmult_plus_distr_l, IH, rev_length, !zev_cons. cbn [zev length pow]. field. exact H.
Qed.
Fixpoint zshift (a : Z) (c : list Z) : list Z :=
  match c with [] => [] | h :: c' => zadd [h] (zmul [a; 1%Z] (zshift a c')) end.
Lemma zshift_val a c t : zev (zshift a c) t = zev c (IZR a + t).
Proof.
  induction c as [|h c IH]; [reflexivity|]. cbn [zshift]. rewrite zev_add, zev_mul, IH. cbn [zev]. ring.
Qed.

Definition zpos (c : list Z) : bool :=
  match c with [] => false | h :: c' => (0 <? h)%Z && forallb (fun z => (0 <=? z)%Z) c' end.
Lemma znonneg_val c t : 0 <= t -> forallb (fun z => (0 <=? z)%Z) c = true -> 0 <= zev c t.
Proof.
  intros Ht. induction c as [|h c IH]; intros H; cbn in H; [cbn; lra|].
  apply andb_true_iff in H. destruct H as [H1 H2]. apply Z.leb_le in H1. apply IZR_le in H1.
  rewrite zev_cons. specialize (IH H2). assert (0 <= t * zev c t) by (apply Rmult_le_pos; assumption). lra.
Qed.
Lemma zpos_val c t : 0 <= t -> zpos c = true -> 0 < zev c t.
Proof.
  intros Ht. destruct c as [|h c]; [discriminate|]. cbn [zpos]. intros H.
  apply andb_true_iff in H. destruct H as [H1 H2]. apply Z.ltb_lt in H1. apply IZR_lt in H1.
  rewrite zev_cons. assert (P := znonneg_val c t Ht H2). assert (0 <= t * zev c t) by (apply Rmult_le_pos; assumption). lra.
Qed.

(** Positive on [a/d, b/d): with x = (b + (a - b) s) / d and s = 1 / (1 + v). *)
Definition zpos_on (a b d : Z) (c : list Z) : bool :=
  (0 <? d)%Z && zpos (zshift 1 (rev (zscl (a - b) 1 (zshift b (fst (zdil d c)))))).
Lemma zpos_on_val a b d c x : zpos_on a b d c = true -> IZR a / IZR d <= x < IZR b / IZR d -> 0 < zev c x.
Proof.
  intros H Hx. unfold zpos_on in H. apply andb_true_iff in H. destruct H as [Hd H].
  apply Z.ltb_lt in Hd. apply IZR_lt in Hd.
  set (D := IZR d) in *. set (A := IZR a) in *. set (B := IZR b) in *.
  assert (Hb : 0 < B - D * x).
  { destruct Hx as [_ Hx]. apply (Rmult_lt_compat_l D) in Hx; [|exact Hd].
    replace (D * (B / D)) with B in Hx by (field; lra). lra. }
  assert (Ha : 0 <= D * x - A).
  { destruct Hx as [Hx _]. apply (Rmult_le_compat_l D) in Hx; [|lra].
    replace (D * (A / D)) with A in Hx by (field; lra). lra. }
  set (v := (D * x - A) / (B - D * x)).
  assert (Hv : 0 <= v) by (unfold v; apply Rmult_le_pos; [exact Ha|left; apply Rinv_0_lt_compat, Hb]).
  assert (P := zpos_val _ v Hv H). rewrite zshift_val in P. set (l := fst (zdil d c)) in *.
  assert (E := zev_rev (zscl (a - b) 1 (zshift b l)) (1 + v) ltac:(lra)). rewrite zscl_val, zshift_val, minus_IZR in E. fold A B in E.
  replace (B + (A - B) * / (1 + v)) with (D * x) in E by (unfold v; field; split; lra).
  destruct (zdil_val d c x) as [_ F]. fold l D in F.
  set (k := length (zscl (a - b) 1 (zshift b l))) in *. assert (K := pow_lt (1 + v) k ltac:(lra)). assert (K2 := pow_lt D (length c) Hd).
  assert (0 < (1 + v) * zev (rev (zscl (a - b) 1 (zshift b l))) (1 + v)) by (apply Rmult_lt_0_compat; lra).
  destruct (Rlt_le_dec 0 (zev c x)) as [L|L]; [exact L|].
  assert (D ^ length c * zev c x <= D ^ length c * 0) by (apply Rmult_le_compat_l; lra).
  assert (zev l (D * x) <= 0) by (apply Rmult_le_reg_l with D; lra).
  assert ((1 + v) ^ k * (1 * zev l (D * x)) <= (1 + v) ^ k * 0) by (apply Rmult_le_compat_l; lra). lra.
Qed.

(** Several intervals [a0/d,a1/d), [a1/d,a2/d), ... *)
Fixpoint zpos_cuts (a : Z) (cuts : list Z) (d : Z) (c : list Z) : bool :=
  match cuts with [] => true | b :: cuts' => zpos_on a b d c && zpos_cuts b cuts' d c end.
Lemma zpos_cuts_val c d cuts : forall a x, zpos_cuts a cuts d c = true ->
  IZR a / IZR d <= x < IZR (last cuts a) / IZR d -> 0 < zev c x.
Proof.
  induction cuts as [|b cuts IH]; intros a x H Hx.
  - cbn in Hx. lra.
  - cbn [zpos_cuts] in H. apply andb_true_iff in H. destruct H as [H1 H2].
    destruct (Rlt_le_dec x (IZR b / IZR d)) as [L|L].
    + apply (zpos_on_val a b d); [exact H1|lra].
    + apply (IH b); [exact H2|]. split; [exact L|].
      destruct cuts as [|e cuts]; [cbn in *; lra|].
      replace (last (e :: cuts) b) with (last (b :: e :: cuts) a); [apply Hx|].
      cbn [last]. clear. revert e. induction cuts as [|g cuts IH]; intros e; [reflexivity|]. cbn [last] in *. apply IH.
Qed.

(** Value at a fraction, up to a positive factor. *)
Fixpoint zat (c : list Z) (p q : Z) : Z * Z :=   (* numerator, q^length *)
  match c with
  | [] => (0, 1)%Z
  | h :: c' => let (n, w) := zat c' p q in ((h * (w * q) + p * n)%Z, (w * q)%Z)
  end.
Lemma zat_val c p q : IZR q <> 0 ->
  IZR (snd (zat c p q)) <> 0 /\ zev c (IZR p / IZR q) = IZR (fst (zat c p q)) / IZR (snd (zat c p q)).
Proof.
  intros Hq. induction c as [|h c [IH1 IH2]].
  - cbn. split; [lra|field].
  - cbn [zat]. destruct (zat c p q) as [n w]. cbn [fst snd] in *. rewrite zev_cons, IH2.
    rewrite plus_IZR, !mult_IZR. split; [apply Rmult_integral_contrapositive_currified; assumption|]. field. split; assumption.
Qed.
Definition zpos_at (p q : Z) (c : list Z) : bool := (0 <? q)%Z && (0 <? fst (zat c p q))%Z.
Lemma zpos_at_val p q c : zpos_at p q c = true -> 0 < zev c (IZR p / IZR q).
Proof.
  unfold zpos_at. intros H. apply andb_true_iff in H. destruct H as [Hq H].
  apply Z.ltb_lt in Hq. apply Z.ltb_lt in H. assert (Hq' := IZR_lt _ _ Hq).
  destruct (zat_val c p q ltac:(lra)) as [_ ->].
  assert (S : (0 < snd (zat c p q))%Z).
  { clear H. induction c as [|h c IH]; [reflexivity|]. cbn [zat]. destruct (zat c p q). cbn [snd] in *. nia. }
  apply Rmult_lt_0_compat; [apply IZR_lt, H|apply Rinv_0_lt_compat, IZR_lt, S].
Qed.

(** Positive on [a, infinity): substitution of a + t. *)
Definition zpos_from (a : Z) (c : list Z) : bool := zpos (zshift a c).
Lemma zpos_from_val a c x : zpos_from a c = true -> IZR a <= x -> 0 < zev c x.
Proof.
  intros H Hx. replace x with (IZR a + (x - IZR a)) by ring. rewrite <- zshift_val. apply zpos_val; [lra|exact H].
Qed.
Lemma zpos_all_val a cuts d b c x : zpos_cuts a cuts d c = true -> zpos_from b c = true ->
  IZR b <= IZR (last cuts a) / IZR d -> IZR a / IZR d <= x -> 0 < zev c x.
Proof.
  intros H1 H2 Hb Hx. destruct (Rlt_le_dec x (IZR (last cuts a) / IZR d)) as [L|L].
  - apply (zpos_cuts_val _ _ _ _ _ H1). lra.
  - apply (zpos_from_val b); [exact H2|lra].
Qed.
