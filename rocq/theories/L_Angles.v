(** Proofs about angle normalisation. *)
From Coq Require Import ZArith Reals Bool Lia Lra Psatz.
From Flocq Require Import Core.Core IEEE754.BinarySingleNaN.
From Verif Require Import Num NumFun F64 L_F64 Outcome M_Basics S_Angles.
Open Scope R_scope.

(** ** Exact arithmetic *)

Lemma Rfmod_spec x t : 0 < t ->
  (exists k : Z, Rfmod x t = x - t * IZR k) /\
  (0 <= x -> 0 <= Rfmod x t < t) /\ (x <= 0 -> - t < Rfmod x t <= 0).
Proof.
  intros Ht. split; [exists (Ztrunc (x / t)); reflexivity|]. unfold Rfmod. split; intros Hx.
  - assert (Hq : 0 <= x / t) by (apply Rmult_le_pos; [lra|left; apply Rinv_0_lt_compat; lra]).
    rewrite Ztrunc_floor by auto.
    assert (E : x = t * (x / t)) by (field; lra).
    assert (L := Zfloor_lb (x / t)). assert (U := Zfloor_ub (x / t)). nra.
  - assert (Hq : x / t <= 0) by (apply Rmult_le_reg_r with t; [lra|]; replace (x / t * t) with x by (field; lra); lra).
    rewrite Ztrunc_ceil by auto.
    assert (E : x = t * (x / t)) by (field; lra).
    assert (L := Zceil_ub (x / t)). assert (U := Zceil_lb (x / t)). nra.
Qed.

Lemma congruent_unique turn lo r r' a : 0 < turn ->
  lo <= r < lo + turn -> lo <= r' < lo + turn -> congruent turn a r -> congruent turn a r' -> r' = r.
Proof.
  intros Ht H H' (k & Hk) (k' & Hk').
  assert (E : r' - r = IZR (k - k') * turn) by (rewrite minus_IZR; lra).
  assert (Hz : (k - k' = 0)%Z).
  { assert (-1 < k - k')%Z by (apply lt_IZR; apply Rmult_lt_reg_r with turn; auto; rewrite <- E; lra).
    assert (k - k' < 1)%Z by (apply lt_IZR; apply Rmult_lt_reg_r with turn; auto; rewrite <- E; lra). lia. }
  rewrite Hz in E. lra.
Qed.

Lemma congruent_unique' turn lo r r' a : 0 < turn ->
  lo < r <= lo + turn -> lo < r' <= lo + turn -> congruent turn a r -> congruent turn a r' -> r' = r.
Proof.
  intros Ht H H' (k & Hk) (k' & Hk').
  assert (E : r' - r = IZR (k - k') * turn) by (rewrite minus_IZR; lra).
  assert (Hz : (k - k' = 0)%Z).
  { assert (-1 < k - k')%Z by (apply lt_IZR; apply Rmult_lt_reg_r with turn; auto; rewrite <- E; lra).
    assert (k - k' < 1)%Z by (apply lt_IZR; apply Rmult_lt_reg_r with turn; auto; rewrite <- E; lra). lia. }
  rewrite Hz in E. lra.
Qed.

Lemma norm_full t a : 0 < t ->
  let r := (if Rltb (Rfmod a t) 0 then Rfmod a t + t else Rfmod a t) in
  0 <= r < t /\ congruent t a r /\
  forall r', 0 <= r' < t -> congruent t a r' -> r' = r.
Proof.
  intros Ht r. assert (H : 0 <= r < t /\ congruent t a r).
  { destruct (Rfmod_spec a t Ht) as ((k & Hk) & Hp & Hn). unfold r. rcmp.
    - assert (Ha : a <= 0) by (destruct (Rle_or_lt a 0); auto; assert (0 <= a) by lra; specialize (Hp H0); lra).
      specialize (Hn Ha). split; [lra|]. exists (k - 1)%Z. rewrite Hk, minus_IZR. ring.
    - assert (Ht' : Rfmod a t < t) by (destruct (Rle_or_lt a 0) as [Ha|Ha]; [specialize (Hn Ha)|specialize (Hp (Rlt_le _ _ Ha))]; lra).
      split; [lra|]. exists k. rewrite Hk. ring. }
  destruct H as [H1 H2]. split; [auto|]. split; [auto|].
  intros r' H1' H2'. apply (congruent_unique t 0 r r' a); auto; lra.
Qed.

Lemma norm_half h t a : 0 < h -> t = 2 * h ->
  let m := Rfmod (a + h) t in
  let r := (if Rleb m 0 then m + t else m) - h in
  - h < r <= h /\ congruent t a r /\
  forall r', - h < r' <= h -> congruent t a r' -> r' = r.
Proof.
  intros Hh Ht m r. assert (H : - h < r <= h /\ congruent t a r).
  { destruct (Rfmod_spec (a + h) t ltac:(lra)) as ((k & Hk) & Hp & Hn). unfold r, m. rcmp.
    - assert (Hm : - t < Rfmod (a + h) t) by (destruct (Rle_or_lt (a + h) 0) as [Ha|Ha]; [specialize (Hn Ha)|specialize (Hp (Rlt_le _ _ Ha))]; lra).
      split; [lra|]. exists (k - 1)%Z. rewrite Hk, minus_IZR. ring.
    - assert (Hm : Rfmod (a + h) t < t) by (destruct (Rle_or_lt (a + h) 0) as [Ha|Ha]; [specialize (Hn Ha)|specialize (Hp (Rlt_le _ _ Ha))]; lra).
      split; [lra|]. exists k. rewrite Hk. ring. }
  destruct H as [H1 H2]. split; [auto|]. split; [auto|].
  intros r' H1' H2'. apply (congruent_unique' t (- h) r r' a); auto; lra.
Qed.

Lemma normalize_0_360_lemma : forall p a,
  let r := Normalize_0_360 (NT := RNum_at p) a in
  0 <= r < 360 /\ congruent 360 a r /\ forall r', 0 <= r' < 360 -> congruent 360 a r' -> r' = r.
Proof. intros p a. apply (norm_full 360 a). lra. Qed.

Lemma normalize_0_2pi_lemma : forall p a, 0 < p ->
  let r := Normalize_0_2PI (NT := RNum_at p) a in
  0 <= r < 2 * p /\ congruent (2 * p) a r /\ forall r', 0 <= r' < 2 * p -> congruent (2 * p) a r' -> r' = r.
Proof. intros p a Hp. apply (norm_full (2 * p) a). lra. Qed.

Lemma normalize_180_lemma : forall p a,
  let r := Normalize__180_180 (NT := RNum_at p) a in
  -180 < r <= 180 /\ congruent 360 a r /\ forall r', -180 < r' <= 180 -> congruent 360 a r' -> r' = r.
Proof.
  intros p a. assert (H := norm_half 180 360 a ltac:(lra) ltac:(lra)). cbv zeta in H.
  destruct H as (H1 & H2 & H3). cbv zeta. split; [exact H1|]. split; [exact H2|].
  intros r' Hr. apply H3. lra.
Qed.

Lemma normalize_pi_lemma : forall p a, 0 < p ->
  let r := Normalize__PI_PI (NT := RNum_at p) a in
  - p < r <= p /\ congruent (2 * p) a r /\ forall r', - p < r' <= p -> congruent (2 * p) a r' -> r' = r.
Proof. intros p a Hp. apply (norm_half p (2 * p) a); lra. Qed.

(** Equal exactly on congruent angles; the representatives are fixed points. *)
Lemma congruent_sym t a b : congruent t a b -> congruent t b a.
Proof. intros (k & Hk). exists (- k)%Z. rewrite opp_IZR. lra. Qed.
Lemma congruent_trans t a b c : congruent t a b -> congruent t b c -> congruent t a c.
Proof. intros (k & Hk) (l & Hl). exists (k + l)%Z. rewrite plus_IZR. lra. Qed.
Lemma congruent_refl t a : congruent t a a.
Proof. exists 0%Z. lra. Qed.

Lemma norm_same (N : R -> R) (P : R -> Prop) t :
  (forall a, P (N a) /\ congruent t a (N a) /\ forall r', P r' -> congruent t a r' -> r' = N a) ->
  forall a b, (N a = N b <-> congruent t a b) /\ (N a = a <-> P a).
Proof.
  intros H a b. destruct (H a) as (P1 & C1 & U1). destruct (H b) as (P2 & C2 & U2). split; split; intros E.
  - apply congruent_trans with (N a); auto. rewrite E. apply congruent_sym; auto.
  - apply U2; auto. apply congruent_trans with a; auto. apply congruent_sym; auto.
  - rewrite <- E. auto.
  - symmetry. apply U1; auto. apply congruent_refl.
Qed.

Lemma normalize_same_lemma : forall p a b, 0 < p ->
  (Normalize_0_360 (NT := RNum_at p) a = Normalize_0_360 (NT := RNum_at p) b <-> congruent 360 a b) /\
  (Normalize__180_180 (NT := RNum_at p) a = Normalize__180_180 (NT := RNum_at p) b <-> congruent 360 a b) /\
  (Normalize_0_2PI (NT := RNum_at p) a = Normalize_0_2PI (NT := RNum_at p) b <-> congruent (2 * p) a b) /\
  (Normalize__PI_PI (NT := RNum_at p) a = Normalize__PI_PI (NT := RNum_at p) b <-> congruent (2 * p) a b).
Proof.
  intros p a b Hp.
  split; [|split; [|split]].
  - apply (norm_same _ (fun r => 0 <= r < 360)). apply normalize_0_360_lemma.
  - apply (norm_same _ (fun r => -180 < r <= 180)). apply normalize_180_lemma.
  - apply (norm_same _ (fun r => 0 <= r < 2 * p)). intros x. apply normalize_0_2pi_lemma; auto.
  - apply (norm_same _ (fun r => - p < r <= p)). intros x. apply normalize_pi_lemma; auto.
Qed.

Lemma normalize_idempotent_lemma : forall p a, 0 < p ->
  (Normalize_0_360 (NT := RNum_at p) a = a <-> 0 <= a < 360) /\
  (Normalize__180_180 (NT := RNum_at p) a = a <-> -180 < a <= 180) /\
  (Normalize_0_2PI (NT := RNum_at p) a = a <-> 0 <= a < 2 * p) /\
  (Normalize__PI_PI (NT := RNum_at p) a = a <-> - p < a <= p).
Proof.
  intros p a Hp.
  split; [|split; [|split]].
  - apply (norm_same _ (fun r => 0 <= r < 360) 360); [apply normalize_0_360_lemma|exact a].
  - apply (norm_same _ (fun r => -180 < r <= 180) 360); [apply normalize_180_lemma|exact a].
  - apply (norm_same _ (fun r => 0 <= r < 2 * p) (2 * p)); [intros x; apply normalize_0_2pi_lemma; auto|exact a].
  - apply (norm_same _ (fun r => - p < r <= p) (2 * p)); [intros x; apply normalize_pi_lemma; auto|exact a].
Qed.

(** ** binary64 *)

Definition mult_of (e : Z) (x : R) : Prop := generic_format radix2 (FIX_exp e) x.

Lemma mult_of_iff e x : mult_of e x <-> exists m : Z, x = IZR m * bpow radix2 e.
Proof.
  split.
  - intros H. apply FIX_format_generic in H. destruct H as [[m e'] H1 H2]. simpl in H2. subst e'.
    exists m. exact H1.
  - intros (m & ->). apply generic_format_FIX. exists (Float radix2 m e); reflexivity.
Qed.

Lemma mult_of_lin e x y k : mult_of e x -> mult_of e y -> mult_of e (x + IZR k * y).
Proof.
  rewrite !mult_of_iff. intros (m & ->) (n & ->). exists (m + k * n)%Z. rewrite plus_IZR, mult_IZR. ring.
Qed.
Lemma mult_of_plus e x y : mult_of e x -> mult_of e y -> mult_of e (x + y).
Proof. intros H1 H2. replace (x + y) with (x + IZR 1 * y) by ring. apply mult_of_lin; auto. Qed.
Lemma mult_of_minus e x y : mult_of e x -> mult_of e y -> mult_of e (x - y).
Proof. intros H1 H2. replace (x - y) with (x + IZR (-1) * y) by ring. apply mult_of_lin; auto. Qed.

Lemma mult_of_rnd e x : mult_of e x -> mult_of e (rnd64 x).
Proof. intros H. apply generic_round_generic; auto with typeclass_instances. Qed.

Lemma mult_of_ge e x : mult_of e x -> 0 < x -> bpow radix2 e <= x.
Proof.
  rewrite mult_of_iff. intros (m & ->) H. assert (Hb : 0 < bpow radix2 e) by apply bpow_gt_0.
  assert (Hm : (0 < m)%Z) by (apply lt_IZR; apply Rmult_lt_reg_r with (bpow radix2 e); lra).
  assert (1 <= IZR m) by (apply (IZR_le 1); lia). nra.
Qed.

Lemma mult_of_big e x : (-1074 <= e)%Z -> fmt64 x -> bpow radix2 (e + 52) <= Rabs x -> mult_of e x.
Proof.
  intros He Hx Hb. unfold mult_of.
  apply generic_inclusion_ge with (fexp1 := fexp64) (e1 := (e + 52)%Z); auto.
  intros e' He'. unfold FIX_exp, SpecFloat.fexp. lia.
Qed.

Lemma mult_of_fmt e x : (-1074 <= e)%Z -> mult_of e x -> Rabs x < bpow radix2 (e + 53) -> fmt64 x.
Proof.
  intros He H Hb. apply mult_of_iff in H. destruct H as (m & ->).
  apply (fmt64_F2R m e He). apply lt_IZR. rewrite abs_IZR.
  rewrite Rabs_mult, (Rabs_pos_eq (bpow radix2 e)) in Hb by apply bpow_ge_0.
  rewrite Z.add_comm, bpow_plus in Hb. apply Rmult_lt_reg_r with (bpow radix2 e); [apply bpow_gt_0|].
  exact Hb.
Qed.

Lemma rnd_err E x : (-1021 <= E)%Z -> Rabs x < bpow radix2 E -> Rabs (rnd64 x - x) <= bpow radix2 (E - 54).
Proof.
  intros HE Hx. destruct (Req_dec x 0) as [->|Hn].
  - rewrite round_0 by auto with typeclass_instances. rewrite Rminus_0_r, Rabs_R0. apply bpow_ge_0.
  - apply Rle_trans with (/ 2 * ulp radix2 fexp64 x); [apply error_le_half_ulp; auto with typeclass_instances|].
    rewrite ulp_neq_0 by auto. replace (bpow radix2 (E - 54)) with (/ 2 * bpow radix2 (E - 53)).
    + apply Rmult_le_compat_l; [lra|]. apply bpow_le. unfold cexp.
      assert (Hm : (mag radix2 x <= E)%Z) by (apply mag_le_bpow; auto).
      unfold SpecFloat.fexp, SpecFloat.emin. lia.
    + replace (E - 53)%Z with (1 + (E - 54))%Z by lia. rewrite bpow_plus. simpl. lra.
Qed.


Section HalfTurn.
Context (h t z a : f64) (e : Z).
Hypothesis He : (-1000 <= e <= 900)%Z.
Hypothesis Fh : is_finite h = true.
Hypothesis Ft : is_finite t = true.
Hypothesis Fz : is_finite z = true.
Hypothesis Vz : val z = 0.
Hypothesis Vt : val t = 2 * val h.
Hypothesis Bh : bpow radix2 (e + 52) < val h < bpow radix2 (e + 53).
Hypothesis Mh : mult_of e (val h).
Hypothesis Fa : is_finite a = true.

Lemma half_turn :
  let m := f64_fmod (Bplus mode_NE a h) t in
  let r := Bminus mode_NE (if Bleb m z then Bplus mode_NE m t else m) h in
  is_finite r = true /\ - val h < val r <= val h /\
  exists k : Z, Rabs (val r - (val a + IZR k * val t)) <=
    / 2 * ulp radix2 fexp64 (val a + val h) + bpow radix2 e.
Proof.
  intros m r.
  assert (P52 : 0 < bpow radix2 (e + 52)) by apply bpow_gt_0.
  assert (Pe : 0 < bpow radix2 e) by apply bpow_gt_0.
  assert (P53 : bpow radix2 (e + 53) = 2 * bpow radix2 (e + 52)).
  { replace (e + 53)%Z with (1 + (e + 52))%Z by lia. rewrite bpow_plus. reflexivity. }
  assert (P54 : bpow radix2 (e + 54) = 2 * bpow radix2 (e + 53)).
  { replace (e + 54)%Z with (1 + (e + 53))%Z by lia. rewrite bpow_plus. reflexivity. }
  assert (Hsmall : forall x, Rabs x <= bpow radix2 (e + 54) -> Rabs x <= fmax64 + bpow radix2 969).
  { intros x Hx. apply small_no_overflow. apply Rle_trans with (1 := Hx). apply bpow_le. lia. }
  assert (H969 : bpow radix2 (e + 53) <= bpow radix2 969) by (apply bpow_le; lia).
  assert (Ftm := fmt64_val t). assert (Fhm := fmt64_val h). assert (Fam := fmt64_val a).
  destruct (plus_ok a h Fa Fh) as [Fs Vs].
  { apply Rle_trans with (1 := Rabs_triang _ _). apply Rplus_le_compat; [apply abs_val_fmax|].
    rewrite Rabs_pos_eq; lra. }
  set (s := Bplus mode_NE a h) in *.
  destruct (fmod_ok s t Fs Ft ltac:(lra)) as [Fm Vm]. fold m in Fm, Vm.
  destruct (Rfmod_spec (val s) (val t) ltac:(lra)) as ((k & Hk) & Hp & Hn).
  assert (Hm : - val t < val m < val t).
  { rewrite Vm. destruct (Rle_or_lt (val s) 0) as [H|H]; [specialize (Hn H)|specialize (Hp (Rlt_le _ _ H))]; lra. }
  assert (Err1 : Rabs (val s - (val a + val h)) <= / 2 * ulp radix2 fexp64 (val a + val h)).
  { rewrite Vs. apply error_le_half_ulp; auto with typeclass_instances. }
  assert (Mt : mult_of e (val t)) by (rewrite Vt; replace (2 * val h) with (val h + val h) by ring; apply mult_of_plus; auto).
  (* value of the adjusted remainder *)
  set (m' := if Bleb m z then Bplus mode_NE m t else m) in *.
  assert (Cmp : Bleb m z = Rle_bool (val m) 0) by (rewrite Bleb_correct by auto; rewrite Vz; reflexivity).
  destruct (Rlt_or_le (Rabs (val a)) (bpow radix2 (e + 52))) as [Ha|Ha].
  - (* small angles: no wrap *)
    apply Rabs_lt_inv in Ha.
    assert (Ls : val h - bpow radix2 (e + 52) <= val s).
    { rewrite Vs. rewrite <- (rnd64_id (val h - bpow radix2 (e + 52))).
      - apply rnd64_le. lra.
      - apply (mult_of_fmt e); [lia| |].
        + apply mult_of_minus; auto. apply mult_of_iff. exists (2 ^ 52)%Z.
          rewrite Z.add_comm, bpow_plus. reflexivity.
        + rewrite Rabs_pos_eq; lra. }
    assert (Us : val s <= val t).
    { rewrite Vs. rewrite <- (rnd64_id (val t)) by auto. apply rnd64_le. lra. }
    destruct (Rle_lt_or_eq_dec _ _ Us) as [Hlt|Heq].
    + assert (Em : val m = val s).
      { rewrite Vm. unfold Rfmod. replace (Ztrunc (val s / val t)) with 0%Z; [ring|].
        rewrite Ztrunc_floor.
        - symmetry. apply Zfloor_imp. simpl. split.
          + apply Rmult_le_pos; [lra|left; apply Rinv_0_lt_compat; lra].
          + apply Rmult_lt_reg_r with (val t); [lra|]. replace (val s / val t * val t) with (val s) by (field; lra). lra.
        - apply Rmult_le_pos; [lra|left; apply Rinv_0_lt_compat; lra]. }
      assert (Em' : m' = m) by (unfold m'; rewrite Cmp, Rle_bool_false by lra; reflexivity).
      assert (Fm' : is_finite m' = true) by (rewrite Em'; auto).
      destruct (minus_ok m' h Fm' Fh) as [Fr Vr].
      { rewrite Em', Em. apply Hsmall. apply Rabs_le. lra. }
      fold r in Fr, Vr. rewrite Em', Em in Vr.
      split; [auto|]. split.
      * rewrite Vr. split.
        -- apply Rlt_le_trans with (- bpow radix2 (e + 52)); [lra|].
           rewrite <- (rnd64_id (- bpow radix2 (e + 52))).
           ++ apply rnd64_le. lra.
           ++ apply generic_format_opp. apply fmt64_bpow. lia.
        -- rewrite <- (rnd64_id (val h)) at 2 by auto. apply rnd64_le. lra.
      * exists 0%Z. rewrite Rmult_0_l, Rplus_0_r, Vr.
        assert (Err2 : Rabs (rnd64 (val s - val h) - (val s - val h)) <= bpow radix2 (e + 53 - 54)).
        { apply rnd_err; [lia|]. apply Rabs_lt. lra. }
        assert (H1 : bpow radix2 (e + 53 - 54) <= bpow radix2 e) by (apply bpow_le; lia).
        apply Rabs_le_inv in Err1. apply Rabs_le_inv in Err2. apply Rabs_le. lra.
    + assert (Em : val m = 0).
      { rewrite Vm, Heq. unfold Rfmod. replace (val t / val t) with 1 by (field; lra).
        rewrite (Ztrunc_IZR 1). ring. }
      destruct (plus_ok m t Fm Ft) as [Fp Vp].
      { rewrite Em. apply Hsmall. rewrite Rabs_pos_eq; lra. }
      rewrite Em, Rplus_0_l, rnd64_id in Vp by auto.
      assert (Em' : m' = Bplus mode_NE m t) by (unfold m'; rewrite Cmp, Rle_bool_true by lra; reflexivity).
      rewrite <- Em' in Fp, Vp.
      destruct (minus_ok m' h Fp Fh) as [Fr Vr].
      { rewrite Vp. apply Hsmall. apply Rabs_le. lra. }
      fold r in Fr, Vr. rewrite Vp in Vr. replace (val t - val h) with (val h) in Vr by lra.
      rewrite rnd64_id in Vr by auto.
      split; [auto|]. split; [lra|]. exists 0%Z. rewrite Rmult_0_l, Rplus_0_r, Vr.
      apply Rabs_le_inv in Err1. apply Rabs_le. lra.
  - (* large angles: everything is a multiple of 2^e *)
    assert (Ma : mult_of e (val a)) by (apply mult_of_big; auto; lia).
    assert (Ms : mult_of e (val s)) by (rewrite Vs; apply mult_of_rnd, mult_of_plus; auto).
    assert (Mm : mult_of e (val m)).
    { rewrite Vm, Hk. replace (val s - val t * IZR k) with (val s + IZR (- k) * val t) by (rewrite opp_IZR; ring).
      apply mult_of_lin; auto. }
    assert (Hm' : is_finite m' = true /\ mult_of e (val m') /\ 0 < val m' <= val t /\
              exists j : Z, Rabs (val m' - (val m + IZR j * val t)) <= bpow radix2 e).
    { unfold m'. rewrite Cmp. destruct (Rle_bool_spec (val m) 0) as [H|H].
      - destruct (plus_ok m t Fm Ft) as [Fp Vp].
        { apply Hsmall. apply Rabs_le. lra. }
        split; [auto|]. rewrite Vp. assert (Mp : mult_of e (val m + val t)) by (apply mult_of_plus; auto).
        split; [apply mult_of_rnd; auto|]. split; [split|].
        + apply Rlt_le_trans with (bpow radix2 e); auto.
          rewrite <- (rnd64_id (bpow radix2 e)) by (apply fmt64_bpow; lia).
          apply rnd64_le. apply mult_of_ge; auto. lra.
        + rewrite <- (rnd64_id (val t)) at 2 by auto. apply rnd64_le. lra.
        + exists 1%Z. rewrite Rmult_1_l. replace e with (e + 54 - 54)%Z at 1 by lia.
          apply rnd_err; [lia|]. apply Rabs_lt. lra.
      - split; [auto|]. split; [auto|]. split; [lra|]. exists 0%Z.
        rewrite Rmult_0_l, Rplus_0_r, Rminus_diag_eq, Rabs_R0 by auto. lra. }
    destruct Hm' as (Fm' & Mm' & Bm' & j & Hj).
    destruct (minus_ok m' h Fm' Fh) as [Fr Vr].
    { apply Hsmall. apply Rabs_le. lra. }
    fold r in Fr, Vr. rewrite rnd64_id in Vr.
    2:{ apply (mult_of_fmt e); [lia| |].
        - apply mult_of_minus; auto.
        - apply Rabs_lt. lra. }
    split; [auto|]. split; [lra|].
    exists (j - k)%Z. rewrite Vr, minus_IZR.
    rewrite Vm, Hk in Hj. apply Rabs_le_inv in Err1. apply Rabs_le_inv in Hj. apply Rabs_le.
    lra.
Qed.
End HalfTurn.

(** *** Full turn *)
Lemma full_turn (t z a : f64) :
  is_finite t = true -> is_finite z = true -> val z = 0 -> 0 < val t <= bpow radix2 1000 ->
  is_finite a = true ->
  let m := f64_fmod a t in
  let y := if Bltb m z then Bplus mode_NE m t else m in
  is_finite y = true /\
  exists r, 0 <= r < val t /\ congruent (val t) (val a) r /\ val y = rnd64 r.
Proof.
  intros Ft Fz Vz Bt Fa m y.
  destruct (fmod_ok a t Fa Ft ltac:(lra)) as [Fm Vm]. fold m in Fm, Vm.
  destruct (norm_full (val t) (val a) ltac:(lra)) as (H1 & H2 & _). cbv zeta in H1, H2.
  unfold y. rewrite Bltb_correct by auto. rewrite Vz.
  assert (Hm : - val t < val m < val t).
  { rewrite Vm. destruct (Rfmod_spec (val a) (val t) ltac:(lra)) as (_ & Hp & Hn).
    destruct (Rle_or_lt (val a) 0) as [H|H]; [specialize (Hn H)|specialize (Hp (Rlt_le _ _ H))]; lra. }
  rewrite <- Vm in H1, H2.
  destruct (Rlt_bool_spec (val m) 0) as [H|H].
  - destruct (plus_ok m t Fm Ft) as [Fp Vp].
    { apply small_no_overflow. apply Rabs_le. lra. }
    split; [auto|]. exists (val m + val t). revert H1 H2. rcmp; intros; [|lra]. auto.
  - split; [auto|]. exists (val m). revert H1 H2. rcmp; intros; [lra|]. split; [auto|]. split; [auto|].
    symmetry. apply rnd64_id, fmt64_val.
Qed.

Lemma rnd_360 r : 0 <= r < 360 ->
  0 <= rnd64 r <= 360 /\ (rnd64 r = 360 <-> 360 - / 2 ^ 45 <= r).
Proof.
  intros Hr. assert (F360 : fmt64 360) by (apply (fmt64_IZR 360); lia).
  split; [split|].
  - rewrite <- (rnd64_id 0) by apply generic_format_0. apply rnd64_le. lra.
  - rewrite <- (rnd64_id 360) by auto. apply rnd64_le. lra.
  - assert (B : bpow radix2 (-45) = / 2 ^ 45) by (simpl; lra).
    split; intros H.
    + destruct (Rle_or_lt (360 - / 2 ^ 45) r) as [|Hlt]; auto.
      assert (E := rnd_err 9 r ltac:(lia)). rewrite H in E.
      replace (9 - 54)%Z with (-45)%Z in E by lia. rewrite B in E.
      assert (Rabs r < bpow radix2 9) by (simpl; rewrite Rabs_pos_eq; lra).
      specialize (E H0). apply Rabs_le_inv in E. lra.
    + apply Rle_antisym.
      * rewrite <- (rnd64_id 360) by auto. apply rnd64_le. lra.
      * assert (E : rnd64 (360 - / 2 ^ 45) = 360).
        { generalize (binary_normalize_correct 53 1024 _ _ mode_NE (360 * 2 ^ 45 - 1) (-45) false).
          cbv zeta. simpl round_mode.
          assert (V : F2R (Float radix2 (360 * 2 ^ 45 - 1) (-45)) = 360 - / 2 ^ 45).
          { unfold F2R. simpl. lra. }
          rewrite V. rewrite Rlt_bool_true.
          - intros (H1 & _). rewrite <- H1.
            replace (binary_normalize 53 1024 prec53 emax1024 mode_NE (360 * 2 ^ 45 - 1) (-45) false)
              with (f64_ofZ 360) by (apply B2SF_inj; vm_compute; reflexivity).
            apply (ofZ_ok 360). lia.
          - apply no_overflow, small_no_overflow. apply Rle_trans with (bpow radix2 9).
            + rewrite Rabs_pos_eq; simpl; lra.
            + apply bpow_le. lia. }
        rewrite <- E. apply rnd64_le. auto.
Qed.

Lemma normalize_0_360_double_lemma : forall a : f64, is_finite a = true ->
  let y := Normalize_0_360 a in
  is_finite y = true /\
  exists r, 0 <= r < 360 /\ congruent 360 (dvalue a) r /\ dvalue y = dround r /\
    0 <= dvalue y <= 360 /\ (dvalue y = 360 <-> 360 - / 2 ^ 45 <= r).
Proof.
  intros a Fa y.
  destruct (ofZ_ok 360 ltac:(lia)) as [F V]. destruct (ofZ_ok 0 ltac:(lia)) as [F0 V0].
  destruct (full_turn (f64_ofZ 360) (f64_ofZ 0) a F F0 V0) as (H1 & r & H2 & H3 & H4); auto.
  { rewrite V. split; [lra|]. apply Rle_trans with (bpow radix2 9); [simpl; lra|]. apply bpow_le. lia. }
  rewrite V in H2, H3. split; [exact H1|]. exists r. split; [exact H2|]. split; [exact H3|].
  change (dvalue y = rnd64 r) in H4. split; [exact H4|]. rewrite H4. apply rnd_360. auto.
Qed.

Lemma val_pi : is_finite f64_pi = true /\ val f64_pi = IZR 884279719003555 * / 2 ^ 48.
Proof.
  split; [vm_compute; reflexivity|]. unfold f64_pi.
  generalize (binary_normalize_correct 53 1024 _ _ mode_NE 884279719003555 (-48) false).
  cbv zeta. simpl round_mode.
  assert (Ff : fmt64 (F2R (Float radix2 884279719003555 (-48)))) by (apply fmt64_F2R; lia).
  rewrite (rnd64_id _ Ff). rewrite Rlt_bool_true.
  - intros (H & _). rewrite H. unfold F2R. simpl. lra.
  - apply Rlt_trans with (bpow radix2 9); [|apply bpow_lt; lia].
    unfold F2R. simpl. rewrite Rabs_pos_eq; lra.
Qed.

Lemma val_2pi : is_finite (mu_2pi (T := f64)) = true /\ val (mu_2pi (T := f64)) = 2 * val f64_pi.
Proof.
  destruct val_pi as [Fp Vp]. destruct (ofZ_ok 2 ltac:(lia)) as [F2 V2].
  unfold mu_2pi. cbn [nmul F64Num nofZ npi].
  destruct (mult_ok (f64_ofZ 2) f64_pi F2 Fp) as [F V].
  - apply small_no_overflow. apply Rle_trans with (bpow radix2 9); [|apply bpow_le; lia].
    rewrite V2, Vp. rewrite Rabs_pos_eq; simpl; lra.
  - split; [auto|]. rewrite V, V2. apply rnd64_id. rewrite Vp.
    replace (2 * (IZR 884279719003555 * / 2 ^ 48)) with (F2R (Float radix2 884279719003555 (-47))).
    + apply fmt64_F2R; lia.
    + unfold F2R. simpl. lra.
Qed.

Lemma normalize_0_2pi_double_lemma : forall a : f64, is_finite a = true ->
  let y := Normalize_0_2PI a in
  let turn := 2 * dvalue f64_pi in
  is_finite y = true /\
  exists r, 0 <= r < turn /\ congruent turn (dvalue a) r /\ dvalue y = dround r /\
    0 <= dvalue y <= turn.
Proof.
  intros a Fa y turn.
  destruct val_2pi as [F V]. destruct val_pi as [Fp Vp]. destruct (ofZ_ok 0 ltac:(lia)) as [F0 V0].
  destruct (full_turn mu_2pi (f64_ofZ 0) a F F0 V0) as (H1 & r & H2 & H3 & H4); auto.
  { rewrite V, Vp. split; [lra|]. apply Rle_trans with (bpow radix2 9); [simpl; lra|]. apply bpow_le. lia. }
  assert (Ft : fmt64 (2 * val f64_pi)) by (rewrite <- V; apply fmt64_val).
  rewrite V in H2, H3. split; [exact H1|]. exists r. split; [exact H2|]. split; [exact H3|].
  change (dvalue y = rnd64 r) in H4. split; [exact H4|]. rewrite H4. split.
  - rewrite <- (rnd64_id 0) by apply generic_format_0. apply rnd64_le. lra.
  - unfold turn, dvalue. rewrite <- (rnd64_id _ Ft). apply rnd64_le. lra.
Qed.

Lemma normalize_180_double_lemma : forall a : f64, is_finite a = true ->
  let y := Normalize__180_180 a in
  is_finite y = true /\ -180 < dvalue y <= 180 /\
  exists k : Z, Rabs (dvalue y - (dvalue a + IZR k * 360)) <= / 2 * dulp (dvalue a + 180) + / 2 ^ 45.
Proof.
  intros a Fa y.
  destruct (ofZ_ok 360 ltac:(lia)) as [F V]. destruct (ofZ_ok 0 ltac:(lia)) as [F0 V0].
  destruct (ofZ_ok 180 ltac:(lia)) as [F1 V1].
  destruct (half_turn (f64_ofZ 180) (f64_ofZ 360) (f64_ofZ 0) a (-45)) as (H1 & H2 & H3); auto; try lia.
  - rewrite V, V1. lra.
  - rewrite V1. simpl. lra.
  - rewrite V1. apply mult_of_iff. exists (180 * 2 ^ 45)%Z. simpl. lra.
  - rewrite V1, V in *. split; [exact H1|]. split.
    + unfold dvalue. destruct H2 as [H2 H2']. split; [|exact H2'].
      apply Rle_lt_trans with (2 := H2). lra.
    + destruct H3 as (k & Hk). exists k. replace (/ 2 ^ 45) with (bpow radix2 (-45)) by (simpl; lra). exact Hk.
Qed.

Lemma normalize_pi_double_lemma : forall a : f64, is_finite a = true ->
  let y := Normalize__PI_PI a in
  let p := dvalue f64_pi in
  is_finite y = true /\ - p < dvalue y <= p /\
  exists k : Z, Rabs (dvalue y - (dvalue a + IZR k * (2 * p))) <= / 2 * dulp (dvalue a + p) + / 2 ^ 51.
Proof.
  intros a Fa y p.
  destruct val_2pi as [F V]. destruct (ofZ_ok 0 ltac:(lia)) as [F0 V0].
  destruct val_pi as [F1 V1].
  destruct (half_turn f64_pi mu_2pi (f64_ofZ 0) a (-51)) as (H1 & H2 & H3); auto; try lia.
  - rewrite V1. simpl. lra.
  - rewrite V1. apply mult_of_iff. exists (884279719003555 * 2 ^ 3)%Z. simpl. lra.
  - rewrite V in *. split; [exact H1|]. split; [exact H2|].
    destruct H3 as (k & Hk). exists k. replace (/ 2 ^ 51) with (bpow radix2 (-51)) by (simpl; lra). exact Hk.
Qed.

(** The half-open range of [Normalize_0_360] fails. *)
Lemma normalize_0_360_refuted_pf : exists a : f64,
  is_finite a = true /\ dvalue a = - / 2 ^ 60 /\ dvalue (Normalize_0_360 a) = 360.
Proof.
  exists (binary_normalize 53 1024 _ _ mode_NE (-1) (-60) false).
  split; [vm_compute; reflexivity|]. split.
  - replace (binary_normalize 53 1024 prec53 emax1024 mode_NE (-1) (-60) false)
      with (@B754_finite 53 1024 true 4503599627370496 (-112) eq_refl) by (apply B2SF_inj; vm_compute; reflexivity).
    unfold dvalue. cbn [B2R]. unfold F2R, cond_Zopp. simpl. lra.
  - unfold dvalue. replace (Normalize_0_360 _) with (f64_ofZ 360) by (apply B2SF_inj; vm_compute; reflexivity).
    apply (ofZ_ok 360). lia.
Qed.
