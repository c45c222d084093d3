(** Simplex interpolation in binary64. *)
From Coq Require Import List Arith ZArith Reals Bool Lia Lra Psatz Permutation.
From Flocq Require Import Core.Core IEEE754.BinarySingleNaN.
From Verif Require Import Outcome Num NumFun F64 StdAlgo S_Interp1d L_Search L_Interp1d M_Grid S_Grid L_Grid L_GridSimplex
  L_F64 L_Linspace64 L_F64Err S_Angles S_Double S_Grid64 L_Series64 L_Interp64 L_Special64 L_Grid64 L_Apx L_Arange64 L_Ser64 S_Simplex64.
Import ListNotations.
Local Open Scope R_scope.

(** ** One step *)
Lemma step_s (acc v0 v1 y : f64) (P M E : R) :
  is_finite acc = true -> is_finite v0 = true -> is_finite v1 = true -> is_finite y = true -> 0 <= val y <= 1 ->
  Rabs (val v0) <= M -> Rabs (val v1) <= M -> Rabs (val acc - P) <= E -> let P' := P + (1 - val y) * (val v1 - val v0) in Rabs P' <= M ->
  M <= bpow radix2 1000 -> 0 <= E <= 1000 * (8 * u53 * M + 2 * eta64) ->
  let r := acc +! (f64_ofZ 1 -! y) *! (v1 -! v0) in
  is_finite r = true /\ Rabs (val r - P') <= E + (8 * u53 * M + 2 * eta64).
Proof.
  intros Fa F0 F1 Fy Hy B0 B1 Ea P' BP BM HE. cbv zeta.
  assert (U := u_tiny). assert (N := eta64_pos). assert (M0 : 0 <= M) by (assert (A := Rabs_pos (val v0)); lra).
  assert (BK := big1003). assert (P9 := bpow_gt_0 radix2 969). set (B := bpow radix2 1000) in *. assert (B11 : 1 <= B) by (apply (bpow_le radix2 0 1000); lia).
  assert (N1 : eta64 <= / 1000000).
  { unfold eta64. apply Rle_trans with (bpow radix2 (-1074)); [assert (0 < bpow radix2 (-1074)) by apply bpow_gt_0; lra|].
    apply Rle_trans with (bpow radix2 (-20)); [apply bpow_le; lia|]. simpl. lra. }
  set (u := u53) in *. set (e := eta64) in *.
  assert (uM : 0 <= u * M) by (apply Rmult_le_pos; lra). assert (uM1 : u * M <= / 1000000 * M) by (apply Rmult_le_compat_r; lra).
  assert (uuM : u * (u * M) <= / 1000000 * (u * M)) by (apply Rmult_le_compat_r; lra). assert (uuM0 : 0 <= u * (u * M)) by (apply Rmult_le_pos; lra).
  assert (uE : u * E <= / 50 * (u * M) + / 50 * e).
  { apply Rle_trans with (u * (1000 * (8 * u * M + 2 * e))); [apply Rmult_le_compat_l; lra|].
    assert (u * e <= / 1000000 * e) by (apply Rmult_le_compat_r; lra). replace (u * (1000 * (8 * u * M + 2 * e))) with (8000 * (u * (u * M)) + 2000 * (u * e)) by ring. lra. }
  destruct (ofZ_ok 1) as [Fo Vo]; [reflexivity|].
  destruct (minus_ok (f64_ofZ 1) y Fo Fy) as [Fw _]; [rewrite Vo, Rabs_pos_eq by lra; lra|]. assert (Gw := minus_err (f64_ofZ 1) y Fw). rewrite Vo in Gw. fold u in Gw. set (w := f64_ofZ 1 -! y) in *.
  assert (Gw' : Rabs (val w - (1 - val y)) <= u) by (apply Rle_trans with (1 := Gw); rewrite Rabs_pos_eq by lra; apply Rle_trans with (u * 1); [apply Rmult_le_compat_l; lra|lra]).
  apply Rabs_le_inv in B0, B1. set (dl := val v1 - val v0) in *. assert (Hd : Rabs dl <= 2 * M) by (apply Rabs_le; unfold dl; lra).
  destruct (minus_ok v1 v0 F1 F0) as [Fd _]; [fold dl; lra|]. assert (Gd := minus_err v1 v0 Fd). fold dl u in Gd. set (d := v1 -! v0) in *.
  assert (Gd' : Rabs (val d - dl) <= 2 * (u * M)) by (apply Rle_trans with (1 := Gd); apply Rle_trans with (u * (2 * M)); [apply Rmult_le_compat_l; lra|lra]).
  assert (Wb : Rabs (val w) <= 1 + u) by (apply Rabs_le_inv in Gw'; apply Rabs_le; lra).
  assert (Db : Rabs (val d) <= 2 * M + 2 * (u * M)) by (replace (val d) with ((val d - dl) + dl) by ring; apply Rle_trans with (1 := Rabs_triang _ _); lra).
  assert (X1 : Rabs (val w * val d - (1 - val y) * dl) <= 4 * (u * M) + 2 * (u * (u * M))).
  { replace (val w * val d - (1 - val y) * dl) with (val w * (val d - dl) + (val w - (1 - val y)) * dl) by ring. apply Rle_trans with (1 := Rabs_triang _ _). rewrite !Rabs_mult.
    assert (Rabs (val w) * Rabs (val d - dl) <= (1 + u) * (2 * (u * M))) by (apply Rmult_le_compat; auto using Rabs_pos).
    assert (Rabs (val w - (1 - val y)) * Rabs dl <= u * (2 * M)) by (apply Rmult_le_compat; auto using Rabs_pos). lra. }
  assert (Hwd : Rabs (val w * val d) <= (1 + u) * (2 * M + 2 * (u * M))) by (rewrite Rabs_mult; apply Rmult_le_compat; auto using Rabs_pos).
  destruct (mult_ok w d Fw Fd) as [Fm _]; [lra|]. assert (Gm := mult_err w d Fm). fold u e in Gm. set (m := w *! d) in *.
  assert (uuuM : u * (u * (u * M)) <= / 1000000 * (u * M)) by (apply Rle_trans with (1 * (u * (u * M))); [apply Rmult_le_compat_r; lra|lra]).
  assert (Gm' : Rabs (val m - val w * val d) <= 21 / 10 * (u * M) + e).
  { apply Rle_trans with (1 := Gm). assert (u * Rabs (val w * val d) <= u * ((1 + u) * (2 * M + 2 * (u * M)))) by (apply Rmult_le_compat_l; lra). lra. }
  assert (X2 : Rabs (val acc + val m - P') <= E + 62 / 10 * (u * M) + e).
  { replace (val acc + val m - P') with ((val acc - P) + ((val m - val w * val d) + (val w * val d - (1 - val y) * dl))) by (unfold P'; fold dl; ring).
    apply Rle_trans with (1 := Rabs_triang _ _). assert (Y := Rabs_triang (val m - val w * val d) (val w * val d - (1 - val y) * dl)). lra. }
  assert (X3 : Rabs (val acc + val m) <= M + E + 62 / 10 * (u * M) + e) by (replace (val acc + val m) with ((val acc + val m - P') + P') by ring; apply Rle_trans with (1 := Rabs_triang _ _); lra).
  destruct (plus_ok acc m Fa Fm) as [Fr _]; [lra|]. split; [exact Fr|].
  assert (Gr := plus_err acc m Fr). fold u in Gr.
  assert (u * Rabs (val acc + val m) <= u * (M + E + 62 / 10 * (u * M) + e)) by (apply Rmult_le_compat_l; lra).
  assert (u * e <= / 1000000 * e) by (apply Rmult_le_compat_r; lra).
  replace (val (acc +! m) - P') with ((val (acc +! m) - (val acc + val m)) + (val acc + val m - P')) by ring. apply Rle_trans with (1 := Rabs_triang _ _). lra.
Qed.

(** ** The walk *)
Definition bits (v : list nat) : Prop := Forall (fun b => (b <= 1)%nat) v.
Lemma walk_near bm gs data cs ys (D : list nat -> f64) M :
  (forall v, length v = length gs -> bits v -> get_f_val bm gs data cs v = Ok (D v) /\ is_finite (D v) = true /\ Rabs (val (D v)) <= M) ->
  all_finite ys -> (forall k, 0 <= nth k (dvalues ys) 0 <= 1) -> M <= bpow radix2 1000 ->
  forall order vs acc P t E, length vs = length gs -> bits vs -> (forall d, In d order -> (d < length gs)%nat) ->
  (forall i j, (i < j < length order)%nat -> nth (nth i order 0%nat) (dvalues ys) 0 <= nth (nth j order 0%nat) (dvalues ys) 0) ->
  (forall d, In d order -> 1 - nth d (dvalues ys) 0 <= t) -> 0 <= t <= 1 -> Rabs (P - t * val (D vs)) <= (1 - t) * M ->
  is_finite acc = true -> Rabs (val acc - P) <= E -> 0 <= E -> E + INR (length order) * (8 * u53 * M + 2 * eta64) <= 1000 * (8 * u53 * M + 2 * eta64) ->
  exists v, simplex_walk bm gs data cs ys order vs acc (D vs) = Ok v /\ is_finite v = true /\
    Rabs (val v - (P + walk (fun v => val (D v)) (dvalues ys) order vs)) <= E + INR (length order) * (8 * u53 * M + 2 * eta64).
Proof.
  intros HD Fy Hy BM. induction order as [|d order IH]; intros vs acc P t E Lv Bv Ho Hs Ht T01 HP Fa Ea E0 HE; cbn [simplex_walk walk length].
  - exists acc. split; [reflexivity|]. split; [exact Fa|]. rewrite Rplus_0_r. cbn [INR]. lra.
  - assert (Hdl : (d < length gs)%nat) by (apply Ho; left; auto).
    change (firstn d vs ++ [(nth d vs 0 - 1)%nat] ++ skipn (S d) vs) with (upd d (nth d vs 0 - 1)%nat vs). set (vs' := upd d (nth d vs 0 - 1)%nat vs).
    assert (Lv' : length vs' = length gs) by (unfold vs'; rewrite upd_length; lia). assert (Bv' : bits vs') by (apply upd_bits; [lia|auto]).
    destruct (HD vs Lv Bv) as (_ & F0 & B0). destruct (HD vs' Lv' Bv') as (G1 & F1 & B1). rewrite G1. cbn [bind].
    set (y := nth d ys (nofZ 0)). assert (Vy : val y = nth d (dvalues ys) 0) by (rewrite nth_dvalues; reflexivity). assert (Y1 := Hy d). rewrite <- Vy in Y1.
    assert (Fyd : is_finite y = true) by (apply (finite_nth ys d Fy)).
    assert (HT := Ht d (or_introl eq_refl)). rewrite <- Vy in HT. set (t' := 1 - val y) in *.
    assert (M0 : 0 <= M) by (assert (A := Rabs_pos (val (D vs))); lra). assert (U := u_tiny). assert (N := eta64_pos). assert (uM : 0 <= u53 * M) by (apply Rmult_le_pos; lra).
    set (st := 8 * u53 * M + 2 * eta64) in *. assert (st0 : 0 <= st) by (unfold st; lra).
    assert (HP' : Rabs (P + t' * (val (D vs') - val (D vs)) - t' * val (D vs')) <= (1 - t') * M).
    { replace (P + t' * (val (D vs') - val (D vs)) - t' * val (D vs')) with ((P - t * val (D vs)) + (t - t') * val (D vs)) by ring. apply Rle_trans with (1 := Rabs_triang _ _).
      rewrite (Rabs_mult (t - t')), (Rabs_pos_eq (t - t')) by lra. assert ((t - t') * Rabs (val (D vs)) <= (t - t') * M) by (apply Rmult_le_compat_l; lra). lra. }
    assert (BP : Rabs (P + t' * (val (D vs') - val (D vs))) <= M).
    { replace (P + t' * (val (D vs') - val (D vs))) with ((P + t' * (val (D vs') - val (D vs)) - t' * val (D vs')) + t' * val (D vs')) by ring. apply Rle_trans with (1 := Rabs_triang _ _).
      rewrite (Rabs_mult t'), (Rabs_pos_eq t') by (unfold t'; lra). assert (t' * Rabs (val (D vs')) <= t' * M) by (apply Rmult_le_compat_l; unfold t'; lra). lra. }
    cbn [length] in HE. rewrite S_INR in HE |- *. assert (I0 := pos_INR (length order)). assert (I1 : 0 <= INR (length order) * st) by (apply Rmult_le_pos; lra).
    destruct (step_s acc (D vs) (D vs') y P M E Fa F0 F1 Fyd Y1 B0 B1 Ea BP BM ltac:(fold st; lra)) as (Fr & Er). fold st in Er. fold t' in Er.
    destruct (IH vs' (acc +! (f64_ofZ 1 -! y) *! (D vs' -! D vs)) (P + t' * (val (D vs') - val (D vs))) t' (E + st) Lv' Bv') as (v & Ev & Fv & Av); auto.
    + intros d' Hd'. apply Ho. right; auto.
    + intros i j Hij. apply (Hs (S i) (S j)). cbn [length]. lia.
    + intros d' Hd'. apply (In_nth _ _ 0%nat) in Hd' as (k & Hk & <-). assert (X := Hs 0%nat (S k) ltac:(cbn [length]; lia)). cbn [nth] in X. unfold t'. lra.
    + unfold t'. lra.
    + lra.
    + lra.
    + exists v. split; [exact Ev|]. split; [exact Fv|]. rewrite <- Vy. fold t'.
      replace (P + (t' * (val (D vs') - val (D vs)) + walk (fun v => val (D v)) (dvalues ys) order vs')) with (P + t' * (val (D vs') - val (D vs)) + walk (fun v => val (D v)) (dvalues ys) order vs') by ring. lra.
Qed.

(** Weights are convex. *)
Lemma walk_range (D : list nat -> R) n ys m M : (forall v, length v = n -> bits v -> m <= D v <= M) -> (forall k, 0 <= nth k ys 0 <= 1) ->
  forall order vs s, length vs = n -> bits vs -> (forall d, In d order -> (d < n)%nat) ->
    (forall i j, (i < j < length order)%nat -> nth (nth i order 0%nat) ys 0 <= nth (nth j order 0%nat) ys 0) ->
    (forall d, In d order -> s >= 1 - nth d ys 0) -> 0 <= s ->
    s * m <= walk D ys order vs + s * D vs <= s * M.
Proof.
  intros RD HY. induction order as [|d order IH]; intros vs s Hv Hb H1 Hs Hge H0; cbn [walk].
  - specialize (RD vs Hv Hb). nra.
  - set (vs' := upd d (nth d vs 0 - 1)%nat vs). set (t := 1 - nth d ys 0).
    assert (Hdl : (d < n)%nat) by (apply H1; left; auto).
    assert (Hv' : length vs' = n) by (unfold vs'; rewrite upd_length; lia).
    assert (Hb' : bits vs') by (apply upd_bits; [lia|auto]).
    assert (Ht : 0 <= t) by (specialize (HY d); unfold t; lra).
    assert (Hst : s >= t) by (apply Hge; left; auto).
    assert (I : t * m <= walk D ys order vs' + t * D vs' <= t * M).
    { apply IH; auto.
      - intros d' Hd'. apply H1. right; auto.
      - intros i j Hij. apply (Hs (S i) (S j)). cbn [length]. lia.
      - intros d' Hd'. apply (In_nth _ _ 0%nat) in Hd' as (k & Hk & <-).
        assert (X := Hs 0%nat (S k) ltac:(cbn [length]; lia)). cbn [nth] in X. unfold t. lra. }
    assert (A := RD vs Hv Hb). assert (A' := RD vs' Hv' Hb'). nra.
Qed.
Lemma walk_plus (A B : list nat -> R) ys : forall order vs, walk (fun v => A v + B v) ys order vs = walk A ys order vs + walk B ys order vs.
Proof. induction order as [|d order IH]; intros vs; cbn [walk]; [ring|]. rewrite IH. ring. Qed.
Lemma walk_ext (A B : list nat -> R) n ys : (forall v, length v = n -> bits v -> A v = B v) -> forall order vs, length vs = n -> bits vs -> (forall d, In d order -> (d < n)%nat) -> walk A ys order vs = walk B ys order vs.
Proof.
  intros H. induction order as [|d order IH]; intros vs L Bv Ho; cbn [walk]; [reflexivity|].
  assert (d < n)%nat by (apply Ho; left; auto). assert (L' : length (upd d (nth d vs 0 - 1)%nat vs) = n) by (rewrite upd_length; lia). assert (B' : bits (upd d (nth d vs 0 - 1)%nat vs)) by (apply upd_bits; [lia|auto]).
  rewrite IH, !H; auto. intros; apply Ho; right; auto.
Qed.

(** ** The interpolated value *)
Lemma sort_props s ys : sorts_axes64 s -> all_finite ys -> (forall d, In d (s ys) <-> (d < length ys)%nat) /\ NoDup (s ys) /\ length (s ys) = length ys.
Proof.
  intros H F. destruct (H ys F) as [P _]. split; [intros d; split; intros Hd|split].
  - apply (Permutation_in _ P) in Hd. apply in_seq in Hd. lia.
  - apply (Permutation_in _ (Permutation_sym P)). apply in_seq. lia.
  - eapply Permutation_NoDup; [apply Permutation_sym; exact P|]. apply seq_NoDup.
  - rewrite (Permutation_length P), seq_length. auto.
Qed.
Lemma close_list ys ts : Forall2 close01 ys ts -> all_finite ys /\ (forall k, 0 <= nth k (dvalues ys) 0 <= 1) /\ length ys = length ts /\
  (forall k, Rabs (nth k (dvalues ys) 0 - nth k ts 0) <= 4 * u53).
Proof.
  assert (U := u_tiny). induction 1 as [|y t ys ts (Fy & H1 & H2 & H3) H (I1 & I2 & I3 & I4)].
  - repeat split; [constructor|..]; destruct k; simpl; try lra; rewrite Rminus_diag_eq, Rabs_R0 by reflexivity; lra.
  - split; [constructor; auto|]. split; [intros [|k]; [exact H1|apply I2]|]. split; [simpl; lia|]. intros [|k]; [exact H3|apply I4].
Qed.
Definition nodeval gs (data : list f64) (cs : list Z) (v : list nat) : R := element (map (@length f64) gs) (dvalues data) (node_indices gs cs v).

Lemma simplex_near bm gs data p s M cys cts : sorts_axes64 s -> length data = count (map (@length f64) gs) -> all_finite data -> magnitude_le M data -> data <> [] -> M <= bpow radix2 1000 -> (length gs <= 1000)%nat ->
  mapM (fun gx => cell_frac (fst gx) (snd gx)) (combine gs p) = Ok cys -> Forall2 close01 (map snd cys) cts -> Forall2 axis_cell gs cys ->
  let D := nodeval gs data (map fst cys) in let ones := map (fun _ => 1%nat) gs in
  exists v, interp_simplex bm gs data p s = Ok v /\ is_finite v = true /\
    Rabs (val v - (D ones + walk D (dvalues (map snd cys)) (s (map snd cys)) ones)) <= INR (length gs) * (8 * u53 * M + 2 * eta64).
Proof.
  intros HS Hl Fd Bd Hne BM Hn M1 Ec A1 D ones. destruct (close_list _ _ Ec) as (Fy & Hy & Ly & _). set (ys := map snd cys) in *.
  assert (LY : length ys = length gs) by (unfold ys; rewrite map_length; symmetry; eapply Forall2_length; eauto).
  destruct (sort_props s ys HS Fy) as (Sin & SN & Sl). destruct (HS ys Fy) as (_ & Ss).
  set (Df := fun v => nth (pos (map (@length f64) gs) (node_indices gs (map fst cys) v)) data f0).
  assert (VD : forall v, val (Df v) = D v) by (intros v; unfold Df, D, nodeval, element; rewrite nth_dvalues; reflexivity).
  assert (HD : forall v, length v = length gs -> bits v -> get_f_val bm gs data (map fst cys) v = Ok (Df v) /\ is_finite (Df v) = true /\ Rabs (val (Df v)) <= M).
  { intros v Lv Bv. split; [|split; [apply finite_nth, Fd|apply bounded_nth; auto]]. unfold get_f_val. apply (ndget_ok bm (mkND (map (@length f64) gs) data)); cbn; auto. apply node_indices_in_extents; auto. }
  unfold interp_simplex. rewrite M1. cbn [bind]. fold ones ys. destruct (HD ones (ones_length gs) (ones_bits gs)) as (G1 & F1 & B1). rewrite G1. cbn [bind].
  assert (U := u_tiny). assert (N := eta64_pos). assert (M0 : 0 <= M) by (assert (A := Rabs_pos (val (Df ones))); lra). assert (uM : 0 <= u53 * M) by (apply Rmult_le_pos; lra).
  destruct (walk_near bm gs data (map fst cys) ys Df M HD Fy Hy BM (s ys) ones (Df ones) (val (Df ones)) 1 0 (ones_length gs) (ones_bits gs)) as (v & Ev & Fv & Av).
  - intros d Hd. rewrite <- LY. apply Sin, Hd.
  - intros i j Hij. apply Ss. lia.
  - intros d _. assert (Y := Hy d). lra.
  - lra.
  - replace (val (Df ones) - 1 * val (Df ones)) with 0 by ring. rewrite Rabs_R0. lra.
  - exact F1.
  - rewrite Rminus_diag_eq, Rabs_R0 by reflexivity. lra.
  - lra.
  - rewrite Sl, LY. rewrite Rplus_0_l. apply Rmult_le_compat_r; [lra|]. apply le_INR in Hn. replace 1000 with (INR 1000) by (rewrite INR_IZR_INZ; reflexivity). exact Hn.
  - exists v. split; [exact Ev|]. split; [exact Fv|]. rewrite Sl, LY, Rplus_0_l, VD in Av.
    rewrite (walk_ext (fun v => val (Df v)) D (length gs)) in Av; auto; [apply ones_length|apply ones_bits|]. intros d Hd. rewrite <- LY. apply Sin, Hd.
Qed.

Lemma simplex_double_range_lemma : forall bm gs data p s m M K, good_axes64 gs -> (length gs <= 1000)%nat ->
  Forall (fun g => nth (length g - 1) (dvalues g) 0 - nth 0 (dvalues g) 0 <= dmax) gs -> length p = length gs ->
  length data = count (map (@length f64) gs) -> all_finite data -> magnitude_le K data -> K <= 2 ^ 1000 -> sorts_axes64 s ->
  (forall d, In d data -> m <= dvalue d <= M) ->
  exists v, interp_simplex bm gs data p s = Ok v /\ is_finite v = true /\
    let err := INR (length gs) * (8 * uround * K + 2 * uflow) in m - err <= dvalue v <= M + err.
Proof.
  intros bm gs data p s m M K G Hn W Hp Hl Fd Bd BK HS Hm. assert (Hne := data_ne gs data G Hl). apply span_dmax in W.
  assert (BK' : K <= bpow radix2 1000) by (rewrite <- big_pow; exact BK).
  destruct (axes_f gs p G W Hp) as (cys & cts & rs & M1 & M2 & Ef & Ec & Lr & Cl & A1 & A2).
  destruct (simplex_near bm gs data p s K cys (map snd cts) HS Hl Fd Bd Hne BK' Hn M1 Ec A1) as (v & Ev & Fv & Av).
  exists v. split; [exact Ev|]. split; [exact Fv|]. cbv zeta. rewrite uround_u53, uflow_eta.
  destruct (close_list _ _ Ec) as (Fy & Hy & Ly & _). set (ys := map snd cys) in *. assert (LY : length ys = length gs) by (unfold ys; rewrite map_length; symmetry; eapply Forall2_length; eauto).
  destruct (sort_props s ys HS Fy) as (Sin & SN & Sl). destruct (HS ys Fy) as (_ & Ss).
  assert (Wr := walk_range (nodeval gs data (map fst cys)) (length gs) (dvalues ys) m M).
  destruct Wr with (order := s ys) (vs := map (fun _ : list f64 => 1%nat) gs) (s := 1) as (R1 & R2); auto using ones_length.
  - intros w Lw Bw. unfold nodeval, element. rewrite nth_dvalues. apply (Hm (nth _ data f0)). apply nth_In. rewrite Hl. apply offset_pos. apply node_indices_in_extents; auto.
  - apply ones_bits.
  - intros d Hd. rewrite <- LY. apply Sin, Hd.
  - intros i j Hij. apply Ss. lia.
  - intros d _. assert (Y := Hy d). lra.
  - lra.
  - apply Rabs_le_inv in Av. unfold dvalue. lra.
Qed.

(** ** Nodes *)
Lemma zeros_close (ys : list f64) : Forall (fun y : f64 => is_finite y = true /\ val y = 0) ys -> Forall2 close01 ys (map (fun _ => 0) ys).
Proof.
  assert (U := u_tiny). induction 1 as [|y ys (Fy & Vy) H IH]; cbn [map]; constructor; [|exact IH]. unfold close01. rewrite Vy. split; [exact Fy|]. split; [lra|]. split; [lra|]. rewrite Rminus_diag_eq, Rabs_R0 by reflexivity. lra.
Qed.
Lemma zeros_nth (ys : list f64) k : Forall (fun y : f64 => is_finite y = true /\ val y = 0) ys -> nth k (dvalues ys) 0 = 0.
Proof. intros H. revert k. induction H as [|y ys (Fy & Vy) H IH]; intros [|k]; simpl; auto. Qed.

Lemma simplex_double_nodes_lemma : forall bm gs data idx p s K, good_axes64 gs -> (length gs <= 1000)%nat ->
  length data = count (map (@length f64) gs) -> all_finite data -> magnitude_le K data -> K <= 2 ^ 1000 -> sorts_axes64 s ->
  in_extents (map (@length f64) gs) idx -> all_finite p -> dvalues p = node_at (map dvalues gs) idx ->
  exists v, interp_simplex bm gs data p s = Ok v /\ is_finite v = true /\
    Rabs (dvalue v - element (map (@length f64) gs) (dvalues data) idx) <= INR (length gs) * (8 * uround * K + 2 * uflow).
Proof.
  intros bm gs data idx p s K G Hn Hl Fd Bd BK HS Hi Fp Ep. assert (Hne := data_ne gs data G Hl).
  assert (BK' : K <= bpow radix2 1000) by (rewrite <- big_pow; exact BK).
  destruct (axes_node gs idx p G Hi Fp Ep) as (cys & M1 & A1 & Z & Ei).
  destruct (simplex_near bm gs data p s K cys _ HS Hl Fd Bd Hne BK' Hn M1 (zeros_close _ Z) A1) as (v & Ev & Fv & Av).
  exists v. split; [exact Ev|]. split; [exact Fv|]. rewrite uround_u53, uflow_eta.
  destruct (close_list _ _ (zeros_close _ Z)) as (Fy & Hy & Ly & _). set (ys := map snd cys) in *. assert (LY : length ys = length gs) by (unfold ys; rewrite map_length; symmetry; eapply Forall2_length; eauto).
  destruct (sort_props s ys HS Fy) as (Sin & SN & Sl).
  rewrite walk_zero in Av by (intros; apply zeros_nth, Z).
  set (D := nodeval gs data (map fst cys)) in *. set (ones := map (fun _ : list f64 => 1%nat) gs) in *. set (fin := fold_left (fun v d => upd d (nth d v 0 - 1)%nat v) (s ys) ones) in *.
  replace (D ones + (D fin - D ones)) with (D fin) in Av by ring.
  assert (Efin : fin = map (fun _ => 0%nat) ys).
  { assert (Fo : Forall (fun d => (d < length ones)%nat) (s ys)) by (apply Forall_forall; intros d Hd; unfold ones; rewrite map_length, <- LY; apply Sin, Hd).
    apply nth_ext with (d := 0%nat) (d' := 0%nat).
    - unfold fin. rewrite fold_upd_length by exact Fo. unfold ones. rewrite !map_length. lia.
    - intros k Hk. unfold fin in *. rewrite fold_upd_length in Hk by exact Fo. rewrite fold_upd_nth by auto. unfold ones in *. rewrite map_length in Hk. rewrite ones_nth by exact Hk.
      destruct (in_dec Nat.eq_dec k (s ys)) as [I|I]; [|exfalso; apply I, Sin; lia]. symmetry. destruct (nth_in_or_default k (map (fun _ : f64 => 0%nat) ys) 0%nat) as [J|J]; [|exact J]. apply in_map_iff in J as (x & <- & _). reflexivity. }
  rewrite Efin in Av. unfold D, nodeval in Av. rewrite Ei in Av. exact Av.
Qed.

(** ** Affine data *)
Lemma sum_abs_le (l : list nat) (f : nat -> R) c : (forall k, In k l -> Rabs (f k) <= c) -> Rabs (sum (map f l)) <= INR (length l) * c.
Proof.
  induction l as [|k l IH]; intros H; cbn [map sum fold_right length].
  - rewrite Rabs_R0. cbn [INR]. lra.
  - change (fold_right Rplus 0 (map f l)) with (sum (map f l)). rewrite S_INR. apply Rle_trans with (1 := Rabs_triang _ _). assert (A := H k (or_introl eq_refl)). assert (B := IH (fun j Hj => H j (or_intror Hj))). lra.
Qed.
Lemma sum_minus (l : list nat) (f g : nat -> R) : sum (map f l) - sum (map g l) = sum (map (fun k => f k - g k) l).
Proof. induction l as [|k l IH]; cbn [map sum fold_right]; [ring|]. change (fold_right Rplus 0) with sum in *. rewrite <- IH. ring. Qed.

Lemma simplex_double_affine_lemma : forall bm gs data p s K a b tol, good_axes64 gs -> (length gs <= 1000)%nat ->
  Forall (fun g => nth (length g - 1) (dvalues g) 0 - nth 0 (dvalues g) 0 <= dmax) gs -> length p = length gs ->
  length data = count (map (@length f64) gs) -> all_finite data -> magnitude_le K data -> K <= 2 ^ 1000 -> sorts_axes64 s ->
  length a = length gs ->
  (forall idx, in_extents (map (@length f64) gs) idx -> Rabs (element (map (@length f64) gs) (dvalues data) idx - affine a b (node_at (map dvalues gs) idx)) <= tol) ->
  exists v, interp_simplex bm gs data p s = Ok v /\ is_finite v = true /\
    Rabs (dvalue v - affine a b (map2 saturated gs p)) <= tol + INR (length gs) * (16 * uround * (K + tol) + 2 * uflow).
Proof.
  intros bm gs data p s K a b tol G Hn W Hp Hl Fd Bd BK HS La Ht. assert (Hne := data_ne gs data G Hl). apply span_dmax in W.
  assert (BK' : K <= bpow radix2 1000) by (rewrite <- big_pow; exact BK).
  destruct (axes_f gs p G W Hp) as (cys & cts & rs & M1 & M2 & Ef & Ec & Lr & Cl & A1 & A2).
  destruct (simplex_near bm gs data p s K cys (map snd cts) HS Hl Fd Bd Hne BK' Hn M1 Ec A1) as (v & Ev & Fv & Av).
  exists v. split; [exact Ev|]. split; [exact Fv|]. rewrite uround_u53, uflow_eta.
  destruct (close_list _ _ Ec) as (Fy & Hy & Ly & Cy). set (ys := map snd cys) in *. assert (LY : length ys = length gs) by (unfold ys; rewrite map_length; symmetry; eapply Forall2_length; eauto).
  destruct (sort_props s ys HS Fy) as (Sin & SN & Sl). destruct (HS ys Fy) as (SP & Ss).
  set (rg := map dvalues gs) in *. assert (GR : good_axes rg) by (apply good_axes_dvalues, G). assert (Lrg : length rg = length gs) by (unfold rg; apply map_length).
  assert (Lct : length cts = length gs) by (rewrite <- (map_length snd cts), <- Ly; exact LY).
  set (D := nodeval gs data (map fst cys)) in *. set (ones := map (fun _ : list f64 => 1%nat) gs) in *.
  set (f := fun (k b : nat) => nth k a 0 * nth (node_index (nth k rg []) (fst (nth k cts (0%Z, 0))) b) (nth k rg []) 0).
  set (A := fun w : list nat => b + sum (map (fun k => f k (nth k w 0%nat)) (seq 0 (length gs)))).
  set (E := fun w => D w - A w).
  assert (EA : forall w, length w = length gs -> A w = affine a b (node_at rg (node_indices rg (map fst cts) w))).
  { intros w Lw. unfold A, affine. f_equal. rewrite dot_node_sum by congruence. rewrite Lrg. reflexivity. }
  assert (IE : forall w, length w = length gs -> bits w -> in_extents (map (@length f64) gs) (node_indices gs (map fst cys) w)) by (intros; apply node_indices_in_extents; auto).
  assert (HE : forall w, length w = length gs -> bits w -> - tol <= E w <= tol).
  { intros w Lw Bw. apply Rabs_le_inv. unfold E. rewrite EA by exact Lw. unfold D, nodeval. rewrite <- (node_indices_dvalues gs). fold rg. rewrite Ef. apply Ht. rewrite <- Ef. unfold rg. rewrite node_indices_dvalues. apply IE; auto. }
  assert (HD : forall w, length w = length gs -> bits w -> Rabs (D w) <= K).
  { intros w Lw Bw. unfold D, nodeval, element. rewrite nth_dvalues. apply bounded_nth; auto. }
  assert (O1 := ones_length gs : length ones = length gs). assert (O2 := ones_bits gs : bits ones).
  assert (HO : forall d, In d (s ys) -> (d < length gs)%nat) by (intros d Hd; rewrite <- LY; apply Sin, Hd).
  assert (T0 : 0 <= tol) by (destruct (HE ones O1 O2); lra). assert (K0 : 0 <= K) by (assert (X := HD ones O1 O2); assert (Y := Rabs_pos (D ones)); lra).
  (* splitting *)
  rewrite (walk_ext D (fun w => A w + E w) (length gs)) in Av by (auto; intros; unfold E; ring). rewrite walk_plus in Av.
  replace (D ones) with (A ones + E ones) in Av by (unfold E; ring).
  destruct (walk_range E (length gs) (dvalues ys) (- tol) tol HE Hy (s ys) ones 1 O1 O2 HO) as (R1 & R2).
  { intros i j Hij. apply Ss. lia. }
  { intros d _. assert (Y := Hy d). lra. }
  { lra. }
  (* the affine part *)
  assert (WA : walk A (dvalues ys) (s ys) ones = sum (map (fun d => (1 - nth d (dvalues ys) 0) * (f d 0%nat - f d 1%nat)) (seq 0 (length gs)))).
  { rewrite (walk_additive A f b (length gs)); auto.
    - apply sum_perm. apply Permutation_map. rewrite <- LY. exact SP.
    - apply Forall_forall. exact HO.
    - intros d Hd. apply ones_nth, HO, Hd. }
  assert (AO : A ones = b + sum (map (fun k => f k 1%nat) (seq 0 (length gs)))).
  { unfold A. f_equal. apply sum_ext. intros k Hk. apply in_seq in Hk. unfold ones. rewrite ones_nth by lia. reflexivity. }
  destruct (setup bm rg (dvalues data) rs GR) as (cts' & SS); [congruence|unfold rg; rewrite lengths_dvalues, dvalues_length; exact Hl|].
  assert (cts' = cts) by (assert (X := ss_E _ _ _ _ _ SS); rewrite M2 in X; congruence). subst cts'.
  assert (AX := affine_axis_sum a rg rs cts GR ltac:(congruence) ltac:(congruence) (ss_cf _ _ _ _ _ SS)). rewrite Lrg, Cl in AX.
  assert (DF : A ones + walk A (dvalues ys) (s ys) ones - affine a b (map2 saturated gs p) = sum (map (fun k => (nth k (dvalues ys) 0 - nth k (map snd cts) 0) * (f k 1%nat - f k 0%nat)) (seq 0 (length gs)))).
  { rewrite AO, WA. unfold affine. rewrite <- AX. clear. induction (seq 0 (length gs)) as [|k l IH]; cbn [map sum fold_right]; [ring|]. change (fold_right Rplus 0) with sum in *.
    unfold f in *. match goal with IH : ?x - ?y = ?z |- _ => rewrite <- IH end. ring. }
  assert (DB : Rabs (A ones + walk A (dvalues ys) (s ys) ones - affine a b (map2 saturated gs p)) <= INR (length gs) * (4 * u53 * (2 * (K + tol)))).
  { rewrite DF. rewrite <- (seq_length (length gs) 0) at 2. apply sum_abs_le. intros k Hk. apply in_seq in Hk. rewrite Rabs_mult. apply Rmult_le_compat; auto using Rabs_pos.
    set (w := upd k 0%nat ones). assert (Lw : length w = length gs) by (unfold w; rewrite upd_length; lia).
    assert (Bw : bits w) by (unfold w; replace 0%nat with (nth k ones 0 - 1)%nat by (unfold ones; rewrite ones_nth by lia; reflexivity); apply upd_bits; [lia|exact O2]).
    assert (EQ : f k 1%nat - f k 0%nat = A ones - A w).
    { assert (W0 : nth k w 0%nat = 0%nat) by (unfold w; rewrite upd_nth by lia; rewrite Nat.eqb_refl; reflexivity). assert (W1 : nth k ones 0%nat = 1%nat) by (apply ones_nth; lia).
      assert (X := sum_seq_update f ones w k 0 (length gs) ltac:(lia)). rewrite W0, W1 in X.
      assert (Y : forall j, j <> k -> nth j w 0%nat = nth j ones 0%nat) by (intros j Hj; unfold w; rewrite upd_nth by lia; apply Nat.eqb_neq in Hj; rewrite Hj; reflexivity).
      specialize (X Y). unfold A. lra. }
    rewrite EQ. replace (A ones - A w) with ((D ones - E ones) - (D w - E w)) by (unfold E; ring).
    assert (X1 := HD ones O1 O2). assert (X2 := HD w Lw Bw). assert (X3 := HE ones O1 O2). assert (X4 := HE w Lw Bw). apply Rabs_le_inv in X1, X2. apply Rabs_le. lra. }
  assert (U := u_tiny). assert (N0 := pos_INR (length gs)).
  assert (NK : INR (length gs) * (8 * u53 * K) <= INR (length gs) * (8 * u53 * (K + tol))) by (apply Rmult_le_compat_l; [exact N0|]; apply Rmult_le_compat_l; lra).
  apply Rabs_le_inv in Av. apply Rabs_le_inv in DB. unfold dvalue. apply Rabs_le. lra.
Qed.

(** ** Constant data *)
Lemma walk_const bm gs data cs ys (D : list nat -> f64) c :
  (forall v, length v = length gs -> bits v -> get_f_val bm gs data cs v = Ok (D v) /\ is_finite (D v) = true /\ val (D v) = c) ->
  all_finite ys -> (forall k, 0 <= nth k (dvalues ys) 0 <= 1) ->
  forall order vs acc, length vs = length gs -> bits vs -> (forall d, In d order -> (d < length gs)%nat) -> is_finite acc = true -> val acc = c ->
  exists v, simplex_walk bm gs data cs ys order vs acc (D vs) = Ok v /\ is_finite v = true /\ val v = c.
Proof.
  intros HD Fy Hy. induction order as [|d order IH]; intros vs acc Lv Bv Ho Fa Va; cbn [simplex_walk].
  - exists acc. auto.
  - assert (Hdl : (d < length gs)%nat) by (apply Ho; left; auto).
    change (firstn d vs ++ [(nth d vs 0 - 1)%nat] ++ skipn (S d) vs) with (upd d (nth d vs 0 - 1)%nat vs). set (vs' := upd d (nth d vs 0 - 1)%nat vs).
    assert (Lv' : length vs' = length gs) by (unfold vs'; rewrite upd_length; lia). assert (Bv' : bits vs') by (apply upd_bits; [lia|auto]).
    destruct (HD vs Lv Bv) as (_ & F0 & V0). destruct (HD vs' Lv' Bv') as (G1 & F1 & V1). rewrite G1. cbn [bind].
    set (y := nth d ys (nofZ 0)). assert (Vy : val y = nth d (dvalues ys) 0) by (rewrite nth_dvalues; reflexivity). assert (Y1 := Hy d). rewrite <- Vy in Y1.
    assert (Fyd : is_finite y = true) by (apply (finite_nth ys d Fy)).
    assert (BK := big1003). assert (P9 := bpow_gt_0 radix2 969). assert (B11 : 1 <= bpow radix2 1000) by (apply (bpow_le radix2 0 1000); lia).
    destruct (ofZ_ok 1) as [Fo Vo]; [reflexivity|].
    destruct (minus_ok (f64_ofZ 1) y Fo Fyd) as [Fw _]; [rewrite Vo, Rabs_pos_eq by lra; lra|].
    destruct (minus_ok (D vs') (D vs) F1 F0) as [Fd Vd]; [rewrite V0, V1, Rminus_diag_eq, Rabs_R0 by reflexivity; lra|]. rewrite V0, V1, Rminus_diag_eq, rnd64_0 in Vd by reflexivity.
    destruct (mult_ok (f64_ofZ 1 -! y) (D vs' -! D vs) Fw Fd) as [Fm Vm]; [rewrite Vd, Rmult_0_r, Rabs_R0; lra|]. rewrite Vd, Rmult_0_r, rnd64_0 in Vm.
    destruct (plus_ok acc ((f64_ofZ 1 -! y) *! (D vs' -! D vs)) Fa Fm) as [Fr Vr]; [rewrite Vm, Rplus_0_r; assert (X := abs_val_fmax acc); lra|].
    rewrite Vm, Rplus_0_r, rnd64_id in Vr by apply fmt64_val. apply IH; auto.
    + intros d' Hd'. apply Ho. right; auto.
    + rewrite <- Va. exact Vr.
Qed.

Lemma simplex_double_constant_lemma : forall bm gs data p s c, good_axes64 gs ->
  Forall (fun g => nth (length g - 1) (dvalues g) 0 - nth 0 (dvalues g) 0 <= dmax) gs -> length p = length gs ->
  length data = count (map (@length f64) gs) -> Forall (fun x => is_finite x = true /\ dvalue x = c) data -> sorts_axes64 s ->
  exists v, interp_simplex bm gs data p s = Ok v /\ is_finite v = true /\ dvalue v = c.
Proof.
  intros bm gs data p s c G W Hp Hl Hc HS. apply span_dmax in W.
  destruct (axes_f gs p G W Hp) as (cys & cts & rs & M1 & M2 & Ef & Ec & Lr & Cl & A1 & A2).
  destruct (close_list _ _ Ec) as (Fy & Hy & Ly & _). unfold interp_simplex. rewrite M1. cbn [bind]. set (ys := map snd cys) in *. set (ones := map (fun _ : list f64 => 1%nat) gs).
  assert (LY : length ys = length gs) by (unfold ys; rewrite map_length; symmetry; eapply Forall2_length; eauto). destruct (sort_props s ys HS Fy) as (Sin & SN & Sl).
  set (Df := fun v => nth (pos (map (@length f64) gs) (node_indices gs (map fst cys) v)) data f0).
  assert (HD : forall v, length v = length gs -> bits v -> get_f_val bm gs data (map fst cys) v = Ok (Df v) /\ is_finite (Df v) = true /\ val (Df v) = c).
  { intros v Lv Bv. assert (IE : in_extents (map (@length f64) gs) (node_indices gs (map fst cys) v)) by (apply node_indices_in_extents; auto).
    split; [unfold get_f_val; apply (ndget_ok bm (mkND (map (@length f64) gs) data)); cbn; auto|]. apply (proj1 (Forall_forall _ data) Hc (Df v)). apply nth_In. rewrite Hl. apply offset_pos, IE. }
  destruct (HD ones (ones_length gs) (ones_bits gs)) as (G1 & F1 & V1). rewrite G1. cbn [bind].
  apply (walk_const bm gs data (map fst cys) ys Df c HD Fy Hy); auto.
  - apply ones_length.
  - apply ones_bits.
  - intros d Hd. rewrite <- LY. apply Sin, Hd.
Qed.

(** ** A node is not reproduced exactly *)
Lemma one_axis bm g data x s c y : sorts_axes64 s -> cell_frac g x = Ok (c, y) -> is_finite y = true ->
  interp_simplex bm [g] data [x] s = interp_simplex bm [g] data [x] (fun _ => [0%nat]).
Proof.
  intros HS E Fy. unfold interp_simplex. cbn [combine mapM fst snd]. rewrite E. cbn [bind map fst snd].
  destruct (HS [y]) as (P & _); [constructor; auto|]. cbn [length seq] in P. apply Permutation_sym, Permutation_length_1_inv in P. rewrite P. reflexivity.
Qed.
Lemma simplex_node_refuted_pf : forall s, sorts_axes64 s -> exists gs data p v,
  good_axes64 gs /\ length data = count (map (@length f64) gs) /\ all_finite data /\ dvalues p = node_at (map dvalues gs) [0%nat] /\
  interp_simplex Release gs data p s = Ok v /\ dvalue v = 0 /\ element (map (@length f64) gs) (dvalues data) [0%nat] = 1.
Proof.
  intros s HS. set (g := [f64_ofZ 0; f64_ofZ 1]). set (data := [f64_ofZ 1; f64_ofZ (2 ^ 60)]).
  exists [g], data, [f64_ofZ 0], (vof (interp_simplex Release [g] data [f64_ofZ 0] (fun _ => [0%nat]))).
  split.
  { apply good2; [reflexivity|reflexivity|]. rewrite (proj2 (ofZ_ok 0 ltac:(reflexivity))), (proj2 (ofZ_ok 1 ltac:(reflexivity))). lra. }
  split; [reflexivity|]. split; [repeat constructor|]. split; [reflexivity|]. split.
  { rewrite (one_axis Release g data (f64_ofZ 0) s 0%Z (B754_zero false) HS); [apply vof_ok; vm_compute; reflexivity|vm_compute; reflexivity|reflexivity]. }
  split; [vm_compute; reflexivity|]. unfold element. cbn. exact (proj2 (ofZ_ok 1 ltac:(reflexivity))).
Qed.

(** ** Example *)
Definition isort64 (ys : list f64) : list nat := isort (dvalues ys).
Lemma isort64_sorts : sorts_axes64 isort64.
Proof. intros ys F. destruct (isort_sorts (dvalues ys)) as (P & S). rewrite dvalues_length in P, S. split; [exact P|exact S]. Qed.
Lemma ex_simplex : exists v, interp_simplex Debug [map f64_ofZ [1; 3]%Z; map f64_ofZ [0; 2]%Z] (map f64_ofZ [3; 5; 5; 7]%Z) (map f64_ofZ [2; 1]%Z) isort64 = Ok v /\
  Rabs (dvalue v - 5) <= / 100000000000.
Proof.
  assert (U := u_tiny). assert (TE : eta64 <= u53).
  { unfold eta64. apply Rle_trans with (bpow radix2 (-1074)); [assert (0 < bpow radix2 (-1074)) by apply bpow_gt_0; lra|]. replace u53 with (bpow radix2 (-53)) by (unfold u53; rewrite bpow_powerRZ; simpl; reflexivity). apply bpow_le. discriminate. }
  assert (DM : 1000 <= dmax).
  { rewrite dmax_fmax. assert (A := big1003). assert (P9 := bpow_gt_0 radix2 969). assert (1000 <= bpow radix2 1000); [|lra]. apply Rle_trans with (bpow radix2 10); [simpl; lra|apply bpow_le; lia]. }
  destruct (simplex_double_affine_lemma Debug [map f64_ofZ [1; 3]%Z; map f64_ofZ [0; 2]%Z] (map f64_ofZ [3; 5; 5; 7]%Z) (map f64_ofZ [2; 1]%Z) isort64 7 [1; 1] 2 0) as (v & E & _ & Ev).
  - constructor; [|constructor; [|constructor]]; (split; [repeat constructor; apply fin_ofZ; reflexivity|split; [|discriminate]]); intros i j Hij; cbn [dvalues map length] in Hij |- *;
      (destruct i as [|i]; destruct j as [|[|j]]; try lia); cbn [nth]; vz; lra.
  - cbn; lia.
  - constructor; [|constructor; [|constructor]]; cbn [map length Nat.sub nth dvalues]; vz; lra.
  - reflexivity.
  - reflexivity.
  - repeat constructor; apply fin_ofZ; reflexivity.
  - unfold magnitude_le. cbn [map]. repeat constructor; vz; rewrite Rabs_pos_eq by lra; lra.
  - apply Rle_trans with (2 ^ 3); [simpl; lra|]. apply Rle_pow; [lra|lia].
  - exact isort64_sorts.
  - reflexivity.
  - intros idx H. inversion H as [|? i ? is Hi H1]; subst. inversion H1 as [|? j ? js Hj H2]; subst. inversion H2; subst. cbn [map length] in Hi, Hj.
    destruct i as [|[|i]]; [..|lia]; (destruct j as [|[|j]]; [..|lia]); unfold element, affine; cbn [map length dvalues pos count node_at map2 dot nth Nat.mul Nat.add]; vz; rewrite Rminus_diag_eq, Rabs_R0 by ring; lra.
  - exists v. split; [exact E|]. rewrite uround_u53, uflow_eta in Ev. cbn [length] in Ev. change (INR 2) with 2 in Ev.
    replace (affine [1; 1] 2 (map2 saturated [map f64_ofZ [1; 3]%Z; map f64_ofZ [0; 2]%Z] (map f64_ofZ [2; 1]%Z))) with 5 in Ev; [apply Rle_trans with (1 := Ev); lra|].
    assert (S1 : saturated (map f64_ofZ [1; 3]%Z) (f64_ofZ 2) = 2).
    { change (clamp (dvalue (f64_ofZ 1)) (dvalue (f64_ofZ 3)) (dvalue (f64_ofZ 2)) = 2). vz. unfold clamp. unfold Rmin, Rmax. repeat destruct Rle_dec; lra. }
    assert (S2 : saturated (map f64_ofZ [0; 2]%Z) (f64_ofZ 1) = 1).
    { change (clamp (dvalue (f64_ofZ 0)) (dvalue (f64_ofZ 2)) (dvalue (f64_ofZ 1)) = 1). vz. unfold clamp. unfold Rmin, Rmax. repeat destruct Rle_dec; lra. }
    cbn [map map2] in S1, S2 |- *. rewrite S1, S2. unfold affine. cbn [dot]. ring.
Qed.
