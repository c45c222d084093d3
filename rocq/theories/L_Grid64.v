(** Grid interpolation in binary64. *)
From Coq Require Import List Arith ZArith Reals Bool Lia Lra Psatz.
From Flocq Require Import Core.Core IEEE754.BinarySingleNaN.
From Verif Require Import Outcome Num NumFun F64 StdAlgo S_Interp1d L_Search L_Interp1d M_Grid S_Grid L_Grid
  L_F64 L_Linspace64 L_F64Err S_Angles S_Double S_Grid64 L_Series64 L_Interp64 L_Special64.
Import ListNotations.
Local Open Scope R_scope.

(** ** Cells *)
Lemma upper_bound_f xs x : all_finite xs -> is_finite x = true ->
  upper_bound xs x = upper_bound (dvalues xs) (val x).
Proof.
  intros F Fx. unfold upper_bound, dvalues. rewrite map_length. apply bsearch_ext. intros i Hi.
  f_equal. rewrite (nth_indep _ (val x) 0) by (rewrite map_length; auto).
  rewrite (nth_indep _ x f0) by auto.
  change (map dvalue xs) with (dvalues xs). rewrite nth_dvalues. apply nlt_val; auto. apply finite_nth; auto.
Qed.

Lemma nle_val (a b : f64) : is_finite a = true -> is_finite b = true -> nle a b = Rleb (val a) (val b).
Proof.
  intros Fa Fb. destruct (Rleb (val a) (val b)) eqn:E.
  - apply Rleb_true in E. apply nle_fin; auto.
  - apply Rleb_false in E. destruct (nle a b) eqn:E'; auto. apply (nle_fin a b Fa Fb) in E'. lra.
Qed.

Lemma find_cell_f g x : all_finite g -> is_finite x = true -> find_cell g x = find_cell (dvalues g) (val x).
Proof.
  intros F Fx. destruct g as [|g0 g]; [reflexivity|]. unfold find_cell.
  assert (L : val (last (g0 :: g) g0) = last (dvalues (g0 :: g)) (val g0) /\ is_finite (last (g0 :: g) g0) = true).
  { clear Fx x. revert g0 F. induction g as [|b g IH]; intros a F; [split; [reflexivity|inversion F; auto]|].
    change (last (a :: b :: g) a) with (last (b :: g) a).
    change (last (dvalues (a :: b :: g)) (val a)) with (last (dvalues (b :: g)) (val a)).
    inversion F; subst.
    destruct (IH b H2) as [E1 E2].
    assert (D : forall (A : Type) (l : list A) (z d d' : A), last (z :: l) d = last (z :: l) d').
    { clear. intros A l. induction l as [|y l IH]; intros z d d'; [reflexivity|].
      change (last (y :: l) d = last (y :: l) d'). apply IH. }
    rewrite (D _ g b a b). cbn [dvalues map] in *. rewrite (D _ _ (dvalue b) (val a) (val b)). split; auto. }
  destruct L as [L1 L2].
  rewrite (upper_bound_f (g0 :: g) x F Fx).
  cbn [dvalues map]. cbn [dvalues map] in L1. change (map dvalue g) with (dvalues g) in *.
  rewrite (nlt_val x g0) by (auto; inversion F; auto).
  rewrite (nle_val _ x L2 Fx). rewrite L1.
  change (dvalue g0 :: dvalues g) with (val g0 :: dvalues g).
  replace (length (val g0 :: dvalues g)) with (length (g0 :: g)) by (unfold dvalues; simpl; rewrite map_length; reflexivity).
  reflexivity.
Qed.

Lemma val0 : val (nofZ 0 : f64) = 0.
Proof. change (val (f64_ofZ 0) = 0). reflexivity. Qed.
Lemma val1 : val (nofZ 1 : f64) = 1.
Proof. change (val (f64_ofZ 1) = 1). destruct (ofZ_ok 1) as [_ E]; [reflexivity|]. rewrite E. reflexivity. Qed.

(** Local coordinate in a cell. *)
Lemma frac_f (g0 g1 x : f64) : is_finite g0 = true -> is_finite g1 = true -> is_finite x = true ->
  val g0 <= val x < val g1 -> val g1 - val g0 <= fmax64 ->
  let y := ((x -! g0) /! (g1 -! g0)) in
  let t := (val x - val g0) / (val g1 - val g0) in
  0 <= t <= 1 /\ is_finite y = true /\ Rabs (val y - t) <= 4 * u53.
Proof.
  intros F0 F1 Fx Hx HD. cbv zeta.
  assert (U := u_small). assert (N := eta64_pos). assert (P9 := bpow_gt_0 radix2 969).
  set (D := val g1 - val g0) in *. set (n := val x - val g0).
  assert (Dp : 0 < D) by (unfold D; lra). assert (Hn : 0 <= n <= D) by (unfold n, D; lra).
  assert (Ht : 0 <= n / D <= 1).
  { split.
    - apply Rmult_le_pos; [lra|]. left. apply Rinv_0_lt_compat. lra.
    - apply Rmult_le_reg_r with D; [lra|]. unfold Rdiv. rewrite Rmult_assoc, Rinv_l; lra. }
  split; [exact Ht|].
  destruct (minus_ok g1 g0 F1 F0) as [Fd Ed]; [fold D; rewrite Rabs_pos_eq; lra|].
  destruct (minus_ok x g0 Fx F0) as [Fn En]; [fold n; rewrite Rabs_pos_eq; lra|].
  assert (Gd := minus_err g1 g0 Fd). assert (Gn := minus_err x g0 Fn). fold D in Gd. fold n in Gn.
  rewrite (Rabs_pos_eq D) in Gd by lra. rewrite (Rabs_pos_eq n) in Gn by lra.
  apply Rabs_le_inv in Gd. apply Rabs_le_inv in Gn.
  set (d' := val (g1 -! g0)) in *. set (n' := val (x -! g0)) in *.
  assert (Dp' : D * (1 - u53) <= d' <= D * (1 + u53)) by lra.
  assert (Np' : n * (1 - u53) <= n' <= n * (1 + u53)) by lra.
  assert (D0 : 0 < D * (1 - u53)) by (apply Rmult_lt_0_compat; lra).
  assert (d0 : 0 < d') by lra.
  assert (Q : Rabs (n' / d' - n / D) <= 21 / 10 * u53).
  { replace (n' / d' - n / D) with (((n' - n) + (n / D) * (D - d')) / d') by (field; lra).
    unfold Rdiv at 1. rewrite Rabs_mult, (Rabs_pos_eq (/ d')) by (left; apply Rinv_0_lt_compat; lra).
    apply Rmult_le_reg_r with d'; [lra|]. rewrite Rmult_assoc, Rinv_l, Rmult_1_r by lra.
    apply Rle_trans with (2 * u53 * D).
    - eapply Rle_trans; [apply Rabs_triang|]. rewrite Rabs_mult, (Rabs_pos_eq (n / D)) by lra.
      assert (Rabs (n' - n) <= u53 * D). { apply Rabs_le. assert (u53 * n <= u53 * D) by (apply Rmult_le_compat_l; lra). lra. }
      assert (n / D * Rabs (D - d') <= 1 * (u53 * D)).
      { apply Rmult_le_compat; [lra|apply Rabs_pos|lra|]. apply Rabs_le. lra. }
      lra.
    - apply Rle_trans with (21 / 10 * u53 * (D * (1 - u53))); [|apply Rmult_le_compat_l; lra].
      assert (0 <= u53 * D * (/ 10 - 21 / 10 * u53)); [|nra]. apply Rmult_le_pos; [apply Rmult_le_pos; lra|lra]. }
  assert (Q' := Q). apply Rabs_le_inv in Q'.
  destruct (div_ok (x -! g0) (g1 -! g0) Fn Fd) as [Fy Ey].
  { fold d'. lra. }
  { fold d' n'. apply Rabs_le. assert (B := big1003). assert (1 <= bpow radix2 1000) by (apply (bpow_le radix2 0 1000); lia). lra. }
  split; [exact Fy|].
  assert (G := div_err _ _ Fd Fy). fold d' n' in G.
  assert (A : Rabs (n' / d') <= 11 / 10) by (apply Rabs_le; lra).
  assert (u53 * Rabs (n' / d') <= u53 * (11 / 10)) by (apply Rmult_le_compat_l; lra).
  assert (eta64 <= / 10 * u53).
  { unfold eta64. apply Rle_trans with (bpow radix2 (-1074)); [assert (0 < bpow radix2 (-1074)) by apply bpow_gt_0; lra|].
    apply Rle_trans with (bpow radix2 (-4) * bpow radix2 (-53)); [rewrite <- bpow_plus; apply bpow_le; lia|].
    replace (bpow radix2 (-53)) with u53 by (unfold u53; rewrite bpow_powerRZ; reflexivity).
    apply Rmult_le_compat_r; [lra|]. simpl. lra. }
  replace (val ((x -! g0) /! (g1 -! g0)) - n / D) with ((val ((x -! g0) /! (g1 -! g0)) - n' / d') + (n' / d' - n / D)) by ring.
  eapply Rle_trans; [apply Rabs_triang|]. lra.
Qed.

(** Clamping the local coordinate. *)
Lemma clamp_f (y : f64) t : is_finite y = true -> 0 <= t <= 1 -> Rabs (val y - t) <= 4 * u53 ->
  let z := if nlt y (nofZ 0) then (nofZ 0 : f64) else if nlt (nofZ 1) y then nofZ 1 else y in
  is_finite z = true /\ 0 <= val z <= 1 /\ Rabs (val z - t) <= 4 * u53.
Proof.
  intros F Ht H. cbv zeta. assert (V0 := val0). assert (V1 := val1).
  assert (F0 : is_finite (nofZ 0 : f64) = true) by reflexivity.
  assert (F1 : is_finite (nofZ 1 : f64) = true) by (vm_compute; reflexivity).
  apply Rabs_le_inv in H. rewrite (nlt_val y _ F F0), (nlt_val _ y F1 F), V0, V1.
  destruct (Rltb (val y) 0) eqn:E1; [|destruct (Rltb 1 (val y)) eqn:E2].
  - apply Rltb_true in E1. split; [exact F0|]. rewrite V0. split; [lra|]. apply Rabs_le. lra.
  - apply Rltb_true in E2. split; [exact F1|]. rewrite V1. split; [lra|]. apply Rabs_le. lra.
  - apply Rltb_false in E1. apply Rltb_false in E2. split; [exact F|]. split; [lra|]. apply Rabs_le. lra.
Qed.

Definition span_ok (g : list f64) : Prop :=
  nth (length g - 1) (dvalues g) 0 - nth 0 (dvalues g) 0 <= fmax64.

Definition close01 (y : f64) (t : R) : Prop :=
  is_finite y = true /\ 0 <= val y <= 1 /\ 0 <= t <= 1 /\ Rabs (val y - t) <= 4 * u53.

Lemma close0 : close01 (nofZ 0) 0.
Proof. assert (U := u_small). split; [reflexivity|]. rewrite val0. split; [lra|]. split; [lra|]. rewrite Rminus_0_r, Rabs_R0. lra. Qed.
Lemma close1 : close01 (nofZ 1) 1.
Proof.
  assert (U := u_small). split; [vm_compute; reflexivity|]. rewrite val1. split; [lra|]. split; [lra|].
  replace (1 - 1) with 0 by ring. rewrite Rabs_R0. lra.
Qed.

Lemma dvalues_length l : length (dvalues l) = length l.
Proof. apply map_length. Qed.

Lemma cell_frac_finite g x : good_axis64 g -> span_ok g -> is_finite x = true ->
  exists c y t, cell_frac g x = Ok (c, y) /\ cell_frac (dvalues g) (val x) = Ok (c, t) /\ close01 y t.
Proof.
  intros [F Hg] W Fx. destruct (axis_cases (dvalues g) (val x) Hg) as (cy & E & _).
  assert (Hl := good_axis_length _ Hg). destruct Hg as [Hinc Hne]. rewrite dvalues_length in Hl.
  destruct (find_cell_ok (dvalues g) (val x) Hne) as (c & Ec & Hc). rewrite dvalues_length in Hc.
  revert E. unfold cell_frac. rewrite (find_cell_f g x F Fx), Ec. cbn [bind]. rewrite dvalues_length.
  destruct (c =? -1)%Z eqn:E1; [intros _; exists c, (nofZ 1), 1; split; [reflexivity|]; split; [reflexivity|exact close1]|].
  destruct (c =? Z.of_nat (length g) - 1)%Z eqn:E2;
    [intros _; exists c, (nofZ 0), 0; split; [reflexivity|]; split; [reflexivity|exact close0]|].
  apply Z.eqb_neq in E1. apply Z.eqb_neq in E2. intros _.
  (* inside: c is a cell containing x *)
  assert (Hx : nth (Z.to_nat c) (dvalues g) 0 <= val x < nth (S (Z.to_nat c)) (dvalues g) 0).
  { revert Ec. unfold find_cell. assert (Lr : length (dvalues g) = length g) by apply dvalues_length.
    destruct (dvalues g) as [|a r'] eqn:Er; [congruence|].
    change a with (nth 0 (a :: r') 0) at 1. rewrite <- Er in *. set (r := dvalues g) in *.
    rewrite (last_nth r _ 0) by exact Hne. change nlt with Rltb. change nle with Rleb.
    destruct (Rltb (val x) (nth 0 r 0)) eqn:B1; [intros K; injection K; lia|]. apply Rltb_false in B1.
    destruct (Rleb (nth (length r - 1) r 0) (val x)) eqn:B2; [intros K; injection K; rewrite ?Lr; lia|]. apply Rleb_false in B2.
    assert (H2 : (2 <= length r)%nat).
    { destruct (le_lt_dec 2 (length r)); auto. replace (length r - 1)%nat with 0%nat in B2 by lia. lra. }
    destruct (cell_exists_ho r (val x) H2 (conj B1 B2)) as (i & Hi & Hxi).
    rewrite (upper_bound_cell r (val x) i Hinc Hi Hxi). intros K.
    assert (K' : (Z.of_nat (S i) - 1)%Z = c) by congruence. clear K.
    replace (Z.to_nat c) with i by lia. exact Hxi. }
  rewrite (vidx_lt g (Z.to_nat c) f0), (vidx_lt (dvalues g) (Z.to_nat c) 0) by (rewrite ?dvalues_length; lia). cbn [bind].
  replace (Z.to_nat (c + 1)) with (S (Z.to_nat c)) by lia.
  rewrite (vidx_lt g (S (Z.to_nat c)) f0), (vidx_lt (dvalues g) (S (Z.to_nat c)) 0) by (rewrite ?dvalues_length; lia). cbn [bind].
  set (k := Z.to_nat c) in *.
  assert (Hk : (S k < length g)%nat) by lia.
  assert (Wk : nth (S k) (dvalues g) 0 - nth k (dvalues g) 0 <= fmax64).
  { pose proof (increasing_le (dvalues g) 0 k Hinc ltac:(rewrite dvalues_length; lia)).
    pose proof (increasing_le (dvalues g) (S k) (length g - 1) Hinc ltac:(rewrite dvalues_length; lia)). unfold span_ok in W. lra. }
  rewrite !nth_dvalues in Hx, Wk. rewrite !nth_dvalues.
  destruct (frac_f (nth k g f0) (nth (S k) g f0) x (finite_nth g k F) (finite_nth g (S k) F) Fx Hx Wk) as (Ht & Fy & Hy).
  set (t := (val x - val (nth k g f0)) / (val (nth (S k) g f0) - val (nth k g f0))) in *.
  destruct (clamp_f _ t Fy Ht Hy) as (Fz & Hz & Hzt).
  eexists c, _, t. split; [reflexivity|]. split.
  - change ((val x - val (nth k g f0)) / (val (nth (S k) g f0) - val (nth k g f0)))%num with t.
    change nlt with Rltb. change (nofZ 0) with 0. change (nofZ 1) with 1.
    rewrite (proj2 (Rltb_false t 0)) by lra. rewrite (proj2 (Rltb_false 1 t)) by lra. reflexivity.
  - split; [exact Fz|]. split; [exact Hz|]. split; [exact Ht|exact Hzt].
Qed.

(** *** Infinities and NaN *)
Lemma bsearch_true n : bsearch (fun _ => true) n = n.
Proof. apply bsearch_partition; auto; lia. Qed.

Lemma find_cell_nan g : g <> [] -> find_cell g (B754_nan : f64) = Ok (Z.of_nat (length g) - 1)%Z.
Proof.
  intros H. destruct g as [|a g]; [congruence|]. unfold find_cell.
  change (nlt (B754_nan : f64) a) with false. rewrite nle_nan_r. cbv iota.
  unfold upper_bound. rewrite (bsearch_ext _ (fun _ => true)).
  - rewrite bsearch_true. reflexivity.
  - intros i _. rewrite nlt_nan_l. reflexivity.
Qed.

Lemma nlt_ninf (b : f64) : is_finite b = true -> nlt (B754_infinity true : f64) b = true.
Proof. destruct b as [| [] | |[]]; try discriminate; reflexivity. Qed.
Lemma nlt_pinf (b : f64) : nlt (B754_infinity false : f64) b = false.
Proof. destruct b as [| [] | |[]]; reflexivity. Qed.
Lemma nle_pinf (b : f64) : is_finite b = true -> nle b (B754_infinity false : f64) = true.
Proof. destruct b as [| [] | |[]]; try discriminate; reflexivity. Qed.

Lemma find_cell_inf g s : g <> [] -> all_finite g ->
  find_cell g (B754_infinity s : f64) = Ok (if s then -1 else Z.of_nat (length g) - 1)%Z.
Proof.
  intros H F. destruct g as [|a g]; [congruence|]. unfold find_cell. destruct s.
  - rewrite nlt_ninf by (inversion F; auto). reflexivity.
  - rewrite nlt_pinf, nle_pinf; [reflexivity|]. rewrite (last_nth _ a f0) by discriminate. apply finite_nth. exact F.
Qed.

Lemma cell_frac_any g x : good_axis64 g -> span_ok g ->
  exists c y t r, cell_frac g x = Ok (c, y) /\ cell_frac (dvalues g) r = Ok (c, t) /\ close01 y t /\
    clamp (nth 0 (dvalues g) 0) (nth (length g - 1) (dvalues g) 0) r = saturated g x.
Proof.
  intros G W. destruct (is_finite x) eqn:Fx.
  { destruct (cell_frac_finite g x G W Fx) as (c & y & t & E1 & E2 & C). exists c, y, t, (val x).
    split; [exact E1|]. split; [exact E2|]. split; [exact C|]. destruct x; try discriminate; reflexivity. }
  destruct G as [F Hg]. assert (Hl := good_axis_length _ Hg). destruct Hg as [Hinc Hne]. rewrite dvalues_length in Hl.
  assert (Hg0 : g <> []) by (intros ->; simpl in Hl; lia).
  set (lo := nth 0 (dvalues g) 0). set (hi := nth (length g - 1) (dvalues g) 0).
  assert (LH : lo <= hi) by (apply increasing_le; auto; rewrite dvalues_length; lia).
  assert (Eh : forall a r, dvalues g = a :: r -> lo = a) by (intros a r E; unfold lo; rewrite E; reflexivity).
  assert (Hhi : nth (length g - 1) (dvalues g) 0 = hi) by reflexivity.
  assert (Hlo : nth 0 (dvalues g) 0 = lo) by reflexivity.
  clearbody lo hi.
  assert (Top : cell_frac (dvalues g) hi = Ok ((Z.of_nat (length g) - 1)%Z, 0)).
  { unfold cell_frac, find_cell. destruct (dvalues g) as [|a r] eqn:E; [congruence|]. assert (Ea := Eh a r eq_refl). rewrite <- E in *. rewrite <- Ea.
    change (nlt hi lo) with (Rltb hi lo).
    rewrite (proj2 (Rltb_false hi lo) LH). rewrite (last_nth _ lo 0) by congruence. rewrite dvalues_length, Hhi.
    change (nle hi hi) with (Rleb hi hi). rewrite (proj2 (Rleb_true hi hi)) by lra. cbn [bind].
    replace (Z.of_nat (length g) - 1 =? -1)%Z with false by (symmetry; apply Z.eqb_neq; lia).
    rewrite Z.eqb_refl. reflexivity. }
  assert (Ctop : clamp lo hi hi = hi) by (unfold clamp; rewrite Rmin_left, Rmax_right; lra).
  destruct x as [| [] | |]; try discriminate.
  - exists (-1)%Z, (nofZ 1), 1, (lo - 1). split; [|split; [|split]].
    + unfold cell_frac. rewrite find_cell_inf by auto. reflexivity.
    + unfold cell_frac, find_cell. destruct (dvalues g) as [|a r] eqn:E; [congruence|].
      rewrite <- (Eh a r eq_refl). change (nlt (lo - 1) lo) with (Rltb (lo - 1) lo). rewrite (proj2 (Rltb_true (lo - 1) lo)) by lra. reflexivity.
    + exact close1.
    + unfold saturated, clamp. rewrite Hlo. rewrite Rmin_right, Rmax_left; lra.
  - exists (Z.of_nat (length g) - 1)%Z, (nofZ 0), 0, hi. split; [|split; [exact Top|split; [exact close0|]]].
    + unfold cell_frac. rewrite find_cell_inf by auto. cbn [bind].
      replace (Z.of_nat (length g) - 1 =? -1)%Z with false by (symmetry; apply Z.eqb_neq; lia). rewrite Z.eqb_refl. reflexivity.
    + unfold saturated. rewrite Hhi. exact Ctop.
  - exists (Z.of_nat (length g) - 1)%Z, (nofZ 0), 0, hi. split; [|split; [exact Top|split; [exact close0|]]].
    + unfold cell_frac. rewrite find_cell_nan by auto. cbn [bind].
      replace (Z.of_nat (length g) - 1 =? -1)%Z with false by (symmetry; apply Z.eqb_neq; lia). rewrite Z.eqb_refl. reflexivity.
    + unfold saturated. rewrite Hhi. exact Ctop.
Qed.

(** ** One blend *)
Lemma step_err (lo up y : f64) (lo' up' t E M : R) (k : nat) :
  is_finite lo = true -> is_finite up = true -> close01 y t ->
  Rabs lo' <= M -> Rabs up' <= M -> Rabs (val lo - lo') <= E -> Rabs (val up - up') <= E ->
  M <= bpow radix2 1000 -> 0 <= E <= 1000 * (14 * u53 * M + 2 * eta64) ->
  let r := lo +! y *! (up -! lo) in
  is_finite r = true /\ Rabs (val r - (lo' + t * (up' - lo'))) <= E + (14 * u53 * M + 2 * eta64) /\
  Rabs (lo' + t * (up' - lo')) <= M.
Proof.
  intros Fl Fu (Fy & Hy & Ht & Hyt) Bl Bu El Eu BM HE. cbv zeta.
  assert (U := u_small). assert (N := eta64_pos). assert (P9 := bpow_gt_0 radix2 969).
  assert (M0 : 0 <= M) by (assert (A := Rabs_pos lo'); lra).
  assert (BK := big1003). set (B := bpow radix2 1000) in *.
  assert (B1 : 1 <= B) by (apply (bpow_le radix2 0 1000); lia).
  assert (N1 : eta64 <= / 1000000).
  { unfold eta64. apply Rle_trans with (bpow radix2 (-1074)); [assert (0 < bpow radix2 (-1074)) by apply bpow_gt_0; lra|].
    apply Rle_trans with (bpow radix2 (-20)); [apply bpow_le; lia|]. simpl. lra. }
  set (u := u53) in *. set (e := eta64) in *.
  assert (uM : 0 <= u * M) by (apply Rmult_le_pos; lra).
  assert (ue : 0 <= u * e) by (apply Rmult_le_pos; lra).
  set (K := M + E). assert (K0 : 0 <= K) by (unfold K; lra).
  assert (uM1 : u * M <= / 1000000 * M) by (apply Rmult_le_compat_r; lra).
  assert (uE : u * E <= / 50 * (u * M) + / 50 * e).
  { apply Rle_trans with (u * (1000 * (14 * u * M + 2 * e))); [apply Rmult_le_compat_l; lra|].
    assert (u * (u * M) <= / 1000000 * (u * M)) by (apply Rmult_le_compat_r; lra).
    assert (u * e <= / 1000000 * e) by (apply Rmult_le_compat_r; lra). nra. }
  assert (KB : K <= 2 * B) by (unfold K; lra).
  assert (uK : u * K <= / 1000000 * K) by (apply Rmult_le_compat_r; lra).
  assert (uK0 : 0 <= u * K) by (apply Rmult_le_pos; lra).
  assert (Hlo : Rabs (val lo) <= K).
  { replace (val lo) with ((val lo - lo') + lo') by ring. eapply Rle_trans; [apply Rabs_triang|]. unfold K. lra. }
  assert (Hup : Rabs (val up) <= K).
  { replace (val up) with ((val up - up') + up') by ring. eapply Rle_trans; [apply Rabs_triang|]. unfold K. lra. }
  apply Rabs_le_inv in Hlo. apply Rabs_le_inv in Hup.
  assert (Hd : Rabs (val up - val lo) <= 2 * K) by (apply Rabs_le; lra).
  destruct (minus_ok up lo Fu Fl) as [Fd _]; [lra|].
  assert (Gd := minus_err up lo Fd). set (d := up -! lo) in *.
  assert (Gd' : Rabs (val d - (val up - val lo)) <= u * (2 * K)).
  { eapply Rle_trans; [exact Gd|]. apply Rmult_le_compat_l; lra. }
  clear Gd. apply Rabs_le_inv in Gd'. apply Rabs_le_inv in Hd.
  assert (Hdv : Rabs (val d) <= 21 / 10 * K) by (apply Rabs_le; lra).
  assert (Hyd : Rabs (val y * val d) <= 21 / 10 * K).
  { rewrite Rabs_mult, (Rabs_pos_eq (val y)) by lra. apply Rle_trans with (1 * Rabs (val d)); [|lra].
    apply Rmult_le_compat_r; [apply Rabs_pos|lra]. }
  destruct (mult_ok y d Fy Fd) as [Fm _]; [lra|].
  assert (Gm := mult_err y d Fm). fold u e in Gm. set (m := y *! d) in *.
  assert (Gm' : Rabs (val m - val y * val d) <= u * (21 / 10 * K) + e).
  { eapply Rle_trans; [exact Gm|]. apply Rplus_le_compat_r, Rmult_le_compat_l; lra. }
  clear Gm. apply Rabs_le_inv in Gm'.
  set (q := val d - (val up - val lo)) in *.
  assert (Yq : Rabs (val y * q) <= u * (2 * K)).
  { rewrite Rabs_mult, (Rabs_pos_eq (val y)) by lra. apply Rle_trans with (1 * Rabs q).
    - apply Rmult_le_compat_r; [apply Rabs_pos|lra].
    - rewrite Rmult_1_l. apply Rabs_le. exact Gd'. }
  apply Rabs_le_inv in Yq.
  assert (Conv : Rabs (val lo + val y * (val up - val lo)) <= K).
  { apply Rabs_le. split.
    - replace (val lo + val y * (val up - val lo)) with ((1 - val y) * val lo + val y * val up) by ring.
      assert ((1 - val y) * - K <= (1 - val y) * val lo) by (apply Rmult_le_compat_l; lra).
      assert (val y * - K <= val y * val up) by (apply Rmult_le_compat_l; lra). lra.
    - replace (val lo + val y * (val up - val lo)) with ((1 - val y) * val lo + val y * val up) by ring.
      assert ((1 - val y) * val lo <= (1 - val y) * K) by (apply Rmult_le_compat_l; lra).
      assert (val y * val up <= val y * K) by (apply Rmult_le_compat_l; lra). lra. }
  assert (Eyd : val y * val d = val y * (val up - val lo) + val y * q) by (unfold q; ring).
  set (w := val y * (val up - val lo)) in *.
  apply Rabs_le_inv in Conv.
  assert (Hs : Rabs (val lo + val m) <= 11 / 10 * K + e) by (apply Rabs_le; lra).
  destruct (plus_ok lo m Fl Fm) as [Fr _]; [lra|].
  assert (Gr := plus_err lo m Fr). fold u in Gr.
  assert (Gr' : Rabs (val (lo +! m) - (val lo + val m)) <= u * (11 / 10 * K + e)).
  { eapply Rle_trans; [exact Gr|]. apply Rmult_le_compat_l; lra. }
  clear Gr. apply Rabs_le_inv in Gr'.
  split; [exact Fr|].
  apply Rabs_le_inv in Bl. apply Rabs_le_inv in Bu. apply Rabs_le_inv in El. apply Rabs_le_inv in Eu. apply Rabs_le_inv in Hyt.
  assert (Conv2 : forall a b c s, 0 <= s <= 1 -> - c <= a <= c -> - c <= b <= c -> - c <= (1 - s) * a + s * b <= c).
  { intros a b c s Hs' Ha Hb.
    assert ((1 - s) * - c <= (1 - s) * a) by (apply Rmult_le_compat_l; lra).
    assert ((1 - s) * a <= (1 - s) * c) by (apply Rmult_le_compat_l; lra).
    assert (s * - c <= s * b) by (apply Rmult_le_compat_l; lra).
    assert (s * b <= s * c) by (apply Rmult_le_compat_l; lra). lra. }
  split.
  - assert (T1 := Conv2 (val lo - lo') (val up - up') E (val y) Hy El Eu).
    assert (T2 : Rabs ((val y - t) * (up' - lo')) <= 4 * u * (2 * M)).
    { rewrite Rabs_mult. apply Rmult_le_compat; try apply Rabs_pos; apply Rabs_le; lra. }
    apply Rabs_le_inv in T2.
    assert (T3 : (val lo + w) - (lo' + t * (up' - lo')) =
      ((1 - val y) * (val lo - lo') + val y * (val up - up')) + (val y - t) * (up' - lo')) by (unfold w; ring).
    assert (ue1 : u * e <= / 1000000 * e) by (apply Rmult_le_compat_r; lra).
    assert (EK : u * K = u * M + u * E) by (unfold K; ring).
    apply Rabs_le. split; lra.
  - replace (lo' + t * (up' - lo')) with ((1 - t) * lo' + t * up') by ring. apply Rabs_le. apply Conv2; auto.
Qed.

(** ** The whole recursion *)
Lemma ml_err ys ts : Forall2 close01 ys ts -> forall h h' M,
  (forall v, length v = length ys -> Forall (fun b => (b <= 1)%nat) v ->
     is_finite (h v) = true /\ val (h v) = h' v /\ Rabs (h' v) <= M) ->
  M <= bpow radix2 1000 -> (length ys <= 1000)%nat ->
  is_finite (ml (T := f64) ys h) = true /\
  Rabs (val (ml (T := f64) ys h) - ml (T := R) ts h') <= INR (length ys) * (14 * u53 * M + 2 * eta64) /\
  Rabs (ml (T := R) ts h') <= M.
Proof.
  induction 1 as [|y t ys ts Hyt H IH]; intros h h' M Hh BM HL.
  - cbn [ml length INR]. destruct (Hh [] eq_refl (Forall_nil _)) as (A & B & C). split; auto. split; auto.
    rewrite B, Rminus_eq_0, Rabs_R0. lra.
  - cbn [length] in HL.
    assert (Hi : forall b, (b <= 1)%nat -> forall v, length v = length ys -> Forall (fun b => (b <= 1)%nat) v ->
      is_finite (h (b :: v)) = true /\ val (h (b :: v)) = h' (b :: v) /\ Rabs (h' (b :: v)) <= M).
    { intros b Hb v Hv Fv. apply Hh; [cbn; lia|constructor; auto]. }
    destruct (IH (fun v => h (0%nat :: v)) (fun v => h' (0%nat :: v)) M (Hi 0%nat ltac:(lia)) BM ltac:(lia)) as (F0 & E0 & B0).
    destruct (IH (fun v => h (1%nat :: v)) (fun v => h' (1%nat :: v)) M (Hi 1%nat ltac:(lia)) BM ltac:(lia)) as (F1 & E1 & B1).
    assert (U := u_small). assert (N := eta64_pos).
    assert (M0 : 0 <= M) by (assert (A := Rabs_pos (ml (T := R) ts (fun v => h' (0%nat :: v)))); lra).
    assert (S0 : 0 <= 14 * u53 * M + 2 * eta64) by (assert (0 <= u53 * M) by (apply Rmult_le_pos; lra); lra).
    assert (HI : 0 <= INR (length ys) <= 1000).
    { split; [apply pos_INR|]. replace 1000 with (INR 1000) by (rewrite INR_IZR_INZ; reflexivity). apply le_INR. lia. }
    destruct (step_err _ _ y _ _ t (INR (length ys) * (14 * u53 * M + 2 * eta64)) M 0 F0 F1 Hyt B0 B1 E0 E1 BM) as (Fr & Er & Br).
    { split; [apply Rmult_le_pos; lra|apply Rmult_le_compat_r; lra]. }
    cbn [length]. rewrite S_INR. split; [exact Fr|]. split; [|exact Br].
    eapply Rle_trans; [exact Er|]. lra.
Qed.

(** *** Exact cases *)
Lemma rnd64_0 : rnd64 0 = 0.
Proof. apply rnd64_id. apply generic_format_0. Qed.

Lemma ml_zero ys : Forall (fun y : f64 => is_finite y = true /\ val y = 0) ys -> forall h M,
  (forall v, length v = length ys -> Forall (fun b => (b <= 1)%nat) v -> is_finite (h v) = true /\ Rabs (val (h v)) <= M) ->
  2 * M <= fmax64 ->
  is_finite (ml (T := f64) ys h) = true /\ val (ml (T := f64) ys h) = val (h (map (fun _ => 0%nat) ys)) /\
  Rabs (val (ml (T := f64) ys h)) <= M.
Proof.
  induction 1 as [|y ys (Fy & Vy) H IH]; intros h M Hh BM.
  - cbn [ml map]. destruct (Hh [] eq_refl (Forall_nil _)) as (A & B). auto.
  - assert (Hi : forall b, (b <= 1)%nat -> forall v, length v = length ys -> Forall (fun b => (b <= 1)%nat) v ->
      is_finite (h (b :: v)) = true /\ Rabs (val (h (b :: v))) <= M).
    { intros b Hb v Hv Fv. apply Hh; [cbn; lia|constructor; auto]. }
    destruct (IH (fun v => h (0%nat :: v)) M (Hi 0%nat ltac:(lia)) BM) as (F0 & E0 & B0).
    destruct (IH (fun v => h (1%nat :: v)) M (Hi 1%nat ltac:(lia)) BM) as (F1 & E1 & B1).
    cbn [ml map].
    set (lo := ml (T := f64) ys (fun v => h (0%nat :: v))) in *. set (up := ml (T := f64) ys (fun v => h (1%nat :: v))) in *.
    change (lo + y * (up - lo))%num with (lo +! y *! (up -! lo)).
    assert (P9 := bpow_gt_0 radix2 969). assert (Bl := B0). assert (Bu := B1).
    assert (M0 : 0 <= M) by (assert (A := Rabs_pos (val lo)); lra).
    apply Rabs_le_inv in Bl. apply Rabs_le_inv in Bu.
    destruct (minus_ok up lo F1 F0) as [Fd _]; [apply Rabs_le; lra|].
    destruct (mult_ok y (up -! lo) Fy Fd) as [Fm Vm]; [rewrite Vy, Rmult_0_l, Rabs_R0; lra|].
    rewrite Vy, Rmult_0_l in Vm. rewrite rnd64_0 in Vm.
    destruct (plus_ok lo (y *! (up -! lo)) F0 Fm) as [Fr Vr]; [rewrite Vm, Rplus_0_r; lra|].
    rewrite Vm, Rplus_0_r, rnd64_id in Vr by apply fmt64_val.
    split; [exact Fr|]. rewrite Vr. split; [exact E0|exact B0].
Qed.

Lemma ml_const ys : Forall (fun y : f64 => is_finite y = true) ys -> forall h c,
  (forall v, length v = length ys -> Forall (fun b => (b <= 1)%nat) v -> is_finite (h v) = true /\ val (h v) = c) ->
  is_finite (ml (T := f64) ys h) = true /\ val (ml (T := f64) ys h) = c.
Proof.
  induction 1 as [|y ys Fy H IH]; intros h c Hh.
  - cbn [ml]. exact (Hh [] eq_refl (Forall_nil _)).
  - assert (Hi : forall b, (b <= 1)%nat -> forall v, length v = length ys -> Forall (fun b => (b <= 1)%nat) v ->
      is_finite (h (b :: v)) = true /\ val (h (b :: v)) = c).
    { intros b Hb v Hv Fv. apply Hh; [cbn; lia|constructor; auto]. }
    destruct (IH (fun v => h (0%nat :: v)) c (Hi 0%nat ltac:(lia))) as (F0 & E0).
    destruct (IH (fun v => h (1%nat :: v)) c (Hi 1%nat ltac:(lia))) as (F1 & E1).
    cbn [ml].
    set (lo := ml (T := f64) ys (fun v => h (0%nat :: v))) in *. set (up := ml (T := f64) ys (fun v => h (1%nat :: v))) in *.
    change (lo + y * (up - lo))%num with (lo +! y *! (up -! lo)).
    assert (P9 := bpow_gt_0 radix2 969). assert (PF : 0 < fmax64) by (assert (A := big64); assert (0 < bpow radix2 1000) by apply bpow_gt_0; lra).
    assert (R0 := rnd64_0).
    destruct (minus_ok up lo F1 F0) as [Fd Vd]; [rewrite E0, E1, Rminus_eq_0, Rabs_R0; lra|].
    rewrite E0, E1, Rminus_eq_0, R0 in Vd.
    destruct (mult_ok y (up -! lo) Fy Fd) as [Fm Vm]; [rewrite Vd, Rmult_0_r, Rabs_R0; lra|].
    rewrite Vd, Rmult_0_r, R0 in Vm.
    destruct (plus_ok lo (y *! (up -! lo)) F0 Fm) as [Fr Vr]; [rewrite Vm, Rplus_0_r; assert (A := abs_val_fmax lo); lra|].
    rewrite Vm, Rplus_0_r, rnd64_id in Vr by apply fmt64_val.
    split; [exact Fr|]. rewrite Vr. exact E0.
Qed.

(** ** Axes *)
Lemma axis_cell_f (g : list f64) x c y : g <> [] -> cell_frac g x = Ok (c, y) -> axis_cell g (c, y).
Proof. intros H E. destruct (cell_frac_ok g x H) as (c' & y' & E' & Hr). split; [|exact H]. cbn [fst]. congruence. Qed.
Lemma axis_cell_r (g : list R) x c y : g <> [] -> cell_frac g x = Ok (c, y) -> axis_cell g (c, y).
Proof. intros H E. destruct (cell_frac_ok g x H) as (c' & y' & E' & Hr). split; [|exact H]. cbn [fst]. congruence. Qed.

Lemma dvalues_ne g : dvalues g <> [] -> g <> [].
Proof. intros H ->. apply H. reflexivity. Qed.

Lemma axes_f gs p : good_axes64 gs -> Forall span_ok gs -> length p = length gs ->
  exists cys cts rs,
    mapM (fun gx => cell_frac (fst gx) (snd gx)) (combine gs p) = Ok cys /\
    mapM (fun gx => cell_frac (fst gx) (snd gx)) (combine (map dvalues gs) rs) = Ok cts /\
    map fst cys = map fst cts /\ Forall2 close01 (map snd cys) (map snd cts) /\ length rs = length gs /\
    clamp_point (map dvalues gs) rs = map2 saturated gs p /\
    Forall2 axis_cell gs cys /\ Forall2 axis_cell (map dvalues gs) cts.
Proof.
  intros G. revert p. induction G as [|g gs Hg G IH]; intros p W Hp.
  - exists [], [], []. destruct p; [|discriminate]. repeat split; constructor.
  - destruct p as [|x p]; [discriminate|]. inversion W as [|? ? Wg Wgs]; subst. cbn [length] in Hp.
    destruct (IH p Wgs ltac:(lia)) as (cys & cts & rs & M1 & M2 & Ef & Ec & Lr & Cl & A1 & A2).
    destruct (cell_frac_any g x Hg Wg) as (c & y & t & r & C1 & C2 & Cyt & Cs).
    exists ((c, y) :: cys), ((c, t) :: cts), (r :: rs). cbn [combine map mapM fst snd]. cbn [map] in M2. rewrite C1, C2, M1, M2.
    split; [reflexivity|]. split; [reflexivity|]. split; [cbn; f_equal; auto|]. split; [constructor; auto|].
    split; [cbn; lia|]. split.
    + cbn [clamp_point map2]. rewrite dvalues_length, Cs. f_equal. exact Cl.
    + destruct Hg as [_ [_ Hne]]. split; constructor; auto.
      * apply (axis_cell_f g x); auto. apply dvalues_ne; auto.
      * apply (axis_cell_r (dvalues g) r); auto.
Qed.

Lemma lengths_dvalues gs : map (@length R) (map dvalues gs) = map (@length f64) gs.
Proof. rewrite map_map. apply map_ext. intros g. apply dvalues_length. Qed.

Lemma node_indices_dvalues gs : forall cs v, node_indices (map dvalues gs) cs v = node_indices gs cs v.
Proof.
  induction gs as [|g gs IH]; intros [|c cs] [|b v]; try reflexivity. cbn [map node_indices]. rewrite IH. f_equal.
  unfold node_index. rewrite dvalues_length. reflexivity.
Qed.

Lemma good_axes_dvalues gs : good_axes64 gs -> good_axes (map dvalues gs).
Proof. induction 1 as [|g gs [_ H] G IH]; constructor; auto. Qed.

Lemma count_pos gs : good_axes64 gs -> (0 < count (map (@length f64) gs))%nat.
Proof.
  induction 1 as [|g gs [_ H] G IH]; cbn [map count]; [lia|]. apply good_axis_length in H. rewrite dvalues_length in H. nia.
Qed.

Lemma bounded_nth M l i : magnitude_le M l -> l <> [] -> Rabs (val (nth i l f0)) <= M.
Proof.
  intros H Hne. destruct (le_lt_dec (length l) i) as [Hi|Hi].
  - rewrite nth_overflow by auto. simpl. rewrite Rabs_R0. destruct H as [|x l Hx H]; [congruence|].
    eapply Rle_trans; [apply Rabs_pos|exact Hx].
  - exact (proj1 (Forall_forall _ l) H _ (nth_In l f0 Hi)).
Qed.

Lemma data_ne gs (data : list f64) : good_axes64 gs -> length data = count (map (@length f64) gs) -> data <> [].
Proof. intros G Hl E. subst. assert (C := count_pos gs G). simpl in Hl. lia. Qed.

Lemma interp_f bm gs data p M : good_axes64 gs -> Forall span_ok gs -> length p = length gs ->
  length data = count (map (@length f64) gs) -> all_finite data -> magnitude_le M data -> M <= bpow radix2 1000 ->
  (length gs <= 1000)%nat ->
  exists v, interp_ml bm gs data p = Ok v /\ is_finite v = true /\
    Rabs (val v - nest (map2 rop (map dvalues gs) (map2 saturated gs p)) (element (map (@length f64) gs) (dvalues data)))
      <= INR (length gs) * (14 * u53 * M + 2 * eta64).
Proof.
  intros G W Hp Hl Fd Bd BM Hn. assert (Hne := data_ne gs data G Hl).
  destruct (axes_f gs p G W Hp) as (cys & cts & rs & M1 & M2 & Ef & Ec & Lr & Cl & A1 & A2).
  rewrite (interp_ml_value bm gs data p cys f0 M1 A1 Hl).
  assert (Hl' : length (dvalues data) = count (map (@length R) (map dvalues gs))) by (rewrite lengths_dvalues, dvalues_length; exact Hl).
  assert (V := interp_ml_value bm (map dvalues gs) (dvalues data) rs cts 0 M2 A2 Hl').
  assert (GR := good_axes_dvalues gs G).
  assert (Lr' : length rs = length (map dvalues gs)) by (rewrite map_length; exact Lr).
  rewrite (interp_ml_nest bm _ _ rs GR Lr' Hl') in V. rewrite <- (nest_clamp _ _ _ GR Lr'), Cl in V.
  rewrite lengths_dvalues in V. apply (f_equal (fun o => match o with Ok v => v | _ => 0 end)) in V. cbv iota beta in V. rewrite V.
  eexists. split; [reflexivity|].
  assert (L : length (map snd cys) = length gs) by (rewrite map_length; symmetry; eapply Forall2_length; eauto).
  rewrite <- L.
  match goal with |- is_finite (ml _ ?h) = true /\ Rabs (_ - ml _ ?h') <= _ =>
    destruct (ml_err _ _ Ec h h' M) as (R1 & R2 & _) end; auto.
  - intros v Hv Hb. rewrite node_indices_dvalues, <- Ef. split; [apply finite_nth; exact Fd|].
    rewrite nth_dvalues. split; [reflexivity|]. apply bounded_nth; auto.
  - lia.
Qed.

(** *** Nodes *)
Lemma minus_inf (a b : f64) : is_finite a = true -> is_finite b = true -> is_finite (a -! b) = false ->
  exists s, a -! b = B754_infinity s.
Proof.
  intros Fa Fb F. generalize (Bminus_correct 53 1024 _ _ mode_NE a b Fa Fb). simpl round_mode.
  case Rlt_bool_spec; intros H; [intros (_ & K & _); congruence|]. intros [V _].
  revert F V. generalize (a -! b). intros z F V. destruct z as [| s | |]; try discriminate. exists s. reflexivity.
Qed.

Lemma zero_cases (a : f64) : is_finite a = true -> val a = 0 -> exists s, a = B754_zero s.
Proof.
  destruct a as [s| | |s m e B]; intros F V; try discriminate; [exists s; reflexivity|].
  exfalso. simpl in V. apply (F2R_neq_0 radix2 (Float radix2 (cond_Zopp s (Zpos m)) e)) in V; [exact V|]. destruct s; discriminate.
Qed.

Lemma frac_node (g0 g1 x : f64) : is_finite g0 = true -> is_finite g1 = true -> is_finite x = true ->
  val x = val g0 -> val g0 < val g1 -> let y := (x -! g0) /! (g1 -! g0) in is_finite y = true /\ val y = 0.
Proof.
  intros F0 F1 Fx E H. cbv zeta. assert (P9 := bpow_gt_0 radix2 969).
  assert (PF : 0 < fmax64) by (assert (A := big64); assert (0 < bpow radix2 1000) by apply bpow_gt_0; lra).
  destruct (minus_ok x g0 Fx F0) as [Fn Vn]; [rewrite E, Rminus_eq_0, Rabs_R0; lra|].
  rewrite E, Rminus_eq_0, rnd64_0 in Vn.
  destruct (is_finite (g1 -! g0)) eqn:Fd.
  - assert (Gd := minus_err g1 g0 Fd). rewrite (Rabs_pos_eq (val g1 - val g0)) in Gd by lra. apply Rabs_le_inv in Gd.
    assert (U := u_small). set (D := val g1 - val g0) in *.
    assert (0 < D * (1 - u53)) by (apply Rmult_lt_0_compat; unfold D; lra).
    destruct (div_ok (x -! g0) (g1 -! g0) Fn Fd) as [Fy Vy]; [lra|rewrite Vn; unfold Rdiv; rewrite Rmult_0_l, Rabs_R0; lra|].
    split; [exact Fy|]. rewrite Vy, Vn. unfold Rdiv. rewrite Rmult_0_l. apply rnd64_0.
  - destruct (minus_inf g1 g0 F1 F0 Fd) as (s & ->). destruct (zero_cases _ Fn Vn) as (s' & ->). split; reflexivity.
Qed.

Lemma cell_frac_node g x i : good_axis64 g -> (i < length g)%nat -> is_finite x = true -> val x = nth i (dvalues g) 0 ->
  exists c y, cell_frac g x = Ok (c, y) /\ is_finite y = true /\ val y = 0 /\ node_index g c 0 = i.
Proof.
  intros [F [Hinc Hne]] Hi Fx Vx. unfold cell_frac. rewrite (find_cell_f g x F Fx).
  assert (Lr := dvalues_length g).
  assert (Fc : find_cell (dvalues g) (val x) = Ok (Z.of_nat i)).
  { unfold find_cell. destruct (dvalues g) as [|a r] eqn:Er; [congruence|].
    assert (Ea : a = nth 0 (dvalues g) 0) by (rewrite Er; reflexivity). rewrite <- Er in *. rewrite Ea, Vx.
    set (l := dvalues g) in *. rewrite (last_nth l _ 0) by exact Hne. change nlt with Rltb. change nle with Rleb.
    pose proof (increasing_le l 0 i Hinc ltac:(lia)). rewrite (proj2 (Rltb_false _ _)) by lra.
    destruct (Nat.eq_dec i (length l - 1)) as [Ei|Ei].
    - rewrite <- Ei. rewrite (proj2 (Rleb_true _ _)) by lra. f_equal. lia.
    - pose proof (Hinc i (length l - 1)%nat ltac:(lia)). rewrite (proj2 (Rleb_false _ _)) by lra.
      rewrite (upper_bound_cell l (nth i l 0) i Hinc); [f_equal; lia|lia|].
      split; [lra|]. apply Hinc. lia. }
  rewrite Fc. cbn [bind].
  replace (Z.of_nat i =? -1)%Z with false by (symmetry; apply Z.eqb_neq; lia).
  destruct (Z.of_nat i =? Z.of_nat (length g) - 1)%Z eqn:E2.
  - apply Z.eqb_eq in E2. eexists _, _. split; [reflexivity|]. split; [reflexivity|]. split; [exact val0|].
    unfold node_index. replace (Z.of_nat i <? 0)%Z with false by (symmetry; apply Z.ltb_ge; lia).
    replace (Z.of_nat (length g) - 1 <=? Z.of_nat i)%Z with true by (symmetry; apply Z.leb_le; lia). lia.
  - apply Z.eqb_neq in E2. rewrite Nat2Z.id. replace (Z.to_nat (Z.of_nat i + 1)) with (S i) by lia.
    rewrite (vidx_lt g i f0) by lia. cbn [bind]. rewrite (vidx_lt g (S i) f0) by lia. cbn [bind].
    rewrite nth_dvalues in Vx.
    assert (L : val (nth i g f0) < val (nth (S i) g f0)).
    { rewrite <- !nth_dvalues. apply Hinc. lia. }
    destruct (frac_node _ _ x (finite_nth g i F) (finite_nth g (S i) F) Fx Vx L) as [Fy Vy].
    assert (F0 : is_finite (nofZ 0 : f64) = true) by reflexivity.
    assert (F1 : is_finite (nofZ 1 : f64) = true) by (vm_compute; reflexivity).
    eexists _, _. split; [reflexivity|].
    set (y := (x -! nth i g f0) /! (nth (S i) g f0 -! nth i g f0)) in *.
    change ((x - nth i g f0) / (nth (S i) g f0 - nth i g f0))%num with y.
    rewrite (nlt_val y _ Fy F0), (nlt_val _ y F1 Fy), val0, val1, Vy.
    rewrite (proj2 (Rltb_false 0 0)) by lra. rewrite (proj2 (Rltb_false 1 0)) by lra.
    split; [exact Fy|]. split; [exact Vy|].
    unfold node_index. replace (Z.of_nat i <? 0)%Z with false by (symmetry; apply Z.ltb_ge; lia).
    replace (Z.of_nat (length g) - 1 <=? Z.of_nat i)%Z with false by (symmetry; apply Z.leb_gt; lia). lia.
Qed.

Lemma axes_node gs idx p : good_axes64 gs -> in_extents (map (@length f64) gs) idx -> all_finite p ->
  dvalues p = node_at (map dvalues gs) idx ->
  exists cys, mapM (fun gx => cell_frac (fst gx) (snd gx)) (combine gs p) = Ok cys /\
    Forall2 axis_cell gs cys /\ Forall (fun y : f64 => is_finite y = true /\ val y = 0) (map snd cys) /\
    node_indices gs (map fst cys) (map (fun _ => 0%nat) (map snd cys)) = idx.
Proof.
  intros G. revert idx p. induction G as [|g gs Hg G IH]; intros idx p Hi Fp Ep.
  - cbn [map] in Hi. inversion Hi; subst. destruct p; [|discriminate]. exists []. repeat split; constructor.
  - cbn [map] in Hi. inversion Hi as [|? i ? is Hi0 His]; subst. cbn [map node_at map2] in Ep.
    destruct p as [|x p]; [discriminate|]. cbn [dvalues map] in Ep. inversion Fp; subst. injection Ep as Ex Ep.
    destruct (IH is p His H2 Ep) as (cys & M1 & A1 & Z1 & N1).
    destruct (cell_frac_node g x i Hg Hi0 H1 Ex) as (c & y & C & Fy & Vy & Nc).
    exists ((c, y) :: cys). cbn [combine mapM fst snd]. rewrite C, M1. split; [reflexivity|].
    split; [constructor; auto; destruct Hg as [_ [_ Hne]]; apply (axis_cell_f g x); auto; apply dvalues_ne; auto|].
    split; [constructor; auto|]. cbn [map node_indices fst snd]. rewrite N1, Nc. reflexivity.
Qed.

Lemma node_f bm gs data idx p M : good_axes64 gs -> in_extents (map (@length f64) gs) idx -> all_finite p ->
  dvalues p = node_at (map dvalues gs) idx ->
  length data = count (map (@length f64) gs) -> all_finite data -> magnitude_le M data -> 2 * M <= fmax64 ->
  exists v, interp_ml bm gs data p = Ok v /\ is_finite v = true /\ val v = element (map (@length f64) gs) (dvalues data) idx.
Proof.
  intros G Hi Fp Ep Hl Fd Bd BM. assert (Hne := data_ne gs data G Hl).
  destruct (axes_node gs idx p G Hi Fp Ep) as (cys & M1 & A1 & Z1 & N1).
  rewrite (interp_ml_value bm gs data p cys f0 M1 A1 Hl). eexists. split; [reflexivity|].
  match goal with |- is_finite (ml _ ?h) = true /\ _ => destruct (ml_zero _ Z1 h M) as (R1 & R2 & _) end; auto.
  - intros v _ _. split; [apply finite_nth; exact Fd|apply bounded_nth; auto].
  - split; [exact R1|]. rewrite R2, N1. unfold element. rewrite nth_dvalues. reflexivity.
Qed.

(** *** Constant data *)
Lemma const_f bm gs data p c : good_axes64 gs -> Forall span_ok gs -> length p = length gs ->
  length data = count (map (@length f64) gs) -> Forall (fun x => is_finite x = true /\ val x = c) data ->
  exists v, interp_ml bm gs data p = Ok v /\ is_finite v = true /\ val v = c.
Proof.
  intros G W Hp Hl Hc.
  destruct (axes_f gs p G W Hp) as (cys & cts & rs & M1 & M2 & Ef & Ec & Lr & Cl & A1 & A2).
  rewrite (interp_ml_value bm gs data p cys f0 M1 A1 Hl). eexists. split; [reflexivity|].
  assert (L : length (map snd cys) = length gs) by (rewrite map_length; symmetry; eapply Forall2_length; eauto).
  apply ml_const.
  - clear -Ec. induction Ec as [|y t ys ts H E IH]; constructor; auto. apply H.
  - intros v Hv Hb. apply (proj1 (Forall_forall _ data) Hc). apply nth_In. rewrite Hl.
    apply offset_pos. apply node_indices_in_extents; auto. lia.
Qed.

(** ** The class *)
Definition limits64 (gs : list (list f64)) : list (f64 * f64) :=
  map (fun g => (nth 0 g (nofZ 0), nth (length g - 1) g (nofZ 0))) gs.

Lemma sic_f g : all_finite g -> strictly_increasing_check g = strictly_increasing_check (dvalues g).
Proof.
  induction g as [|a g IH]; intros F; [reflexivity|]. destruct g as [|b g]; [reflexivity|].
  inversion F; subst. inversion H2; subst.
  change (strictly_increasing_check (a :: b :: g)) with (if nle b a then false else strictly_increasing_check (b :: g)).
  change (strictly_increasing_check (dvalues (a :: b :: g))) with
    (if nle (val b) (val a) then false else strictly_increasing_check (dvalues (b :: g))).
  rewrite (nle_val b a) by auto. change (nle (val b) (val a)) with (Rleb (val b) (val a)). rewrite (IH H2). reflexivity.
Qed.

Lemma add_coords_f dim gs pre a ip lim :
  good_axes64 gs -> (length pre + length gs = dim)%nat ->
  foldM (fun o v => let (o', r) := rgi_add_coord dim o v in omap (fun _ => o') r)
    (mkRG pre a ip lim) gs = Ok (mkRG (pre ++ gs) a ip lim).
Proof.
  intros H. revert pre. induction H as [|g gs [Fg [Hg _]] H IH]; intros pre Hl; simpl.
  - rewrite app_nil_r. reflexivity.
  - unfold rgi_add_coord. cbn [r_grids]. simpl in Hl.
    replace (length pre =? dim)%nat with false by (symmetry; apply Nat.eqb_neq; lia).
    rewrite (sic_f g Fg), (proj2 (sic_iff (dvalues g)) Hg). simpl. rewrite IH.
    + rewrite <- app_assoc. reflexivity.
    + rewrite app_length. simpl. lia.
Qed.

Lemma make_f gs a : good_axes64 gs -> length (nd_flat a) = count (map (@length f64) gs) ->
  rgi_make gs a = Ok (mkRG gs a IpLive (Some (limits64 gs))).
Proof.
  intros Hg Hl. unfold rgi_make. unfold rgi_new.
  rewrite add_coords_f by auto. cbn [bind app].
  unfold rgi_add_var. cbn [r_grids]. rewrite Nat.eqb_refl.
  unfold rgi_build. cbn [r_grids r_data r_ip r_limits].
  assert (Hne : Forall (fun g => g <> []) gs).
  { eapply Forall_impl; [|exact Hg]. intros g [_ [_ H]]. apply dvalues_ne. exact H. }
  rewrite firstn_all, Nat.eqb_refl, (proj2 (forallb_nonempty gs) Hne). simpl.
  rewrite prodn_count, Hl, Nat.eqb_refl. reflexivity.
Qed.

Definition off_b (lx : (f64 * f64) * f64) : bool := nlt (snd lx) (fst (fst lx)) || nlt (snd (fst lx)) (snd lx).

Lemma off_axis_b g x : good_axis64 g ->
  off_b ((nth 0 g (nofZ 0), nth (length g - 1) g (nofZ 0)), x) = true <-> off_axis g x.
Proof.
  intros [F _]. unfold off_b. cbn [fst snd]. change (nofZ 0) with f0.
  assert (F0 := finite_nth g 0 F). assert (F1 := finite_nth g (length g - 1) F).
  unfold off_axis. rewrite !nth_dvalues.
  assert (K : is_finite x = true -> (nlt x (nth 0 g f0) || nlt (nth (length g - 1) g f0) x = true <->
    val x < val (nth 0 g f0) \/ val (nth (length g - 1) g f0) < val x)).
  { intros Fx. rewrite orb_true_iff, (nlt_fin x _ Fx F0), (nlt_fin _ x F1 Fx). tauto. }
  destruct x as [s|s| |s m e B]; [apply K; reflexivity| | |apply K; reflexivity].
  - split; [auto|]. intros _. destruct s.
    + rewrite nlt_ninf by auto. reflexivity.
    + apply orb_true_intro. right. revert F1. generalize (nth (length g - 1) g f0). intros z Fz.
      destruct z as [| [] | |[]]; try discriminate; reflexivity.
  - rewrite nlt_nan_l, nlt_nan_r. split; [discriminate|tauto].
Qed.

Lemma existsb_outside64 gs p : good_axes64 gs -> length p = length gs ->
  existsb off_b (combine (limits64 gs) p) = true <-> outside64 gs p.
Proof.
  intros G. revert p. induction G as [|g gs Hg G IH]; intros p Hp; destruct p as [|x p]; try discriminate; simpl.
  - split; [discriminate|]. intros (k & Hk & _). simpl in Hk. lia.
  - rewrite orb_true_iff, IH by (simpl in Hp; lia). rewrite (off_axis_b g x Hg). split.
    + intros [H|(k & Hk & H)]; [exists 0%nat|exists (S k)]; simpl; split; auto; lia.
    + intros (k & Hk & H). destruct k as [|k]; [left; exact H|].
      right. exists k. simpl in *. split; [lia|exact H].
Qed.

Lemma bound_check_f bm gs a p : good_axes64 gs -> length p = length gs ->
  let o := mkRG gs a IpLive (Some (limits64 gs)) in
  (outside64 gs p -> rgi_interp bm o p true = Throw RuntimeError) /\
  (~ outside64 gs p -> rgi_interp bm o p true = rgi_interp bm o p false).
Proof.
  intros G Hp. cbv zeta. unfold rgi_interp. cbn [r_limits r_ip r_grids r_data].
  assert (E := existsb_outside64 gs p G Hp).
  change (existsb _ _) with (existsb off_b (combine (limits64 gs) p)). split; intros H.
  - rewrite (proj2 E H). reflexivity.
  - destruct (existsb _ _) eqn:E'; auto. exfalso. apply H. apply E. auto.
Qed.

(** *** NaN coordinates *)
Lemma cell_frac_last g : good_axis64 g -> cell_frac g (B754_nan : f64) = cell_frac g (last g B754_nan).
Proof.
  intros [F [Hinc Hne]]. assert (Hg0 : g <> []) by (apply dvalues_ne; auto). unfold cell_frac.
  rewrite (find_cell_nan g Hg0).
  rewrite (last_nth g B754_nan f0) by auto.
  assert (Fl := finite_nth g (length g - 1) F).
  replace (find_cell g (nth (length g - 1) g f0)) with (Ok (Z.of_nat (length g) - 1)%Z : outcome Z).
  - cbn [bind]. destruct (_ =? -1)%Z; [reflexivity|]. rewrite Z.eqb_refl. reflexivity.
  - unfold find_cell. destruct g as [|a g]; [congruence|].
    rewrite (last_nth (a :: g) a f0) by discriminate. set (l := nth (length (a :: g) - 1) (a :: g) f0) in *.
    assert (La : val a <= val l).
    { change (val a) with (val (nth 0 (a :: g) f0)). unfold l. rewrite <- !nth_dvalues. apply increasing_le; auto.
      rewrite dvalues_length. simpl. lia. }
    rewrite nlt_ge by (auto; inversion F; auto).
    rewrite (proj2 (nle_fin l l Fl Fl)) by lra. reflexivity.
Qed.

Lemma nan_query_f bm gs a p bc : good_axes64 gs -> length p = length gs ->
  let o := mkRG gs a IpLive (Some (limits64 gs)) in
  rgi_interp bm o p bc = rgi_interp bm o (map2 nan_to_last gs p) bc.
Proof.
  intros G Hp. cbv zeta. unfold rgi_interp. cbn [r_limits r_ip r_grids r_data].
  change (existsb _ (combine (limits64 gs) p)) with (existsb off_b (combine (limits64 gs) p)).
  change (existsb _ (combine (limits64 gs) (map2 nan_to_last gs p))) with (existsb off_b (combine (limits64 gs) (map2 nan_to_last gs p))).
  replace (existsb off_b (combine (limits64 gs) (map2 nan_to_last gs p))) with (existsb off_b (combine (limits64 gs) p)).
  - replace (interp_ml bm gs (nd_flat a) (map2 nan_to_last gs p)) with (interp_ml bm gs (nd_flat a) p); [reflexivity|].
    unfold interp_ml. f_equal. clear bc. revert p Hp.
    induction G as [|g gs Hg G IH]; intros p Hp; destruct p as [|x p]; try discriminate; [reflexivity|].
    cbn [map2 combine mapM fst snd]. rewrite <- IH by (simpl in Hp; lia). f_equal.
    unfold nan_to_last. destruct (is_nan x) eqn:N; [|reflexivity]. apply is_nan_eq in N. subst x. apply cell_frac_last. exact Hg.
  - clear bc. revert p Hp. induction G as [|g gs Hg G IH]; intros p Hp; destruct p as [|x p]; try discriminate; [reflexivity|].
    cbn [limits64 map map2 combine existsb]. rewrite <- IH by (simpl in Hp; lia). f_equal.
    unfold nan_to_last. destruct (is_nan x) eqn:N; [|reflexivity]. apply is_nan_eq in N. subst x.
    unfold off_b. cbn [fst snd]. rewrite nlt_nan_l, nlt_nan_r. symmetry.
    destruct Hg as [F [Hinc Hne]]. assert (Hg0 : g <> []) by (apply dvalues_ne; auto).
    rewrite (last_nth g B754_nan f0) by auto. change (nofZ 0) with f0.
    assert (Fl := finite_nth g (length g - 1) F). assert (F0 := finite_nth g 0 F).
    assert (La : val (nth 0 g f0) <= val (nth (length g - 1) g f0)).
    { rewrite <- !nth_dvalues. apply increasing_le; auto. rewrite dvalues_length. destruct g; [congruence|simpl; lia]. }
    rewrite nlt_ge by auto. rewrite nlt_ge by (auto; lra). reflexivity.
Qed.

(** ** Statements *)
Lemma span_dmax gs : Forall (fun g => nth (length g - 1) (dvalues g) 0 - nth 0 (dvalues g) 0 <= dmax) gs -> Forall span_ok gs.
Proof. rewrite dmax_fmax. exact (fun H => H). Qed.

Lemma grid_double_lemma : forall bm gs a M,
  good_axes64 gs -> (length gs <= 1000)%nat ->
  Forall (fun g => nth (length g - 1) (dvalues g) 0 - nth 0 (dvalues g) 0 <= dmax) gs ->
  length (nd_flat a) = count (map (@length f64) gs) -> all_finite (nd_flat a) -> magnitude_le M (nd_flat a) -> M <= 2 ^ 1000 ->
  exists o, rgi_make gs a = Ok o /\
    forall p, length p = length gs ->
    exists v, rgi_interp bm o p false = Ok v /\ is_finite v = true /\
      forall cell, in_cell (map dvalues gs) cell (map2 saturated gs p) ->
        Rabs (dvalue v - blend (map dvalues gs) (dvalues (nd_flat a)) cell (map2 saturated gs p))
          <= INR (length gs) * (14 * uround * M + 2 * uflow).
Proof.
  intros bm gs a M G Hn W Hl Fd Bd BM. apply span_dmax in W.
  assert (B10 : 2 ^ 1000 = bpow radix2 1000) by (rewrite bpow_powerRZ; reflexivity). rewrite B10 in BM.
  eexists. split; [apply make_f; auto|]. intros p Hp.
  destruct (interp_f bm gs (nd_flat a) p M G W Hp Hl Fd Bd BM Hn) as (v & E & Fv & Hv).
  exists v. split; [unfold rgi_interp; simpl; exact E|]. split; [exact Fv|].
  intros cell Hc. rewrite uround_u53, uflow_eta. unfold blend. unfold dvalue at 1.
  rewrite <- (nest_cell (map dvalues gs) cell _ (element (map (@length R) (map dvalues gs)) (dvalues (nd_flat a)))
    (good_axes_dvalues gs G) Hc). rewrite lengths_dvalues. exact Hv.
Qed.

Lemma grid_double_node_lemma : forall bm gs a idx p bc M,
  good_axes64 gs -> length (nd_flat a) = count (map (@length f64) gs) -> all_finite (nd_flat a) ->
  magnitude_le M (nd_flat a) -> 2 * M <= dmax ->
  in_extents (map (@length f64) gs) idx -> all_finite p -> dvalues p = node_at (map dvalues gs) idx ->
  exists o v, rgi_make gs a = Ok o /\ rgi_interp bm o p bc = Ok v /\ is_finite v = true /\
    dvalue v = element (map (@length f64) gs) (dvalues (nd_flat a)) idx.
Proof.
  intros bm gs a idx p bc M G Hl Fd Bd BM Hi Fp Ep. rewrite dmax_fmax in BM.
  assert (Lp : length p = length gs).
  { rewrite <- (dvalues_length p), Ep, node_at_length, map_length; [reflexivity|rewrite lengths_dvalues; exact Hi]. }
  destruct (node_f bm gs (nd_flat a) idx p M G Hi Fp Ep Hl Fd Bd BM) as (v & E & Fv & Vv).
  eexists _, v. split; [apply make_f; auto|]. split; [|split; [exact Fv|exact Vv]].
  assert (Ei : rgi_interp bm (mkRG gs a IpLive (Some (limits64 gs))) p false = Ok v) by (unfold rgi_interp; simpl; exact E).
  destruct bc; [|exact Ei]. destruct (bound_check_f bm gs a p G Lp) as [_ ->]; [exact Ei|].
  intros (k & Hk & Ho).
  assert (No := node_not_outside (map dvalues gs) idx (good_axes_dvalues gs G) ltac:(rewrite lengths_dvalues; exact Hi)).
  apply No. exists k. rewrite map_length. split; [exact Hk|]. cbv zeta.
  rewrite (nth_indep (map dvalues gs) [] (dvalues [])) by (rewrite map_length; exact Hk). rewrite map_nth, dvalues_length.
  rewrite <- Ep, nth_dvalues.
  rewrite (nth_indep p B754_nan f0) in Ho by lia. assert (Fx := finite_nth p k Fp).
  destruct (nth k p f0); try discriminate; exact Ho.
Qed.

Lemma grid_double_constant_lemma : forall bm gs a c,
  good_axes64 gs -> Forall (fun g => nth (length g - 1) (dvalues g) 0 - nth 0 (dvalues g) 0 <= dmax) gs ->
  length (nd_flat a) = count (map (@length f64) gs) ->
  Forall (fun x => is_finite x = true /\ dvalue x = c) (nd_flat a) ->
  exists o, rgi_make gs a = Ok o /\
    forall p, length p = length gs -> exists v, rgi_interp bm o p false = Ok v /\ is_finite v = true /\ dvalue v = c.
Proof.
  intros bm gs a c G W Hl Hc. apply span_dmax in W. eexists. split; [apply make_f; auto|]. intros p Hp.
  destruct (const_f bm gs (nd_flat a) p c G W Hp Hl Hc) as (v & E & Fv & Vv). exists v. split; [unfold rgi_interp; simpl; exact E|auto].
Qed.

Lemma grid_double_bound_check_lemma : forall bm gs a,
  good_axes64 gs -> length (nd_flat a) = count (map (@length f64) gs) ->
  exists o, rgi_make gs a = Ok o /\ forall p, length p = length gs ->
    (outside64 gs p -> rgi_interp bm o p true = Throw RuntimeError) /\
    (~ outside64 gs p -> rgi_interp bm o p true = rgi_interp bm o p false).
Proof. intros bm gs a G Hl. eexists. split; [apply make_f; auto|]. intros p Hp. apply bound_check_f; auto. Qed.

Lemma grid_double_nan_lemma : forall bm gs a,
  good_axes64 gs -> length (nd_flat a) = count (map (@length f64) gs) ->
  exists o, rgi_make gs a = Ok o /\ forall p bc, length p = length gs ->
    rgi_interp bm o p bc = rgi_interp bm o (map2 nan_to_last gs p) bc.
Proof. intros bm gs a G Hl. eexists. split; [apply make_f; auto|]. intros p bc Hp. apply nan_query_f; auto. Qed.

(** ** Counterexamples *)
Definition vof (r : outcome f64) : f64 := match r with Ok v => v | _ => B754_nan end.
Lemma vof_ok (r : outcome f64) : (match r with Ok _ => true | _ => false end) = true -> r = Ok (vof r).
Proof. destruct r; simpl; congruence. Qed.

Lemma good2 (a b : f64) : is_finite a = true -> is_finite b = true -> val a < val b -> good_axes64 [[a; b]].
Proof.
  intros Fa Fb H. constructor; [|constructor]. split; [repeat constructor; auto|]. split; [|discriminate].
  intros i j Hij. cbn [dvalues map length] in Hij. destruct i as [|i]; destruct j as [|[|j]]; try lia. exact H.
Qed.

Definition almost1 : f64 := nsub (f64_ofZ 1) (ndiv (f64_ofZ 1) (f64_ofZ (2 ^ 53))).

Lemma range_refuted_pf : exists (gs : list (list f64)) (a : ndarray f64) p o v M,
  good_axes64 gs /\ all_finite (nd_flat a) /\ magnitude_le M (nd_flat a) /\ all_finite p /\
  rgi_make gs a = Ok o /\ rgi_interp Release o p true = Ok v /\ is_finite v = true /\ M < dvalue v.
Proof.
  set (a := mkND [2%nat] [f64_ofZ (-1); f64_ofZ (2 ^ 53 + 2)]).
  set (gs := [[f64_ofZ (-1); f64_ofZ 1]]).
  assert (G : good_axes64 gs).
  { apply good2; [vm_compute; reflexivity|vm_compute; reflexivity|].
    rewrite (proj2 (ofZ_ok (-1) ltac:(reflexivity))), (proj2 (ofZ_ok 1 ltac:(reflexivity))). lra. }
  set (o := mkRG gs a IpLive (Some (limits64 gs))).
  assert (V : B2SF (vof (rgi_interp Release o [almost1] true)) = SpecFloat.S754_finite false 4503599627370498 1)
    by (vm_compute; reflexivity).
  exists gs, a, [almost1], o, (vof (rgi_interp Release o [almost1] true)), 9007199254740994.
  split; [exact G|]. split; [repeat constructor|].
  split.
  { assert (E : B2SF (f64_ofZ (2 ^ 53 + 2)) = SpecFloat.S754_finite false 4503599627370497 1) by (vm_compute; reflexivity).
    constructor; [|constructor; [|constructor]]; unfold dvalue.
    - rewrite (proj2 (ofZ_ok (-1) ltac:(reflexivity))). rewrite Rabs_left by lra. lra.
    - rewrite (val_SF _ _ E). unfold SF2R, F2R, Fnum, Fexp, cond_Zopp. change (bpow radix2 1) with 2. rewrite Rabs_pos_eq. all: lra. }
  split; [repeat constructor|]. split; [apply make_f; auto|]. split; [apply vof_ok; vm_compute; reflexivity|].
  split; [vm_compute; reflexivity|]. unfold dvalue. rewrite (val_SF _ _ V). unfold SF2R, F2R. simpl. lra.
Qed.

Lemma node_nan_refuted_pf : exists (gs : list (list f64)) (a : ndarray f64) p o v,
  good_axes64 gs /\ all_finite (nd_flat a) /\ dvalues p = node_at (map dvalues gs) [0%nat] /\
  rgi_make gs a = Ok o /\ rgi_interp Release o p true = Ok v /\ is_nan v = true.
Proof.
  set (h := Bldexp mode_NE (f64_ofZ 1) 1023).
  set (a := mkND [2%nat] [h; Bopp h]).
  set (gs := [[f64_ofZ 0; f64_ofZ 1]]).
  assert (G : good_axes64 gs).
  { apply good2; [vm_compute; reflexivity|vm_compute; reflexivity|].
    rewrite (proj2 (ofZ_ok 0 ltac:(reflexivity))), (proj2 (ofZ_ok 1 ltac:(reflexivity))). lra. }
  set (o := mkRG gs a IpLive (Some (limits64 gs))).
  exists gs, a, [f64_ofZ 0], o, (vof (rgi_interp Release o [f64_ofZ 0] true)).
  split; [exact G|]. split; [constructor; [vm_compute; reflexivity|constructor; [vm_compute; reflexivity|constructor]]|].
  split; [reflexivity|]. split; [apply make_f; auto|]. split; [apply vof_ok; vm_compute; reflexivity|].
  vm_compute. reflexivity.
Qed.

Lemma nan_query_refuted_pf : exists (gs : list (list f64)) (a : ndarray f64) p o v,
  good_axes64 gs /\ all_finite (nd_flat a) /\ Forall (fun x => is_nan x = true) p /\
  rgi_make gs a = Ok o /\ rgi_interp Release o p true = Ok v /\ dvalue v = 7.
Proof.
  set (a := mkND [2%nat] [f64_ofZ 3; f64_ofZ 7]).
  set (gs := [[f64_ofZ 0; f64_ofZ 1]]).
  assert (G : good_axes64 gs).
  { apply good2; [vm_compute; reflexivity|vm_compute; reflexivity|].
    rewrite (proj2 (ofZ_ok 0 ltac:(reflexivity))), (proj2 (ofZ_ok 1 ltac:(reflexivity))). lra. }
  set (o := mkRG gs a IpLive (Some (limits64 gs))).
  assert (V : B2SF (vof (rgi_interp Release o [B754_nan] true)) = B2SF (f64_ofZ 7)) by (vm_compute; reflexivity).
  exists gs, a, [B754_nan], o, (vof (rgi_interp Release o [B754_nan] true)).
  split; [exact G|]. split; [repeat constructor|].
  split; [repeat constructor|]. split; [apply make_f; auto|]. split; [apply vof_ok; vm_compute; reflexivity|].
  apply B2SF_inj in V. rewrite V. exact (proj2 (ofZ_ok 7 ltac:(reflexivity))).
Qed.
