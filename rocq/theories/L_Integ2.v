(** Integrate1d objects, convolution, frequencies. *)
From Coq Require Import List Arith ZArith Sorted Reals Lra Lia Bool.
From Coquelicot Require Import Coquelicot.
From Verif Require Import Outcome Num M_Basics S_Basics L_Basics M_Integ S_Series L_Series S_Integ L_Cheb L_Integ.
Import ListNotations.
Local Open Scope R_scope.

Lemma nb1 nb : (1 <= nb)%nat -> (Z.of_nat nb <= 2 ^ 32)%Z -> nb_minus_1 nb = Z.of_nat (nb - 1).
Proof. intros H1 H2. unfold nb_minus_1. rewrite Z.mod_small; lia. Qed.
Lemma sample_length f dx : forall k x, length (sample (T := R) f x dx k) = k.
Proof. induction k; intros; cbn; auto. Qed.
Lemma sample_nth f dx : forall k x i, (i < k)%nat -> nth i (sample f x dx k) 0 = f (x + INR i * dx).
Proof.
  induction k as [|k IH]; intros x i H; [lia|]. destruct i as [|i]; cbn [sample nth].
  - f_equal. simpl. ring.
  - rewrite IH by lia. f_equal. rewrite S_INR. rn. ring.
Qed.

(** The samples a computation uses. *)
Definition data (s : integ1 R) : list R :=
  match i_src s with
  | VECTOR => i_y s
  | FUNCTION f => sample f (i_xmin s) ((i_xmax s - i_xmin s) / INR (i_nb s - 1)) (i_nb s)
  end.
Definition set_y (y : list R) (s : integ1 R) : integ1 R :=
  mkI1 (i_xmin s) (i_xmax s) (i_nb s) y (i_src s) (i_method s) (i_computed s) (i_result s).
Definition set_result (c : bool) (v : R) (s : integ1 R) : integ1 R :=
  mkI1 (i_xmin s) (i_xmax s) (i_nb s) (i_y s) (i_src s) (i_method s) c v.
Definition rule (s : integ1 R) (y : list R) : R :=
  (nth 0 y 0 + nth (length y - 1) y 0 + 2 * bsum (i_nb s - 2) (fun j => nth (1 + j) y 0))
  * (/ 2 * ((i_xmax s - i_xmin s) / INR (i_nb s - 1))).

Lemma compute_ok s : (1 <= i_nb s)%nat -> (Z.of_nat (i_nb s) <= 2 ^ 32)%Z ->
  (1 <= length (data s))%nat -> (i_nb s <= length (data s) + 1)%nat ->
  compute_trapz s = (set_result (i_computed s) (rule s (data s)) (set_y (data s) s), Ok tt).
Proof.
  intros H1 H2 H3 H4. unfold compute_trapz. cbn [i_nb i_xmin i_xmax i_src i_method i_computed i_result].
  rewrite nb1 by assumption. rewrite Nat2Z.id.
  set (dx := ((i_xmax s - i_xmin s) / nofZ (Z.of_nat (i_nb s - 1)))%num).
  assert (Edx : dx = (i_xmax s - i_xmin s) / INR (i_nb s - 1)) by (unfold dx; rn; now rewrite <- INR_IZR_INZ).
  replace (match i_src s with VECTOR => i_y s | FUNCTION f => sample f (i_xmin s) dx (i_nb s) end) with (data s)
    by (unfold data; rewrite Edx; destruct (i_src s); reflexivity).
  set (y := data s) in *.
  rewrite (foldM_sum y (i_nb s - 1 - 1) 1) by lia.
  cbn [bind]. rewrite (vidx_lt y 0 0) by lia. cbn [bind].
  unfold vidx_sub. rewrite (proj2 (Nat.leb_le 1 _)) by lia. rewrite (vidx_lt y _ 0) by lia. cbn [bind].
  unfold set_result, set_y. cbn [i_xmin i_xmax i_nb i_y i_src i_method].
  f_equal. f_equal. unfold rule. replace (i_nb s - 1 - 1)%nat with (i_nb s - 2)%nat by lia.
  rewrite <- Edx. set (B := bsum _ _). rn. field.
Qed.
Lemma compute_ub s : (1 <= i_nb s)%nat -> (Z.of_nat (i_nb s) <= 2 ^ 32)%Z ->
  (length (data s) = 0 \/ length (data s) + 2 <= i_nb s)%nat ->
  compute_trapz s = (set_y (data s) s, UB).
Proof.
  intros H1 H2 H3. unfold compute_trapz. cbn [i_nb i_xmin i_xmax i_src i_method i_computed i_result].
  rewrite nb1 by assumption. rewrite Nat2Z.id.
  set (dx := ((i_xmax s - i_xmin s) / nofZ (Z.of_nat (i_nb s - 1)))%num).
  assert (Edx : dx = (i_xmax s - i_xmin s) / INR (i_nb s - 1)) by (unfold dx; rn; now rewrite <- INR_IZR_INZ).
  replace (match i_src s with VECTOR => i_y s | FUNCTION f => sample f (i_xmin s) dx (i_nb s) end) with (data s)
    by (unfold data; rewrite Edx; destruct (i_src s); reflexivity).
  set (y := data s) in *.
  destruct (Nat.le_gt_cases 2 (i_nb s - 1)) as [L|L].
  - destruct (Nat.le_gt_cases (1 + (i_nb s - 1 - 1)) (length y)).
    + lia.
    + rewrite (foldM_sum_ub y (i_nb s - 1 - 1) 1) by lia. reflexivity.
  - assert (length y = 0)%nat as E by lia. replace (i_nb s - 1 - 1)%nat with 0%nat by lia. cbn [seq foldM bind].
    rewrite vidx_ge by lia. reflexivity.
Qed.

Lemma rule_areas s y : (2 <= i_nb s)%nat -> length y = i_nb s ->
  rule s y = areas (grid (i_xmin s) ((i_xmax s - i_xmin s) / INR (i_nb s - 1)) (i_nb s)) y.
Proof.
  intros H L. unfold rule. rewrite <- L. rewrite areas_grid, L. set (q := _ / _).
  rewrite <- (trap_regroup _ (fun i => nth i y 0)) by exact H. set (B := bsum _ _). field.
Qed.
Lemma areas_of_grid f a b n : (2 <= n)%nat ->
  areas (grid a ((b - a) / INR (n - 1)) n) (map f (grid a ((b - a) / INR (n - 1)) n)) = areas_of f a b n.
Proof.
  intros H. rewrite areas_idx by now rewrite map_length. rewrite map_length, grid_length. unfold areas_of.
  set (h := _ / _).
  assert (E : forall i, (i < n)%nat -> nth i (map f (grid a h n)) 0 = f (a + INR i * h)).
  { intros i Hi. rewrite (nth_indep (map f (grid a h n)) 0 (f 0)) by (rewrite map_length, grid_length; exact Hi).
    now rewrite map_nth, map_grid. }
  apply bsum_ext. intros i Hi. rewrite !map_grid, !E by lia.
  replace (a + INR (S i) * h - (a + INR i * h)) with h by (rewrite S_INR; ring). reflexivity.
Qed.
Lemma sample_grid f x dx k : sample f x dx k = map f (grid x dx k).
Proof.
  apply (nth_ext _ _ 0 (f 0)); [now rewrite sample_length, map_length, grid_length|].
  intros i Hi. rewrite sample_length in Hi. rewrite sample_nth by exact Hi. rewrite map_nth, map_grid by exact Hi. reflexivity.
Qed.

(** *** Histories *)
Definition agrees (V : R -> R -> R) (nb : nat) (src : integration_data R) (y : list R) (s : integ1 R) (v : iview) : Prop :=
  i_xmin s = v_a v /\ i_xmax s = v_b v /\ i_method s = v_m v /\ i_computed s = v_got v /\ i_nb s = nb /\ i_src s = src /\
  (src = VECTOR -> i_y s = y) /\ (v_got v = true -> i_result s = V (v_a v) (v_b v)).
Section Hist.
Variables (V : R -> R -> R) (nb : nat) (src : integration_data R) (y : list R).
Hypothesis HV : forall s, i_nb s = nb -> i_src s = src -> (src = VECTOR -> i_y s = y) ->
  compute_trapz s = (set_result (i_computed s) (V (i_xmin s) (i_xmax s)) (set_y (data s) s), Ok tt).
Lemma agrees_get s v : agrees V nb src y s v ->
  agrees V nb src y (fst (integ1_get s)) (vapply v CGet) /\
  snd (integ1_get s) = (if orb (v_got v) (match v_m v with TRAPEZOIDAL => true | NEWTON_COTES => false end)
                        then Ok (V (v_a v) (v_b v)) else Throw RuntimeError).
Proof.
  intros (A1 & A2 & A3 & A4 & A5 & A6 & A7 & A8). unfold integ1_get. rewrite A4.
  destruct (v_got v) eqn:G; cbn [orb vapply].
  - split; [|cbn [snd]; now rewrite A8].
    repeat split; cbn [fst v_a v_b v_m v_got orb]; rewrite ?G; auto.
  - rewrite A3. destruct (v_m v) eqn:M.
    + rewrite HV by assumption. unfold set_result, set_y.
      cbn [i_result i_xmin i_xmax i_nb i_y i_src i_method i_computed fst snd].
      rewrite A1, A2. split; [|reflexivity].
      repeat split; cbn [v_a v_b v_m v_got]; rewrite ?G, ?M; auto.
      intros Hs. unfold data. cbn [i_y]. rewrite A6, Hs. auto.
    + cbn [fst snd]. split; [|reflexivity].
      repeat split; cbn [v_a v_b v_m v_got]; rewrite ?G, ?M; auto.
Qed.
Lemma agrees_apply s v c : agrees V nb src y s v -> agrees V nb src y (iapply s c) (vapply v c).
Proof.
  intros H. destruct c; cbn [iapply]; [..|now apply agrees_get];
  destruct H as (A1 & A2 & A3 & A4 & A5 & A6 & A7 & A8); repeat split; cbn; auto; discriminate.
Qed.
Lemma agrees_hist : forall calls s v, agrees V nb src y s v ->
  agrees V nb src y (fold_left iapply calls s) (fold_left vapply calls v).
Proof. induction calls as [|c calls IH]; intros s v H; cbn [fold_left]; [exact H|]. now apply IH, agrees_apply. Qed.
End Hist.

Lemma hist_function f a b nb calls : (2 <= nb)%nat -> (Z.of_nat nb < 2 ^ 32)%Z ->
  let v := view_after a b calls in
  snd (integ1_get (fold_left iapply calls (integ1_function f a b nb))) = get_result (areas_of f (v_a v) (v_b v) nb) v.
Proof.
  intros H1 H2 v.
  destruct (agrees_get (fun a b => areas_of f a b nb) nb (FUNCTION f) []
    ) with (s := fold_left iapply calls (integ1_function f a b nb)) (v := v) as [_ ->].
  - intros s E1 E2 _. rewrite compute_ok.
    + f_equal. f_equal. unfold data. rewrite E2, E1.
      rewrite rule_areas by (rewrite ?sample_length; lia). rewrite E1, sample_grid. now apply areas_of_grid.
    + lia.
    + lia.
    + unfold data. rewrite E2, sample_length. lia.
    + unfold data. rewrite E2, sample_length. lia.
  - apply agrees_hist.
    + intros s E1 E2 _. rewrite compute_ok.
      * f_equal. f_equal. unfold data. rewrite E2, E1.
        rewrite rule_areas by (rewrite ?sample_length; lia). rewrite E1, sample_grid. now apply areas_of_grid.
      * lia.
      * lia.
      * unfold data. rewrite E2, sample_length. lia.
      * unfold data. rewrite E2, sample_length. lia.
    + repeat split; cbn; auto; discriminate.
  - unfold get_result. destruct (v_got v), (v_m v); reflexivity.
Qed.
Lemma hist_vector y a b nb calls : (2 <= nb)%nat -> (Z.of_nat nb < 2 ^ 32)%Z -> length y = nb ->
  let v := view_after a b calls in
  snd (integ1_get (fold_left iapply calls (integ1_vector y a b nb))) =
  get_result (areas (grid (v_a v) ((v_b v - v_a v) / INR (nb - 1)) nb) y) v.
Proof.
  intros H1 H2 L v.
  assert (HV : forall s, i_nb s = nb -> i_src s = VECTOR -> (VECTOR (T := R) = VECTOR -> i_y s = y) ->
    compute_trapz s = (set_result (i_computed s) (areas (grid (i_xmin s) ((i_xmax s - i_xmin s) / INR (nb - 1)) nb) y) (set_y (data s) s), Ok tt)).
  { intros s E1 E2 E3. specialize (E3 eq_refl).
    assert (Ed : data s = y) by (unfold data; now rewrite E2).
    rewrite compute_ok; rewrite ?Ed; try lia. f_equal. f_equal.
    rewrite rule_areas by lia. now rewrite E1. }
  destruct (agrees_get (fun a b => areas (grid a ((b - a) / INR (nb - 1)) nb) y) nb VECTOR y HV
     (fold_left iapply calls (integ1_vector y a b nb)) v) as [_ ->].
  - apply agrees_hist; [exact HV|]. repeat split; cbn; auto; discriminate.
  - unfold get_result. destruct (v_got v), (v_m v); reflexivity.
Qed.

(** Vector and number of points that do not match. *)
Lemma vector_mismatch y a b nb : (2 <= nb)%nat -> (Z.of_nat nb < 2 ^ 32)%Z ->
  snd (integ1_get (integ1_vector y a b nb)) =
  if ((length y =? 0) || (length y + 1 <? nb))%nat then UB
  else Ok ((b - a) / INR (nb - 1) * ((nth 0 y 0 + last y 0) / 2 + bsum (nb - 2) (fun j => nth (S j) y 0))).
Proof.
  intros H1 H2. unfold integ1_get. cbn [integ1_vector i_computed i_method].
  change (mkI1 a b nb y VECTOR TRAPEZOIDAL false (nofZ 0)) with (integ1_vector y a b nb). set (s := integ1_vector y a b nb).
  destruct (Nat.eqb_spec (length y) 0) as [E|E]; cbn [orb].
  - rewrite compute_ub by (cbn; auto; lia). reflexivity.
  - destruct (Nat.ltb_spec (length y + 1) nb).
    + rewrite compute_ub; cbn; try lia. reflexivity.
    + rewrite compute_ok; cbn; try lia. f_equal. unfold rule, s. cbn.
      assert (El : nth (length y - 1) y 0 = last y 0).
      { clear. induction y as [|x y IH]; [reflexivity|]. destruct y as [|x' y]; [reflexivity|].
        cbn [length] in *. replace (S (S (length y)) - 1)%nat with (S (S (length y) - 1)) by lia.
        exact IH. }
      rewrite El. set (q := _ / _). set (B := bsum _ _). field.
Qed.
Lemma function_few f a b : (snd (integ1_get (integ1_function (T := R) f a b 0)) = UB).
Proof.
  unfold integ1_get, integ1_function. cbn [i_computed i_method]. unfold compute_trapz.
  cbn [i_src i_nb i_xmin i_xmax sample].
  assert (E : (Z.to_nat (nb_minus_1 0) - 1)%nat = S (Z.to_nat (nb_minus_1 0) - 2)).
  { assert (2 <= Z.to_nat (nb_minus_1 0))%nat; [|lia]. change (nb_minus_1 0) with 4294967295%Z. lia. }
  rewrite E. cbn [seq foldM]. reflexivity.
Qed.

(** *** Convolution *)
Definition products (k s : list R) : list R := map (fun p => fst p * snd p) (combine k s).
Lemma conv_ok bm k s dt (rev : bool) : (1 <= length k)%nat -> (length k <= length s)%nat ->
  naive_convolution bm k s dt rev =
  trapz_uniform (products k (if rev then firstn (length k) s else List.rev (firstn (length k) s))) dt.
Proof.
  intros H1 H2. unfold naive_convolution. rewrite (proj2 (Nat.leb_le _ _)) by exact H2.
  replace (cassert bm true) with (Ok tt) by (destruct bm; reflexivity). cbn [bind].
  set (s' := if rev then firstn (length k) s else List.rev (firstn (length k) s)).
  assert (Ls : length s' = length k).
  { unfold s'. destruct rev; rewrite ?rev_length, firstn_length; lia. }
  rewrite (mapM_ok_map _ (fun i => nth i (products k s') 0)).
  - cbn [bind]. f_equal. apply (nth_ext _ _ 0 0).
    + rewrite map_length, seq_length. unfold products. rewrite map_length, combine_length. lia.
    + intros i Hi. rewrite map_length, seq_length in Hi. now rewrite nth_map_seq0.
  - intros i Hi. apply in_seq in Hi. rewrite (vidx_lt k i 0) by lia. cbn [bind].
    assert (Es : (if rev then vidx s i else vidx s (length k - i - 1)) = Ok (nth i s' 0)).
    { unfold s'. destruct rev.
      - rewrite (vidx_lt s i 0) by lia. f_equal. rewrite <- (firstn_skipn (length k) s) at 1. rewrite app_nth1; [reflexivity|].
        rewrite firstn_length. lia.
      - rewrite (vidx_lt s _ 0) by lia. f_equal. rewrite rev_nth by (rewrite firstn_length; lia). rewrite firstn_length_le by lia.
        replace (length k - S i)%nat with (length k - i - 1)%nat by lia.
        rewrite <- (firstn_skipn (length k) s) at 1. rewrite app_nth1; [reflexivity|]. rewrite firstn_length. lia. }
    rewrite Es. cbn [bind]. f_equal. unfold products.
    rewrite (nth_indep (map (fun p => fst p * snd p) (combine k s')) 0 ((fun p => fst p * snd p) (0, 0))) by (rewrite map_length, combine_length; lia).
    pose proof (map_nth (fun p : R * R => fst p * snd p) (combine k s') (0, 0) i) as En. cbn beta in En.
    rewrite En, combine_nth by lia. reflexivity.
Qed.
Lemma conv_short k s dt rev : (length s < length k)%nat ->
  naive_convolution (T := R) Debug k s dt rev = Abort /\ naive_convolution Release k s dt rev = UB.
Proof.
  intros H. unfold naive_convolution, cassert. rewrite (proj2 (Nat.leb_gt _ _)) by exact H. split; [reflexivity|]. cbn [bind].
  assert (E : mapM (fun i => let* k0 := vidx k i in let* s0 := if rev then vidx s i else vidx s (length k - i - 1) in Ok (k0 * s0)%num)
     (seq 0 (length k)) = UB); [|now rewrite E].
  assert (G : forall l, (forall i, In i l -> (i < length k)%nat) ->
     (exists i, In i l /\ (length s <= (if rev then i else length k - i - 1))%nat) ->
     mapM (fun i => let* k0 := vidx k i in let* s0 := if rev then vidx s i else vidx s (length k - i - 1) in Ok (k0 * s0)%num) l = UB).
  { induction l as [|j l IH]; intros Hl (i & Hi & Hs); [destruct Hi|]. cbn [mapM].
    rewrite (vidx_lt k j 0) by (apply Hl; now left). cbn [bind].
    destruct (Nat.lt_ge_cases (if rev then j else length k - j - 1) (length s)) as [L|L].
    - replace (if rev then vidx s j else vidx s (length k - j - 1)) with (Ok (nth (if rev then j else (length k - j - 1)%nat) s 0))
        by (destruct rev; now rewrite (vidx_lt s _ 0) by exact L).
      cbn [bind]. destruct Hi as [->|Hi]; [lia|]. rewrite IH; [reflexivity| |eauto]. intros; apply Hl; now right.
    - replace (if rev then vidx s j else vidx s (length k - j - 1)) with (@UB R) by (destruct rev; now rewrite vidx_ge by exact L).
      reflexivity. }
  apply G.
  - intros i Hi. apply in_seq in Hi. lia.
  - exists (if rev then (length k - 1)%nat else 0%nat). destruct rev; (split; [apply in_seq; lia|lia]).
Qed.

(** *** Frequencies *)
Lemma freq_nth (df : R) u : forall k f i, (i < k)%nat ->
  nth i (freq_loop f df u k) 0 = convert_frequency (f + INR i * df) HERTZ u.
Proof.
  induction k as [|k IH]; intros f i H; [lia|]. destruct i as [|i]; cbn [freq_loop nth].
  - f_equal. simpl. ring.
  - rewrite IH by lia. f_equal. rewrite S_INR. rn. ring.
Qed.
Lemma freq_length (df : R) u : forall k f, length (freq_loop f df u k) = k.
Proof. induction k; intros; cbn; auto. Qed.
Lemma freq_lemma half nfft fs u : (0 < nfft)%nat ->
  let out := frequency_vector half nfft fs u in
  length out = (if half then nfft / 2 + 1 else nfft)%nat /\
  forall k, (k < length out)%nat -> (u = PERIOD_S -> (0 < k)%nat /\ fs <> 0) ->
    denotes_hertz PI u (nth k out 0) (INR k * fs / INR nfft).
Proof.
  intros Hn out. unfold out, frequency_vector. rewrite freq_length. split; [reflexivity|].
  intros k Hk Hu. rewrite freq_nth by exact Hk. rn. rewrite <- INR_IZR_INZ, Rplus_0_l.
  replace (INR k * (fs / INR nfft)) with (INR k * fs / INR nfft) by (unfold Rdiv; ring).
  apply (frequency_meaning_lemma PI _ _ HERTZ u PI_neq0); [|reflexivity].
  intros E. destruct (Hu E) as [Hk0 Hf]. unfold Rdiv. apply Rmult_integral_contrapositive_currified; [|apply Rinv_neq_0_compat, not_0_INR; lia].
  apply Rmult_integral_contrapositive_currified; [apply not_0_INR; lia|exact Hf].
Qed.

(** *** Trapz statements *)
Lemma RInt_affine m q a b : RInt (fun t => m * t + q) a b = (m * b ^ 2 / 2 + q * b) - (m * a ^ 2 / 2 + q * a).
Proof.
  apply is_RInt_unique. apply (is_RInt_derive (fun t => m * t ^ 2 / 2 + q * t) (fun t => m * t + q) a b).
  - intros t _. auto_derive; [auto|]. field.
  - intros t _. apply continuity_pt_filterlim. reg.
Qed.
Lemma trapz_affine bm x m q : (2 <= length x)%nat ->
  trapz_xy bm x (map (fun t => m * t + q) x) = Ok (RInt (fun t => m * t + q) (hd 0 x) (last x 0)).
Proof.
  intros H. rewrite trapz_xy_ok by (rewrite map_length; lia). rewrite areas_affine by lia. now rewrite RInt_affine.
Qed.
Lemma trapz_agree a h y bm : (2 <= length y)%nat -> trapz_uniform y h = trapz_xy bm (grid a h (length y)) y.
Proof. intros H. rewrite (trapz_uniform_lemma a) by exact H. rewrite trapz_xy_ok; rewrite ?grid_length; auto. Qed.
Lemma axpy_length a b y z : length y = length z -> length (axpy a b y z) = length y.
Proof. intros H. unfold axpy. rewrite map_length, combine_length. lia. Qed.
Lemma trapz_linear bm x y z a b : (2 <= length x)%nat -> length y = length x -> length z = length x ->
  exists vy vz, trapz_xy bm x y = Ok vy /\ trapz_xy bm x z = Ok vz /\ trapz_xy bm x (axpy a b y z) = Ok (a * vy + b * vz).
Proof.
  intros H Hy Hz. exists (areas x y), (areas x z).
  rewrite !trapz_xy_ok; rewrite ?axpy_length; try lia. repeat split. rewrite areas_linear; auto; lia.
Qed.
Lemma trapz_linear_uniform y z h a b : (1 <= length y)%nat -> length y = length z ->
  exists vy vz, trapz_uniform y h = Ok vy /\ trapz_uniform z h = Ok vz /\ trapz_uniform (axpy a b y z) h = Ok (a * vy + b * vz).
Proof.
  intros H L. destruct (Nat.le_gt_cases 2 (length y)) as [H2|H2].
  - exists (areas (grid 0 h (length y)) y), (areas (grid 0 h (length y)) z).
    rewrite !(trapz_uniform_lemma 0) by (rewrite ?axpy_length; lia). rewrite <- L. rewrite axpy_length by exact L. repeat split.
    now rewrite areas_linear by (rewrite ?grid_length; auto).
  - destruct y as [|y0 [|]], z as [|z0 [|]]; cbn [length] in *; try lia. exists (h * y0), (h * z0).
    change (axpy a b [y0] [z0]) with [a * y0 + b * z0]. rewrite !trapz_uniform_one. repeat split. f_equal. ring.
Qed.
Lemma trapz_additive bm xa p xb ya q yb : length xa = length ya -> length xb = length yb -> xa <> [] -> xb <> [] ->
  exists va vb, trapz_xy bm (xa ++ [p]) (ya ++ [q]) = Ok va /\ trapz_xy bm (p :: xb) (q :: yb) = Ok vb /\
    trapz_xy bm (xa ++ p :: xb) (ya ++ q :: yb) = Ok (va + vb).
Proof.
  intros H1 H2 Na Nb. exists (areas (xa ++ [p]) (ya ++ [q])), (areas (p :: xb) (q :: yb)).
  assert (0 < length xa)%nat by (destruct xa; [congruence|cbn; lia]). assert (0 < length xb)%nat by (destruct xb; [congruence|cbn; lia]).
  rewrite !trapz_xy_ok; rewrite ?app_length; cbn; try lia. repeat split. f_equal. now apply areas_app.
Qed.
Lemma steps_max : forall x, StronglySorted Rle x -> exists h, steps h x.
Proof.
  induction x as [|x0 x IH]; intros H; [exists 0; exact I|]. inversion H as [|? ? Hs F]; subst.
  destruct (IH Hs) as [h Hh]. destruct x as [|x1 x]; [exists 0; exact I|].
  exists (Rmax h (x1 - x0)). split.
  - inversion F; subst. pose proof (Rmax_r h (x1 - x0)). lra.
  - revert Hh. generalize (x1 :: x) as l. induction l as [|a l IHl]; [auto|]. destruct l as [|b l]; [auto|].
    intros [A B]. split; [pose proof (Rmax_l h (x1 - x0)); lra|auto].
Qed.
Lemma trapz_monotone bm x y z : (2 <= length x)%nat -> StronglySorted Rle x -> length y = length x -> Forall2 Rle y z ->
  exists vy vz, trapz_xy bm x y = Ok vy /\ trapz_xy bm x z = Ok vz /\ vy <= vz.
Proof.
  intros H S L F. destruct (steps_max x S) as [h Hh]. exists (areas x y), (areas x z).
  assert (length z = length x) by (rewrite <- L; clear - F; induction F; cbn [length]; lia).
  rewrite !trapz_xy_ok by lia. repeat split. apply (areas_mono x y z h); auto.
Qed.
Lemma trapz_error bm x f f1 f2 M h : (2 <= length x)%nat -> steps h x ->
  twice_derivable f f1 f2 (hd 0 x) (last x 0) M ->
  exists v, trapz_xy bm x (map f x) = Ok v /\
    Rabs (v - RInt f (hd 0 x) (last x 0)) <= M * h ^ 2 * (last x 0 - hd 0 x) / 12.
Proof.
  intros H S D. exists (areas x (map f x)). split; [apply trapz_xy_ok; rewrite map_length; lia|].
  apply (error_lemma f f1 f2); auto; lia.
Qed.
Lemma steps_grid a h n : 0 <= h -> steps h (grid a h n).
Proof.
  intros Hh. unfold grid. generalize 0%nat as s. induction n as [|n IH]; intros s; [exact I|].
  cbn [seq map]. destruct n as [|n]; [exact I|]. split; [|apply IH].
  cbn [seq map]. rewrite S_INR. lra.
Qed.
Lemma last_grid a h n : last (grid a h (S n)) 0 = a + INR n * h.
Proof.
  unfold grid. rewrite seq_S, map_app. cbn [map]. rewrite last_last. reflexivity.
Qed.
Lemma areas_of_error f f1 f2 M a b n : (2 <= n)%nat -> a <= b -> twice_derivable f f1 f2 a b M ->
  Rabs (areas_of f a b n - RInt f a b) <= M * ((b - a) / INR (n - 1)) ^ 2 * (b - a) / 12.
Proof.
  intros Hn Hab D. rewrite <- areas_of_grid by exact Hn. set (h := (b - a) / INR (n - 1)).
  assert (Hp : 0 < INR (n - 1)) by (apply lt_0_INR; lia).
  assert (Hh : 0 <= h) by (apply Rmult_le_pos; [lra|left; now apply Rinv_0_lt_compat]).
  destruct n as [|n]; [lia|].
  assert (Eh : hd 0 (grid a h (S n)) = a) by (unfold grid; cbn; lra).
  assert (El : last (grid a h (S n)) 0 = b).
  { rewrite last_grid. unfold h. replace (S n - 1)%nat with n in * by lia. field. lra. }
  pose proof (error_lemma f f1 f2 M h (grid a h (S n))) as E. rewrite Eh, El in E.
  apply E; [rewrite grid_length; lia|now apply steps_grid|exact D].
Qed.

(** *** Convolution statements *)
Lemma products_nth k s i : length k = length s -> nth i (products k s) 0 = nth i k 0 * nth i s 0.
Proof.
  intros L. unfold products. destruct (Nat.lt_ge_cases i (length k)) as [H|H].
  - rewrite (nth_indep (map (fun p => fst p * snd p) (combine k s)) 0 ((fun p => fst p * snd p) (0, 0)))
      by (rewrite map_length, combine_length; lia).
    pose proof (map_nth (fun p : R * R => fst p * snd p) (combine k s) (0, 0) i) as En. cbn beta in En.
    rewrite En, combine_nth by lia. reflexivity.
  - rewrite !nth_overflow; rewrite ?map_length, ?combine_length; try lia. ring.
Qed.
Lemma products_length k s : length k = length s -> length (products k s) = length k.
Proof. intros L. unfold products. rewrite map_length, combine_length. lia. Qed.
Lemma firstn_nth {A} (d : A) : forall n l i, (i < n)%nat -> nth i (firstn n l) d = nth i l d.
Proof.
  induction n as [|n IH]; intros l i H; [lia|]. destruct l as [|x l]; [destruct i; reflexivity|].
  destruct i as [|i]; cbn; [reflexivity|]. apply IH. lia.
Qed.
Lemma conv_value bm k s dt : (2 <= length k)%nat -> (length k <= length s)%nat ->
  naive_convolution bm k s dt true = Ok (dt * bsum (length k - 1) (fun i => (nth i k 0 * nth i s 0 + nth (S i) k 0 * nth (S i) s 0) / 2)) /\
  naive_convolution bm k s dt false = Ok (dt * bsum (length k - 1) (fun i =>
    (nth i k 0 * nth (length k - 1 - i) s 0 + nth (S i) k 0 * nth (length k - 1 - S i) s 0) / 2)).
Proof.
  intros H1 H2. assert (Lf : length (firstn (length k) s) = length k) by (rewrite firstn_length; lia).
  rewrite !conv_ok by lia. split.
  - rewrite trapz_uniform_ok by (rewrite products_length; lia). rewrite products_length by lia. do 2 f_equal.
    apply bsum_ext. intros i Hi. rewrite !products_nth by lia. rewrite !firstn_nth by lia. reflexivity.
  - rewrite trapz_uniform_ok by (rewrite products_length; rewrite ?rev_length; lia). rewrite products_length by (rewrite rev_length; lia). do 2 f_equal.
    apply bsum_ext. intros i Hi. rewrite !products_nth by (rewrite rev_length; lia). rewrite !rev_nth by lia. rewrite Lf.
    rewrite !firstn_nth by lia.
    replace (length k - S (S i))%nat with (length k - 1 - S i)%nat by lia. replace (length k - S i)%nat with (length k - 1 - i)%nat by lia. reflexivity.
Qed.
Lemma conv_one bm k0 s0 s dt r : naive_convolution bm [k0] (s0 :: s) dt r = Ok (dt * (k0 * s0)).
Proof.
  rewrite conv_ok by (cbn; lia). cbn [length firstn]. replace (if r then [s0] else rev [s0]) with [s0] by (destruct r; reflexivity).
  apply trapz_uniform_one.
Qed.
Lemma conv_empty bm s dt r : naive_convolution (T := R) bm [] s dt r = UB.
Proof. destruct bm; reflexivity. Qed.
Lemma conv_reverse bm (k s : list R) dt : (1 <= length k)%nat -> (length k <= length s)%nat ->
  naive_convolution bm k s dt false =
  naive_convolution bm k (rev (firstn (length k) s) ++ skipn (length k) s) dt true.
Proof.
  intros H1 H2. assert (Lf : length (rev (firstn (length k) s)) = length k) by (rewrite rev_length, firstn_length; lia).
  rewrite !conv_ok by (rewrite ?app_length; lia).
  replace (firstn (length k) (rev (firstn (length k) s) ++ skipn (length k) s)) with (rev (firstn (length k) s)); [reflexivity|].
  revert Lf. generalize (rev (firstn (length k) s)) as u. intros u Lf.
  rewrite firstn_app, (firstn_all2 u) by lia. rewrite Lf, Nat.sub_diag. cbn [firstn]. now rewrite app_nil_r.
Qed.
Lemma products_axpy_l a b k1 k2 s : length k1 = length k2 -> length k1 = length s ->
  products (axpy a b k1 k2) s = axpy a b (products k1 s) (products k2 s).
Proof.
  revert k2 s. induction k1 as [|x k1 IH]; intros [|y k2] [|z s] L1 L2; try discriminate; [reflexivity|].
  unfold products, axpy in *. cbn [combine map fst snd]. rewrite IH by (cbn in *; lia). f_equal. ring.
Qed.
Lemma products_comm : forall k s, products k s = products s k.
Proof.
  unfold products. induction k as [|x k IH]; intros [|z s]; cbn [combine map]; auto. rewrite IH. cbn [fst snd]. f_equal. ring.
Qed.
Lemma conv_bilinear_k bm k1 k2 s dt r a b : (1 <= length k1)%nat -> length k1 = length k2 -> (length k1 <= length s)%nat ->
  exists v1 v2, naive_convolution bm k1 s dt r = Ok v1 /\ naive_convolution bm k2 s dt r = Ok v2 /\
    naive_convolution bm (axpy a b k1 k2) s dt r = Ok (a * v1 + b * v2).
Proof.
  intros H L Hs. rewrite !conv_ok by (rewrite ?axpy_length; lia). rewrite axpy_length, <- L by exact L.
  set (s' := if r then _ else _).
  assert (Ls : length s' = length k1) by (unfold s'; destruct r; rewrite ?rev_length, firstn_length; lia).
  rewrite products_axpy_l by lia. apply trapz_linear_uniform; rewrite !products_length; lia.
Qed.
Lemma firstn_axpy a b : forall n y z, firstn n (axpy a b y z) = axpy a b (firstn n y) (firstn n z).
Proof.
  unfold axpy. induction n as [|n IH]; intros y z; [reflexivity|]. destruct y as [|y0 y], z as [|z0 z]; try reflexivity.
  cbn [combine map firstn]. now rewrite IH.
Qed.
Lemma rev_axpy a b : forall y z, length y = length z -> rev (axpy a b y z) = axpy a b (rev y) (rev z).
Proof.
  unfold axpy. intros y z L. rewrite <- map_rev. f_equal.
  revert z L. induction y as [|y0 y IH]; intros [|z0 z] L; try discriminate; [reflexivity|].
  cbn [combine rev]. rewrite IH by (cbn in *; lia). cbn [length] in L.
  assert (C : forall (u v : list R) p q, length u = length v -> combine (u ++ [p]) (v ++ [q]) = combine u v ++ [(p, q)]).
  { induction u as [|u0 u IHu]; intros [|v0 v] p q E; try discriminate; [reflexivity|]. cbn. rewrite IHu by (cbn in *; lia). reflexivity. }
  symmetry. apply C. rewrite !rev_length. lia.
Qed.
Lemma conv_bilinear_s bm k s1 s2 dt r a b : (1 <= length k)%nat -> length s1 = length s2 -> (length k <= length s1)%nat ->
  exists v1 v2, naive_convolution bm k s1 dt r = Ok v1 /\ naive_convolution bm k s2 dt r = Ok v2 /\
    naive_convolution bm k (axpy a b s1 s2) dt r = Ok (a * v1 + b * v2).
Proof.
  intros H L Hs. rewrite !conv_ok by (rewrite ?axpy_length; lia). rewrite firstn_axpy.
  assert (L1 : length (firstn (length k) s1) = length k) by (rewrite firstn_length; lia).
  assert (L2 : length (firstn (length k) s2) = length k) by (rewrite firstn_length; lia).
  rewrite rev_axpy by lia.
  set (s1' := if r then firstn (length k) s1 else _). set (s2' := if r then firstn (length k) s2 else _).
  assert (Ls1 : length s1' = length k) by (unfold s1'; destruct r; rewrite ?rev_length; lia).
  assert (Ls2 : length s2' = length k) by (unfold s2'; destruct r; rewrite ?rev_length; lia).
  replace (if r then axpy a b (firstn (length k) s1) (firstn (length k) s2) else _) with (axpy a b s1' s2') by (unfold s1', s2'; destruct r; reflexivity).
  rewrite (products_comm k (axpy a b s1' s2')), products_axpy_l by lia.
  rewrite (products_comm k s1'), (products_comm k s2').
  apply trapz_linear_uniform; rewrite !products_length; lia.
Qed.
Lemma bsum_rev n (f : nat -> R) : bsum n f = bsum n (fun i => f (n - 1 - i)%nat).
Proof.
  induction n as [|n IH]; [reflexivity|]. rewrite (bsum_shift n (fun i => f (S n - 1 - i)%nat)).
  cbn [bsum]. rewrite IH. replace (S n - 1 - 0)%nat with n by lia. rewrite Rplus_comm. f_equal.
  apply bsum_ext. intros i Hi. f_equal. lia.
Qed.
Lemma conv_comm bm (k s : list R) dt : length k = length s -> naive_convolution bm k s dt false = naive_convolution bm s k dt false.
Proof.
  intros L. destruct (Nat.le_gt_cases 2 (length k)) as [H|H].
  - rewrite (proj2 (conv_value bm k s dt H ltac:(lia))), (proj2 (conv_value bm s k dt ltac:(lia) ltac:(lia))).
    do 2 f_equal. rewrite <- L. rewrite bsum_rev. apply bsum_ext. intros i Hi.
    replace (length k - 1 - 1 - i)%nat with (length k - 1 - S i)%nat by lia.
    replace (S (length k - 1 - S i)) with (length k - 1 - i)%nat by lia.
    replace (length k - 1 - (length k - 1 - S i))%nat with (S i) by lia.
    replace (length k - 1 - (length k - 1 - i))%nat with i by lia. lra.
  - destruct k as [|k0 [|]], s as [|s0 [|]]; cbn [length] in *; try lia; [reflexivity|]. rewrite !conv_one. f_equal. ring.
Qed.

(** *** Integrate1d defects *)
Lemma view_methods : forall ms v, v_got v = true -> v_got (fold_left vapply (map CMethod ms) v) = true /\
  v_a (fold_left vapply (map CMethod ms) v) = v_a v /\ v_b (fold_left vapply (map CMethod ms) v) = v_b v.
Proof. induction ms as [|m ms IH]; intros v H; cbn [map fold_left]; [auto|]. apply (IH (vapply v (CMethod m))). exact H. Qed.
Lemma method_ignored f a b nb calls ms : (2 <= nb)%nat -> (Z.of_nat nb < 2 ^ 32)%Z ->
  let v := view_after a b calls in v_got v = true ->
  snd (integ1_get (fold_left iapply (calls ++ map CMethod ms) (integ1_function f a b nb))) = Ok (areas_of f (v_a v) (v_b v) nb).
Proof.
  intros H1 H2 v Hv. rewrite hist_function by assumption. unfold view_after. rewrite fold_left_app. fold (view_after a b calls). fold v.
  destruct (view_methods ms v Hv) as (E1 & E2 & E3). unfold get_result. now rewrite E1, E2, E3.
Qed.
Lemma method_refuted : exists (f : R -> R) a b nb calls,
  snd (integ1_get (set_method NEWTON_COTES (fold_left iapply calls (integ1_function f a b nb)))) <>
  snd (integ1_get (set_method NEWTON_COTES (integ1_function f a b nb))).
Proof.
  exists (fun t => t), 0, 1, 2%nat, [CGet].
  pose proof (method_ignored (fun t => t) 0 1 2 [CGet] [NEWTON_COTES] (le_n 2) eq_refl eq_refl) as E.
  rewrite fold_left_app in E. cbn [map fold_left iapply] in E. cbn [fold_left iapply]. rewrite E.
  pose proof (hist_function (fun t => t) 0 1 2 [CMethod NEWTON_COTES] (le_n 2) eq_refl) as E2. cbn [fold_left iapply] in E2. rewrite E2. discriminate.
Qed.
Lemma mismatch_refuted : exists y a b nb w,
  (2 <= nb)%nat /\ length y <> nb /\ snd (integ1_get (integ1_vector y a b nb)) = Ok w /\
  w <> areas (grid a ((b - a) / INR (length y - 1)) (length y)) y.
Proof.
  exists [1; 1; 1; 1; 7], 0, 2, 3%nat, 5. repeat split; [lia|discriminate| |].
  - rewrite (vector_mismatch [1; 1; 1; 1; 7] 0 2 3 (le_S _ _ (le_n 2)) eq_refl).
    cbn [length Nat.eqb Nat.add Nat.ltb Nat.leb orb Nat.sub bsum nth last]. simpl INR. f_equal. lra.
  - cbn [length Nat.sub grid seq map areas]. simpl INR. lra.
Qed.
