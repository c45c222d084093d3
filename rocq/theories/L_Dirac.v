(** Lemmas on Dirac and Spline. *)
From Coq Require Import List Arith ZArith Bool Reals Lra Lia Sorted.
From Flocq Require Import Core.Raux.
From Verif Require Import Outcome Num NumFun M_Dirac S_Dirac S_Special.
Import ListNotations.
Open Scope R_scope.

Ltac dn := cbv [nadd nsub nmul ndiv nofZ nlit RNum RNum_at nlt nfabs RNumFm].
Lemma Rltb_t x y : x < y -> Rltb x y = true.
Proof. intros H. now apply Rltb_true. Qed.
Lemma Rltb_f x y : y <= x -> Rltb x y = false.
Proof. intros H. now apply Rltb_false. Qed.

Definition half_step (x : list R) : R := (nth 1 x 0 - nth 0 x 0) / 2.
Lemma dirac_short o x imp (h : R) : (length x < 2)%nat -> Dirac o x imp h = UB.
Proof. intros H. destruct x as [|a [|b x]]; [reflexivity|reflexivity|cbn in H; lia]. Qed.
Lemma dirac_values x imp h : (2 <= length x)%nat ->
  Dirac AbsReal x imp h = Ok (map (fun xi => if Rltb (Rabs (xi - imp)) ((nth 1 x 0 - nth 0 x 0) / 2) then h else 0) x).
Proof.
  intros H. unfold Dirac. rewrite (vidx_lt x 1 0), (vidx_lt x 0 0) by lia. cbn [bind dirac_abs].
  apply (mapM_ok_map _ (fun xi => if Rltb (Rabs (xi - imp)) ((nth 1 x 0 - nth 0 x 0) / 2) then h else 0)).
  intros xi _. dn. f_equal. replace (1 / 2 * (nth 1 x 0 - nth 0 x 0)) with ((nth 1 x 0 - nth 0 x 0) / 2) by field. reflexivity.
Qed.
Lemma uniform_length a h n : length (uniform a h n) = n.
Proof. unfold uniform. now rewrite map_length, seq_length. Qed.
Lemma uniform_nth a h n i : (i < n)%nat -> nth i (uniform a h n) 0 = a + INR i * h.
Proof.
  intros H. unfold uniform. rewrite (nth_indep _ 0 ((fun i => a + INR i * h) 0%nat)) by (rewrite map_length, seq_length; exact H).
  rewrite (map_nth (fun i => a + INR i * h)), seq_nth by exact H. reflexivity.
Qed.
Lemma uniform_step a h n : (2 <= n)%nat -> (nth 1 (uniform a h n) 0 - nth 0 (uniform a h n) 0) / 2 = h / 2.
Proof. intros H. rewrite !uniform_nth by lia. cbn [INR]. field. Qed.
(** Nearest sample strictly within half a step. *)
Lemma dirac_uniform a h n k imp height : 0 < h -> (2 <= n)%nat -> (k < n)%nat -> Rabs (a + INR k * h - imp) < h / 2 ->
  Dirac AbsReal (uniform a h n) imp height = Ok (impulse n k height).
Proof.
  intros Hh Hn Hk Hd. rewrite dirac_values by (rewrite uniform_length; exact Hn). f_equal. rewrite uniform_step by exact Hn.
  unfold uniform, impulse. rewrite map_map. apply map_ext. intros i. destruct (Nat.eqb_spec i k) as [->|E].
  - rewrite Rltb_t by exact Hd. reflexivity.
  - rewrite Rltb_f; [reflexivity|]. apply Rabs_def2 in Hd.
    assert (D : h <= Rabs (INR i * h - INR k * h)).
    { rewrite <- Rmult_minus_distr_r, Rabs_mult, (Rabs_right h) by lra. rewrite <- (Rmult_1_l h) at 1. apply Rmult_le_compat_r; [lra|].
      destruct (Nat.lt_ge_cases i k) as [L|L].
      - rewrite Rabs_left1; [|apply Rle_minus, le_INR; lia]. assert (INR (S i) <= INR k) by (apply le_INR; lia). rewrite S_INR in H. lra.
      - rewrite Rabs_right; [|apply Rge_minus, Rle_ge, le_INR; lia]. assert (INR (S k) <= INR i) by (apply le_INR; lia). rewrite S_INR in H. lra. }
    revert D. unfold Rabs. destruct (Rcase_abs (INR i * h - INR k * h)), (Rcase_abs (a + INR i * h - imp)); intros; lra.
Qed.
(** Midway between two samples the impulse is lost. *)
Lemma dirac_midway a h n k height : 0 < h -> (2 <= n)%nat ->
  Dirac AbsReal (uniform a h n) (a + (INR k + / 2) * h) height = Ok (repeat 0 n).
Proof.
  intros Hh Hn. rewrite dirac_values by (rewrite uniform_length; exact Hn). f_equal. rewrite uniform_step by exact Hn.
  unfold uniform. rewrite map_map. transitivity (map (fun _ => 0) (seq 0 n)).
  - apply map_ext. intros i. rewrite Rltb_f; [reflexivity|].
    replace (a + INR i * h - (a + (INR k + / 2) * h)) with ((INR i - (INR k + / 2)) * h) by ring.
    rewrite Rabs_mult, (Rabs_right h) by lra. replace (h / 2) with (/ 2 * h) by field. apply Rmult_le_compat_r; [lra|].
    destruct (Nat.lt_ge_cases k i) as [L|L].
    + assert (INR (S k) <= INR i) by (apply le_INR; lia). rewrite S_INR in H. rewrite Rabs_right; lra.
    + assert (INR i <= INR k) by (apply le_INR; lia). rewrite Rabs_left1; lra.
  - clear. generalize 0%nat. induction n as [|n IH]; intros s; cbn; [reflexivity|]. f_equal. apply IH.
Qed.
(** Decreasing or constant first step: nothing is selected. *)
Lemma dirac_decreasing x imp height : (2 <= length x)%nat -> nth 1 x 0 <= nth 0 x 0 ->
  Dirac AbsReal x imp height = Ok (repeat 0 (length x)).
Proof.
  intros H Hd. rewrite dirac_values by exact H. f_equal.
  assert (G : forall l, map (fun xi => if Rltb (Rabs (xi - imp)) ((nth 1 x 0 - nth 0 x 0) / 2) then height else 0) l = repeat 0 (length l)).
  { induction l as [|y l IH]; cbn; [reflexivity|]. rewrite IH, Rltb_f; [reflexivity|]. assert (P := Rabs_pos (y - imp)). lra. }
  apply G.
Qed.
(** Irregular samples: the first step decides. *)
Lemma dirac_irregular : exists x imp, StronglySorted Rlt x /\ In imp x /\
  Dirac AbsReal x imp 1 = Ok [0; 1; 1; 1].
Proof.
  exists [0; 4; 5; 6], 5. split; [repeat constructor; lra|]. split; [cbn; auto|]. rewrite dirac_values by (cbn; lia). f_equal. cbn [map nth].
  rewrite Rltb_f by (rewrite Rabs_left1; lra). rewrite !Rltb_t; [reflexivity|rewrite Rabs_right; lra|rewrite Rabs_right; lra|rewrite Rabs_left1; lra].
Qed.
(** The integer overload. *)
Lemma dirac_int x imp h : (2 <= length x)%nat -> (forall xi, In xi x -> Rabs (xi - imp) < 2147483648) ->
  Dirac AbsInt x imp h = Ok (map (fun xi => if Rltb (IZR (Z.abs (Ztrunc (xi - imp)))) ((nth 1 x 0 - nth 0 x 0) / 2) then h else 0) x).
Proof.
  intros H Hb. unfold Dirac. rewrite (vidx_lt x 1 0), (vidx_lt x 0 0) by lia. cbn [bind].
  apply (mapM_ok_map _ (fun xi => if Rltb (IZR (Z.abs (Ztrunc (xi - imp)))) ((nth 1 x 0 - nth 0 x 0) / 2) then h else 0)).
  intros xi Hx. cbv [dirac_abs ntoZ RNumFm nsub RNum RNum_at]. specialize (Hb xi Hx).
  assert (Z : (-2147483648 < Ztrunc (xi - imp) <= 2147483647)%Z).
  { destruct (Rle_or_lt 0 (xi - imp)) as [P|P].
    - rewrite Ztrunc_floor by exact P. rewrite Rabs_right in Hb by lra. assert (Zfloor (xi - imp) < 2147483648)%Z by (apply lt_IZR; apply Rle_lt_trans with (1 := Zfloor_lb _); exact Hb).
      assert (0 <= Zfloor (xi - imp))%Z by (apply Zfloor_lub; exact P). lia.
    - rewrite Ztrunc_ceil by lra. rewrite Rabs_left1 in Hb by lra. assert (-2147483648 < Zceil (xi - imp))%Z by (apply lt_IZR; apply Rlt_le_trans with (2 := Zceil_ub _); lra).
      assert (Zceil (xi - imp) <= 0)%Z by (apply Zceil_glb; lra). lia. }
  rewrite (proj2 (Z.ltb_lt _ _)), (proj2 (Z.leb_le _ _)) by lia. cbn [andb bind]. dn. f_equal.
  replace (1 / 2 * (nth 1 x 0 - nth 0 x 0)) with ((nth 1 x 0 - nth 0 x 0) / 2) by field. reflexivity.
Qed.
Lemma trunc_small x : Rabs x < 1 -> Ztrunc x = 0%Z.
Proof.
  intros H. apply Rabs_def2 in H. destruct (Rle_or_lt 0 x) as [P|P].
  - rewrite Ztrunc_floor by exact P. apply Zfloor_imp. cbn. lra.
  - rewrite Ztrunc_ceil by lra. apply Zceil_imp. cbn. lra.
Qed.
Lemma dirac_int_wide x imp h : (2 <= length x)%nat -> nth 0 x 0 < nth 1 x 0 -> (forall xi, In xi x -> Rabs (xi - imp) < 1) ->
  Dirac AbsInt x imp h = Ok (repeat h (length x)).
Proof.
  intros H Hs Hb. rewrite dirac_int; [|exact H|intros xi Hx; specialize (Hb xi Hx); lra]. f_equal.
  assert (G : forall l, (forall xi, In xi l -> Rabs (xi - imp) < 1) ->
    map (fun xi => if Rltb (IZR (Z.abs (Ztrunc (xi - imp)))) ((nth 1 x 0 - nth 0 x 0) / 2) then h else 0) l = repeat h (length l)).
  { induction l as [|y l IH]; intros Hl; cbn [map length repeat]; [reflexivity|]. rewrite IH by (intros; apply Hl; right; assumption).
    rewrite trunc_small by (apply Hl; left; reflexivity). rewrite Rltb_t by (cbn; lra). reflexivity. }
  apply G, Hb.
Qed.

(** ** Spline *)
Lemma min_coeff_ok : forall l (m : R), strictly_increasing (m :: l) -> min_coeff m l = m.
Proof.
  induction l as [|x l IH]; intros m H; [reflexivity|]. cbn [min_coeff]. apply StronglySorted_inv in H. destruct H as [H1 H2].
  inversion H2; subst. change (x <? m)%num with (Rltb x m). rewrite Rltb_f by lra. apply IH. constructor; [apply (StronglySorted_inv H1)|assumption].
Qed.
Lemma max_coeff_ok : forall l (m : R), strictly_increasing (m :: l) -> max_coeff m l = nth (length l) (m :: l) 0.
Proof.
  induction l as [|x l IH]; intros m H; [reflexivity|]. cbn [max_coeff]. apply StronglySorted_inv in H. destruct H as [H1 H2].
  inversion H2; subst. change (m <? x)%num with (Rltb m x). rewrite Rltb_t by assumption. rewrite IH by exact H1. reflexivity.
Qed.
Lemma sorted_last : forall l (m : R), strictly_increasing (m :: l) -> l <> [] -> m < nth (length l) (m :: l) 0.
Proof.
  intros l m H Hl. apply StronglySorted_inv in H. destruct H as [_ H]. rewrite List.Forall_forall in H. apply H.
  destruct l as [|x l]; [congruence|]. change (In (nth (length l) (x :: l) 0) (x :: l)). apply nth_In. cbn. lia.
Qed.
Lemma scaled_increasing lo hi l : lo < hi -> strictly_increasing l -> strictly_increasing (map (scaled_value lo hi) l).
Proof.
  intros H. induction 1 as [|x l Hl IH Hx]; [constructor|]. cbn [map]. constructor; [exact IH|]. apply Forall_map.
  apply (Forall_impl _ (fun y (Hy : x < y) => _)) with (2 := Hx) || (eapply Forall_impl; [|exact Hx]). intros y Hy. cbv [scaled_value]. dn.
  unfold Rdiv. apply Rmult_lt_compat_r; [apply Rinv_0_lt_compat; lra|lra].
Qed.
Lemma make_ok fit bm deg x l ys : strictly_increasing (x :: l) ->
  make_spline fit bm deg (x :: l) ys = Ok (mkSpline x (nth (length l) (x :: l) 0)
    (fit ys (Nat.min (length l) deg) (map (scaled_value x (nth (length l) (x :: l) 0)) (x :: l)))).
Proof.
  intros H. unfold make_spline. rewrite min_coeff_ok, max_coeff_ok by exact H. cbn [length]. rewrite Nat.sub_0_r || idtac. replace (S (length l) - 1)%nat with (length l) by lia. reflexivity.
Qed.
Lemma spline_nodes fit bm deg xs ys : interpolating fit -> strictly_increasing xs -> (2 <= length xs)%nat -> length ys = length xs ->
  exists s, make_spline fit bm deg xs ys = Ok s /\ make_spline_vector fit bm deg xs ys = Ok s /\
    forall i, (i < length xs)%nat -> spline_eval s (nth i xs 0) = nth i ys 0.
Proof.
  intros F H Hn L. destruct xs as [|x l]; [cbn in Hn; lia|]. eexists. unfold make_spline_vector. rewrite make_ok by exact H.
  split; [reflexivity|]. split; [reflexivity|]. intros i Hi. unfold spline_eval. cbn [sp_min sp_max sp_fun].
  set (hi := nth (length l) (x :: l) 0). set (par := map (scaled_value x hi) (x :: l)).
  assert (Hlt : x < hi) by (apply sorted_last; [exact H|destruct l; [cbn in Hn; lia|discriminate]]).
  assert (Lp : length par = length (x :: l)) by apply map_length.
  replace (scaled_value x hi (nth i (x :: l) 0)) with (nth i par 0).
  - apply F; [lia|apply scaled_increasing; assumption|lia|cbn [length] in *; lia|lia].
  - unfold par. rewrite (nth_indep _ 0 (scaled_value x hi 0)) by (rewrite map_length; exact Hi). apply map_nth.
Qed.
Lemma affine_increasing a b l : 0 < a -> strictly_increasing l -> strictly_increasing (map (fun x => a * x + b) l).
Proof.
  intros H. induction 1 as [|x l Hl IH Hx]; [constructor|]. cbn [map]. constructor; [exact IH|]. apply Forall_map.
  eapply Forall_impl; [|exact Hx]. intros y Hy. cbn beta. apply Rplus_lt_compat_r, Rmult_lt_compat_l; assumption.
Qed.
(** Changing the origin or the scale of the abscissae changes nothing; no
    assumption on the fitting. *)
Lemma spline_affine fit bm deg xs ys a b : 0 < a -> strictly_increasing xs -> (2 <= length xs)%nat ->
  exists s s', make_spline fit bm deg xs ys = Ok s /\ make_spline fit bm deg (map (fun x => a * x + b) xs) ys = Ok s' /\
    forall x, spline_eval s' (a * x + b) = spline_eval s x.
Proof.
  intros Ha H Hn. destruct xs as [|x l]; [cbn in Hn; lia|].
  assert (H' := affine_increasing a b _ Ha H). cbn [map] in *. do 2 eexists. rewrite !make_ok by assumption. split; [reflexivity|]. split; [reflexivity|].
  assert (Hlt : x < nth (length l) (x :: l) 0) by (apply sorted_last; [exact H|destruct l; [cbn in Hn; lia|discriminate]]).
  rewrite map_length. change (a * x + b :: map (fun x => a * x + b) l) with (map (fun x => a * x + b) (x :: l)).
  replace (nth (length l) (map (fun x => a * x + b) (x :: l)) 0) with (a * nth (length l) (x :: l) 0 + b).
  2:{ rewrite (nth_indep (map (fun x => a * x + b) (x :: l)) 0 ((fun x => a * x + b) 0)) by (rewrite map_length; cbn; lia). now rewrite (map_nth (fun x => a * x + b)). }
  set (hi := nth (length l) (x :: l) 0) in *. intros z. unfold spline_eval. cbn [sp_min sp_max sp_fun].
  assert (S : forall t, scaled_value (a * x + b) (a * hi + b) (a * t + b) = scaled_value x hi t).
  { intros t. cbv [scaled_value]. dn. field. split; [lra|]. replace (a * hi + b - (a * x + b)) with (a * (hi - x)) by ring.
    apply Rmult_integral_contrapositive_currified; lra. }
  rewrite S. f_equal. rewrite map_map. apply map_ext. exact S.
Qed.
Lemma spline_empty fit deg ys : make_spline (T := R) fit Debug deg [] ys = Abort /\ make_spline (T := R) fit Release deg [] ys = UB.
Proof. split; reflexivity. Qed.
(** Equal abscissae, in particular a single one: the scaling divides by zero. *)
Lemma scaled_equal (x t : R) : scaled_value (NT := PNum) (Some x) (Some x) (Some t) = None.
Proof. cbn. rewrite Rminus_diag_eq by reflexivity. now rewrite (proj2 (Reqb_true 0 0) eq_refl). Qed.
Lemma spline_single fit bm deg (x : R) ys : exists s, make_spline (NT := PNum) fit bm deg [Some x] ys = Ok s /\
  forall t, spline_eval (NT := PNum) s (Some t) = fit ys 0%nat [None] None.
Proof.
  eexists. split; [reflexivity|]. intros t. unfold spline_eval. cbn [sp_min sp_max sp_fun min_coeff max_coeff map length Nat.sub Nat.min].
  rewrite !scaled_equal. reflexivity.
Qed.
(** A fitting that meets the assumption. *)
Fixpoint table (pts par : list R) (u : R) : R :=
  match pts, par with y :: pts', p :: par' => if Req_EM_T u p then y else table pts' par' u | _, _ => 0 end.
Lemma table_interpolating : interpolating (fun pts _ par u => table pts par u).
Proof.
  intros pts deg par L S _ _. clear deg. revert pts L. induction S as [|p par HS IH Hp]; intros pts L i Hi; [cbn in Hi; lia|].
  destruct pts as [|y pts]; [discriminate|]. cbn in L. destruct i as [|i]; cbn [nth table].
  - destruct (Req_EM_T p p); [reflexivity|congruence].
  - cbn in Hi. destruct (Req_EM_T (nth i par 0) p) as [E|_]; [|apply IH; lia].
    rewrite List.Forall_forall in Hp. exfalso. assert (B : p < nth i par 0) by (apply Hp, nth_In; lia). rewrite E in B. exact (Rlt_irrefl p B).
Qed.
