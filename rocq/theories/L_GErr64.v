(** Accuracy in double of the interpolation of functions sampled on a grid. *)
From Coq Require Import List Arith ZArith Reals Bool Lia Lra Permutation.
From Coquelicot Require Import Coquelicot.
From Flocq Require Import Core.Core IEEE754.BinarySingleNaN.
From Verif Require Import Outcome Num NumFun F64 StdAlgo S_Interp1d L_Search L_Interp1d M_Grid S_Grid L_Grid L_GridSimplex S_Integ S_Err S_GShape L_Err
  L_F64 L_Linspace64 L_F64Err S_Angles S_Double S_Grid64 L_Series64 L_Interp64 L_Special64 L_Grid64 L_Apx L_Arange64 L_Ser64 S_Simplex64 L_Simplex64 L_GShape L_GShape2 L_GShape3 S_GErr64.
Import ListNotations.
Local Open Scope R_scope.

(** *** The exact table of a function *)
Fixpoint tab (gs : list (list R)) (F : list R -> R) : list R :=
  match gs with [] => [F []] | g :: gs' => concat (map (fun x => tab gs' (fun q => F (x :: q))) g) end.
Lemma concat_block {A} (d : A) n : forall (ls : list (list A)) i k, List.Forall (fun l => length l = n) ls -> (i < length ls)%nat -> (k < n)%nat ->
  nth (i * n + k) (concat ls) d = nth k (nth i ls []) d.
Proof.
  intros ls i k H. revert i. induction H as [|l ls Hl H IH]; intros i Hi Hk; simpl in *; [lia|]. destruct i as [|i].
  - rewrite app_nth1 by lia. reflexivity.
  - rewrite app_nth2 by (simpl; lia). replace (S i * n + k - length l)%nat with (i * n + k)%nat by (simpl; lia). apply IH; [lia|exact Hk].
Qed.
Lemma concat_len {A} n : forall (ls : list (list A)), List.Forall (fun l => length l = n) ls -> length (concat ls) = (length ls * n)%nat.
Proof. induction 1 as [|l ls Hl H IH]; simpl; [reflexivity|]. rewrite app_length. lia. Qed.
Lemma tab_length : forall gs F, length (tab gs F) = count (map (@length R) gs).
Proof.
  induction gs as [|g gs IH]; intros F; [reflexivity|]. cbn [tab map count]. rewrite (concat_len (count (map (@length R) gs))), map_length; [reflexivity|].
  apply Forall_forall. intros l Hl. apply in_map_iff in Hl as (x & <- & _). apply IH.
Qed.
Lemma pos_lt : forall dims idx, in_extents dims idx -> (pos dims idx < count dims)%nat.
Proof. induction 1 as [|? ? ? ? H1 H2 IH]; cbn [pos count]; [lia|]. nia. Qed.
Lemma tab_samples : forall gs F, samples gs (tab gs F) F.
Proof.
  induction gs as [|g gs IH]; intros F idx Hi; inversion Hi as [|? i ? is H1 H2]; subst; [reflexivity|].
  unfold element. cbn [map pos tab node_at map2].
  rewrite (concat_block 0 (count (map (@length R) gs))).
  - rewrite (nth_indep _ [] (tab gs (fun q => F (0 :: q)))) by (now rewrite map_length). rewrite (map_nth (fun x => tab gs (fun q => F (x :: q)))). apply (IH (fun q => F (nth i g 0 :: q)) is H2).
  - apply Forall_forall. intros l Hl. apply in_map_iff in Hl as (x & <- & _). apply tab_length.
  - now rewrite map_length.
  - now apply pos_lt.
Qed.

(** *** Perturbed data *)
Lemma simplex_data bm gs data data' p s s' delta : good_axes gs -> length p = length gs -> length data = count (map (@length R) gs) -> length data' = count (map (@length R) gs) -> sorts_axes s -> sorts_axes s' ->
  (forall idx, in_extents (map (@length R) gs) idx -> Rabs (element (map (@length R) gs) data idx - element (map (@length R) gs) data' idx) <= delta) ->
  forall v v', interp_simplex bm gs data p s = Ok v -> interp_simplex bm gs data' p s' = Ok v' -> Rabs (v - v') <= delta.
Proof.
  intros Hg Hp Hd Hd' Hs Hs' H v v' E E'. destruct (simplex_int bm gs data p s Hg Hp Hd Hs) as (w & Ew & I). destruct (simplex_int bm gs data' p s' Hg Hp Hd' Hs') as (w' & Ew' & I').
  rewrite E in Ew. injection Ew as <-. rewrite E' in Ew'. injection Ew' as <-.
  apply (int_abs _ (fun _ => delta) _ _ (is_RInt_minus (V := R_NormedModule) _ _ _ _ _ _ I I')).
  - eapply int_eq; [apply (is_RInt_const (V := R_NormedModule))|]. unfold scal; simpl. unfold mult; simpl. ring.
  - intros t _. apply H. now apply J_in.
Qed.

(** *** Perturbed local coordinates *)
Definition flips (t y y' : R) : R := Rabs (INR (bit t y) - INR (bit t y')).
Lemma flips_int y y' : 0 <= y <= 1 -> 0 <= y' <= 1 -> is_RInt (fun t => flips t y y') 0 1 (Rabs (y - y')).
Proof.
  assert (W : forall a b, 0 <= a -> a <= b -> b <= 1 -> is_RInt (fun t => flips t a b) 0 1 (b - a)).
  { intros a b Ha Hab Hb.
    assert (A : is_RInt (fun t => flips t a b) 0 b (b - a)).
    { eapply int_eq; [apply (int_two _ 0 b a 0 1); [lra| |]|lra]; intros t Ht; unfold flips, bit; repeat destruct Rlt_dec; try lra; simpl; [rewrite Rminus_diag_eq, Rabs_R0 by reflexivity; lra|].
      replace (0 - 1) with (- (1)) by ring. rewrite Rabs_Ropp, Rabs_R1. reflexivity. }
    assert (B : is_RInt (fun t => flips t a b) b 1 0).
    { eapply int_eq; [apply (int_two _ b 1 b 0 0); [lra| |]|lra]; intros t Ht; unfold flips, bit; repeat destruct Rlt_dec; try lra; simpl; rewrite Rminus_diag_eq, Rabs_R0 by reflexivity; lra. }
    eapply int_eq; [exact (is_RInt_Chasles (V := R_NormedModule) _ _ _ _ _ _ A B)|]. change plus with Rplus. simpl. ring. }
  intros H H'. destruct (Rle_dec y y').
  - eapply int_eq; [apply W; lra|]. rewrite Rabs_minus_sym, Rabs_pos_eq; lra.
  - rewrite Rabs_pos_eq by lra. apply (is_RInt_ext (fun t => flips t y' y)); [intros t _; unfold flips; apply Rabs_minus_sym|]. apply W; lra.
Qed.
Fixpoint allflips (ys ys' : list R) (t : R) : R := match ys, ys' with y :: l, y' :: l' => flips t y y' + allflips l l' t | _, _ => 0 end.
Lemma allflips_int e : forall ys ys', Forall2 (fun y y' => 0 <= y <= 1 /\ 0 <= y' <= 1 /\ Rabs (y - y') <= e) ys ys' ->
  exists w, is_RInt (allflips ys ys') 0 1 w /\ w <= INR (length ys) * e.
Proof.
  induction 1 as [|y y' ys ys' (A & B & C) H (w & IH1 & IH2)].
  - exists 0. split; [|simpl; lra]. eapply int_eq; [apply (is_RInt_const (V := R_NormedModule))|]. unfold scal; simpl. unfold mult; simpl. ring.
  - exists (Rabs (y - y') + w). split; [exact (is_RInt_plus (V := R_NormedModule) _ _ _ _ _ _ (flips_int y y' A B) IH1)|].
    change (length (y :: ys)) with (S (length ys)). rewrite S_INR. lra.
Qed.
Lemma allflips_pos t : forall ys ys', 0 <= allflips ys ys' t.
Proof. induction ys as [|y ys IH]; intros [|y' ys']; simpl; try lra. specialize (IH ys'). unfold flips. assert (X := Rabs_pos (INR (bit t y) - INR (bit t y'))). lra. Qed.
Lemma flips_cases t : forall ys ys', length ys = length ys' -> bits t ys = bits t ys' \/ 1 <= allflips ys ys' t.
Proof.
  induction ys as [|y ys IH]; intros [|y' ys'] L; try discriminate; [left; reflexivity|]. cbn [bits map allflips]. fold (bits t ys) (bits t ys').
  assert (P := allflips_pos t ys ys'). assert (Q := Rabs_pos (INR (bit t y) - INR (bit t y'))). unfold flips.
  destruct (IH ys' ltac:(simpl in L; lia)) as [->|H]; [|right; lra].
  unfold bit in *. repeat destruct Rlt_dec; simpl in *; try (left; reflexivity); right; [rewrite Rminus_0_r, Rabs_R1 in *; lra|].
  replace (0 - 1) with (- (1)) in * by ring. rewrite Rabs_Ropp, Rabs_R1 in *. lra.
Qed.
Lemma flips_walk D K ys ys' e n : length ys = n -> length ys' = n ->
  Forall2 (fun y y' => 0 <= y <= 1 /\ 0 <= y' <= 1 /\ Rabs (y - y') <= e) ys ys' -> 0 <= K ->
  (forall v, length v = n -> L_Simplex64.bits v -> Rabs (D v) <= K) ->
  forall v v', is_RInt (fun t => D (bits t ys)) 0 1 v -> is_RInt (fun t => D (bits t ys')) 0 1 v' -> Rabs (v - v') <= INR n * (2 * K * e).
Proof.
  intros L L' H HK HD v v' I I'. destruct (allflips_int e ys ys' H) as (w & Iw & Bw).
  assert (B : forall t l, length l = n -> Rabs (D (bits t l)) <= K).
  { intros t l Hl. apply HD; [unfold bits; now rewrite map_length|]. unfold L_Simplex64.bits, bits. apply Forall_forall. intros b Hb. apply in_map_iff in Hb as (y & <- & _). apply bit01. }
  apply Rle_trans with (2 * K * w).
  - apply (int_abs _ (fun t => 2 * K * allflips ys ys' t) _ _ (is_RInt_minus (V := R_NormedModule) _ _ _ _ _ _ I I')).
    + exact (is_RInt_scal (V := R_NormedModule) _ _ _ (2 * K) _ Iw).
    + intros t _. change (Rabs (D (bits t ys) - D (bits t ys')) <= 2 * K * allflips ys ys' t).
      destruct (flips_cases t ys ys' ltac:(lia)) as [->|C].
      * rewrite Rminus_diag_eq, Rabs_R0 by reflexivity. apply Rmult_le_pos; [lra|apply allflips_pos].
      * assert (X := B t ys L). assert (Y := B t ys' L'). apply Rle_trans with (2 * K * 1); [|apply Rmult_le_compat_l; lra].
        apply Rabs_le_between in X. apply Rabs_le_between in Y. apply Rabs_le. lra.
  - rewrite L in Bw. replace (INR n * (2 * K * e)) with (2 * K * (INR n * e)) by ring. apply Rmult_le_compat_l; lra.
Qed.

(** *** The point brought back to the box *)
Lemma jx_onto g x t : good_axis g -> 0 < t < 1 -> jx g (onto g x) t = jx g x t.
Proof.
  intros Hg Ht. pose proof (good_axis_length g Hg) as L. assert (Le : nth 0 g 0 <= nth (length g - 1) g 0) by (apply increasing_le; [apply Hg|lia]).
  unfold onto, first, final, clamp.
  destruct (jx_cases g x Hg) as [(A & _ & E)|[(A & _ & E)|(i & y & Hi & A & Ey & By & _ & E)]]; rewrite E.
  - rewrite Rmin_right, Rmax_left by lra.
    destruct (jx_cases g (nth 0 g 0) Hg) as [(C & _ & E')|[(C & _ & E')|(j & z & Hj & C & Ez & Bz & _ & E')]]; rewrite E'; [reflexivity| |].
    + destruct (Nat.eq_dec (length g - 1) 0) as [->|N]; [reflexivity|]. assert (nth 0 g 0 < nth (length g - 1) g 0) by (apply Hg; lia). lra.
    + destruct j as [|j].
      * rewrite Ez. replace ((nth 0 g 0 - nth 0 g 0) / (nth 1 g 0 - nth 0 g 0)) with 0 by (unfold Rdiv; ring). unfold bit. destruct Rlt_dec; [lra|reflexivity].
      * assert (nth 0 g 0 < nth (S j) g 0) by (apply Hg; lia). lra.
  - rewrite Rmin_left, Rmax_right by lra.
    destruct (jx_cases g (nth (length g - 1) g 0) Hg) as [(C & _ & E')|[(C & _ & E')|(j & z & Hj & C & Ez & Bz & _ & E')]]; rewrite E'; [lra|reflexivity|].
    assert (nth (S j) g 0 <= nth (length g - 1) g 0) by (apply increasing_le; [apply Hg|lia]). lra.
  - assert (nth 0 g 0 <= nth i g 0) by (apply increasing_le; [apply Hg|lia]). assert (nth (S i) g 0 <= nth (length g - 1) g 0) by (apply increasing_le; [apply Hg|lia]).
    rewrite Rmin_right, Rmax_right by lra. apply E.
Qed.
Lemma J_onto gs t : good_axes gs -> 0 < t < 1 -> forall p, length p = length gs -> J gs (clamp_point gs p) t = J gs p t.
Proof.
  intros Hg Ht. induction Hg as [|g gs Hg H IH]; intros [|x p] Hp; try discriminate; [reflexivity|]. unfold J, clamp_point in *. cbn [map2]. f_equal; [apply (jx_onto g x t Hg Ht)|apply IH; simpl in Hp; lia].
Qed.
Lemma simplex_onto bm gs data p s s' : good_axes gs -> length p = length gs -> length data = count (map (@length R) gs) -> sorts_axes s -> sorts_axes s' ->
  interp_simplex bm gs data (clamp_point gs p) s = interp_simplex bm gs data p s'.
Proof.
  intros Hg Hp Hd Hs Hs'. destruct (simplex_int bm gs data p s' Hg Hp Hd Hs') as (v & -> & I).
  destruct (simplex_int bm gs data (clamp_point gs p) s Hg (clamp_length gs p Hp) Hd Hs) as (w & -> & I'). f_equal.
  apply (is_RInt_ext _ (fun t => element (map (@length R) gs) data (J gs p t))) in I'.
  - rewrite <- (is_RInt_unique _ _ _ _ I). symmetry. now apply is_RInt_unique.
  - intros t Ht. rewrite Rmin_left, Rmax_right in Ht by lra. now rewrite (J_onto gs t Hg Ht p Hp).
Qed.

(** *** Simplex interpolation in double and in exact arithmetic *)
Lemma simplex_double_real : forall bm gs data p s s' K, good_axes64 gs -> (length gs <= 1000)%nat -> moderate_axes gs -> length p = length gs ->
  length data = count (map (@length f64) gs) -> all_finite data -> magnitude_le K data -> K <= 2 ^ 1000 -> sorts_axes64 s -> sorts_axes s' ->
  exists v w, interp_simplex bm gs data p s = Ok v /\ is_finite v = true /\ interp_simplex bm (map dvalues gs) (dvalues data) (map2 saturated gs p) s' = Ok w /\
    Rabs (dvalue v - w) <= INR (length gs) * (16 * uround * K + 2 * uflow).
Proof.
  intros bm gs data p s s' K G Hn W Hp Hl Fd Bd BK HS HS'. assert (Hne := data_ne gs data G Hl). apply span_dmax in W.
  assert (BK' : K <= bpow radix2 1000) by (rewrite <- big_pow; exact BK).
  destruct (axes_f gs p G W Hp) as (cys & cts & rs & M1 & M2 & Ef & Ec & Lr & Cl & A1 & A2).
  destruct (simplex_near bm gs data p s K cys (map snd cts) HS Hl Fd Bd Hne BK' Hn M1 Ec A1) as (v & Ev & Fv & Av).
  set (rg := map dvalues gs) in *. assert (GR : good_axes rg) by (apply good_axes_dvalues, G). assert (Lrg : length rg = length gs) by (unfold rg; apply map_length).
  assert (Hl' : length (dvalues data) = count (map (@length R) rg)) by (unfold rg; rewrite lengths_dvalues, dvalues_length; exact Hl).
  destruct (simplex_int bm rg (dvalues data) rs s' GR ltac:(congruence) Hl' HS') as (w & Ew & Iw).
  exists v, w. split; [exact Ev|]. split; [exact Fv|]. split; [rewrite <- Cl, (simplex_onto bm rg (dvalues data) rs s' s'); auto; congruence|].
  destruct (close_list _ _ Ec) as (Fy & Hy & Ly & Cy). set (ys := map snd cys) in *. assert (LY : length ys = length gs) by (unfold ys; rewrite map_length; symmetry; eapply Forall2_length; eauto).
  destruct (sort_props s ys HS Fy) as (Sin & SN & Sl). destruct (HS ys Fy) as (SP & Ss).
  set (D := nodeval gs data (map fst cys)) in *. set (ones := map (fun _ : list f64 => 1%nat) gs) in *.
  destruct (setup bm rg (dvalues data) rs GR) as (cts' & SS); [congruence|exact Hl'|].
  assert (cts' = cts) by (assert (X := ss_E _ _ _ _ _ SS); rewrite M2 in X; congruence). subst cts'.
  assert (HD : forall w, length w = length gs -> L_Simplex64.bits w -> Rabs (D w) <= K).
  { intros u Lu Bu. unfold D, nodeval, element. rewrite nth_dvalues. apply bounded_nth; auto. }
  assert (O1 := ones_length gs : length ones = length gs). assert (O2 := ones_bits gs : L_Simplex64.bits ones).
  assert (K0 : 0 <= K) by (assert (X := HD ones O1 O2); assert (Y := Rabs_pos (D ones)); lra).
  assert (I1 : is_RInt (fun t => D (bits t (dvalues ys))) 0 1 (D ones + walk D (dvalues ys) (s ys) ones)).
  { eapply int_eq; [apply (walk_int D (dvalues ys) (s ys) ones 0)|]; rewrite ?dvalues_length; auto.
    - congruence.
    - intros d Hd. apply Sin in Hd. split; [exact Hd|]. split; [apply ones_nth; lia|apply Hy].
    - intros d Hd Hn'. exfalso. apply Hn', Sin, Hd.
    - intros i j Hij. apply Ss. lia.
    - lra.
    - change (walk D (dvalues ys) (s ys) ones + (1 - 0) * D ones = D ones + walk D (dvalues ys) (s ys) ones). ring. }
  assert (I2 : is_RInt (fun t => D (bits t (map snd cts))) 0 1 w).
  { revert Iw. apply is_RInt_ext. intros t _. unfold D, nodeval. rewrite Ef. rewrite <- (node_indices_dvalues gs). fold rg.
    rewrite (J_indices rg rs cts t (ss_cf _ _ _ _ _ SS) ltac:(congruence)). unfold rg. rewrite lengths_dvalues. reflexivity. }
  assert (F : Rabs ((D ones + walk D (dvalues ys) (s ys) ones) - w) <= INR (length gs) * (2 * K * (4 * u53))).
  { apply (flips_walk D K (dvalues ys) (map snd cts) (4 * u53) (length gs)); auto.
    - now rewrite dvalues_length.
    - congruence.
    - clear - Ec. induction Ec as [|y t ys ts (_ & A & B & C) H IH]; constructor; auto. }
  rewrite uround_u53, uflow_eta. unfold dvalue.
  replace (val v - w) with ((val v - (D ones + walk D (dvalues ys) (s ys) ones)) + ((D ones + walk D (dvalues ys) (s ys) ones) - w)) by ring.
  apply Rle_trans with (1 := Rabs_triang _ _). lra.
Qed.

(** *** Sampled functions, simplex interpolation *)
Lemma simplex_double_gen : forall bm gs data p s F K delta E, good_axes64 gs -> (length gs <= 1000)%nat -> moderate_axes gs -> length p = length gs ->
  length data = count (map (@length f64) gs) -> all_finite data -> magnitude_le K data -> K <= 2 ^ 1000 -> sorts_axes64 s -> near_table delta gs data F ->
  (forall rs, length rs = length gs -> clamp_point (map dvalues gs) rs = map2 saturated gs p ->
    exists w, interp_simplex bm (map dvalues gs) (tab (map dvalues gs) F) rs isort = Ok w /\ Rabs (w - F (clamp_point (map dvalues gs) rs)) <= E) ->
  exists v, interp_simplex bm gs data p s = Ok v /\ is_finite v = true /\
    Rabs (dvalue v - F (map2 saturated gs p)) <= E + delta + INR (length gs) * (16 * uround * K + 2 * uflow).
Proof.
  intros bm gs data p s F K delta E G Hn W Hp Hl Fd Bd BK HS HF HE.
  destruct (simplex_double_real bm gs data p s isort K G Hn W Hp Hl Fd Bd BK HS isort_sorts) as (v & w & Ev & Fv & Ew & B). exists v. split; [exact Ev|]. split; [exact Fv|].
  destruct (axes_f gs p G (span_dmax _ W) Hp) as (_ & _ & rs & _ & _ & _ & _ & Lr & Cl & _ & _).
  destruct (HE rs Lr Cl) as (w' & Ew' & B'). rewrite Cl in B'.
  set (rg := map dvalues gs) in *. assert (GR : good_axes rg) by (apply good_axes_dvalues, G). assert (Lrg : length rg = length gs) by (unfold rg; apply map_length).
  assert (Hl' : length (dvalues data) = count (map (@length R) rg)) by (unfold rg; rewrite lengths_dvalues, dvalues_length; exact Hl).
  rewrite <- Cl, (simplex_onto bm rg (dvalues data) rs isort isort GR ltac:(congruence) Hl' isort_sorts isort_sorts) in Ew.
  assert (C : Rabs (w - w') <= delta).
  { apply (simplex_data bm rg (dvalues data) (tab rg F) rs isort isort delta GR ltac:(congruence) Hl' (tab_length rg F) isort_sorts isort_sorts); auto.
    intros idx Hi. rewrite (tab_samples rg F idx Hi). assert (LD := lengths_dvalues gs). fold rg in LD. rewrite LD in *. apply HF, Hi. }
  replace (dvalue v - F (map2 saturated gs p)) with ((dvalue v - w) + ((w - w') + (w' - F (map2 saturated gs p)))) by ring.
  apply Rle_trans with (1 := Rabs_triang _ _). assert (X := Rabs_triang (w - w') (w' - F (map2 saturated gs p))). lra.
Qed.
Lemma simplex_double_error : forall bm gs data p s F Ms hs K delta, good_axes64 gs -> (length gs <= 1000)%nat -> moderate_axes gs -> length p = length gs ->
  length data = count (map (@length f64) gs) -> all_finite data -> magnitude_le K data -> K <= 2 ^ 1000 -> sorts_axes64 s -> near_table delta gs data F ->
  length Ms = length gs -> spacings hs (map dvalues gs) -> List.Forall (fun M => 0 <= M) Ms -> List.Forall (fun h => 0 <= h) hs -> osculates (map dvalues gs) Ms F (map2 saturated gs p) ->
  exists v, interp_simplex bm gs data p s = Ok v /\ is_finite v = true /\
    Rabs (dvalue v - F (map2 saturated gs p)) <= total (fun M h => M * h ^ 2 / 8) Ms hs + delta + INR (length gs) * (16 * uround * K + 2 * uflow).
Proof.
  intros bm gs data p s F Ms hs K delta G Hn W Hp Hl Fd Bd BK HS HF LM Hh PM Ph HO. apply simplex_double_gen; auto. intros rs Lr Cl.
  apply simplex_error; rewrite ?map_length; auto using good_axes_dvalues, tab_length, tab_samples, isort_sorts. rewrite Cl. exact HO.
Qed.
Lemma simplex_double_error_lip : forall bm gs data p s F Ks hs K delta, good_axes64 gs -> (length gs <= 1000)%nat -> moderate_axes gs -> length p = length gs ->
  length data = count (map (@length f64) gs) -> all_finite data -> magnitude_le K data -> K <= 2 ^ 1000 -> sorts_axes64 s -> near_table delta gs data F ->
  length Ks = length gs -> spacings hs (map dvalues gs) -> List.Forall (fun M => 0 <= M) Ks -> List.Forall (fun h => 0 <= h) hs -> along_axes sloped (map dvalues gs) Ks F ->
  exists v, interp_simplex bm gs data p s = Ok v /\ is_finite v = true /\
    Rabs (dvalue v - F (map2 saturated gs p)) <= total (fun K h => K * h / 2) Ks hs + delta + INR (length gs) * (16 * uround * K + 2 * uflow).
Proof.
  intros bm gs data p s F Ms hs K delta G Hn W Hp Hl Fd Bd BK HS HF LM Hh PM Ph HO. apply simplex_double_gen; auto. intros rs Lr Cl.
  apply simplex_error_lip; rewrite ?map_length; auto using good_axes_dvalues, tab_length, tab_samples, isort_sorts.
Qed.
Lemma simplex_double_sorts : forall bm gs data p s s' K, good_axes64 gs -> (length gs <= 1000)%nat -> moderate_axes gs -> length p = length gs ->
  length data = count (map (@length f64) gs) -> all_finite data -> magnitude_le K data -> K <= 2 ^ 1000 -> sorts_axes64 s -> sorts_axes64 s' ->
  exists v v', interp_simplex bm gs data p s = Ok v /\ interp_simplex bm gs data p s' = Ok v' /\ is_finite v = true /\ is_finite v' = true /\
    Rabs (dvalue v - dvalue v') <= INR (length gs) * (32 * uround * K + 4 * uflow).
Proof.
  intros bm gs data p s s' K G Hn W Hp Hl Fd Bd BK HS HS'.
  destruct (simplex_double_real bm gs data p s isort K G Hn W Hp Hl Fd Bd BK HS isort_sorts) as (v & w & Ev & Fv & Ew & B).
  destruct (simplex_double_real bm gs data p s' isort K G Hn W Hp Hl Fd Bd BK HS' isort_sorts) as (v' & w' & Ev' & Fv' & Ew' & B').
  exists v, v'. repeat (split; [assumption|]). rewrite Ew in Ew'. injection Ew' as <-. apply Rabs_le_inv in B, B'. apply Rabs_le. lra.
Qed.

(** *** Sampled functions, multilinear interpolation *)
Lemma grid_double_gen : forall bm gs a F K delta E, good_axes64 gs -> (length gs <= 1000)%nat -> moderate_axes gs ->
  length (nd_flat a) = count (map (@length f64) gs) -> all_finite (nd_flat a) -> magnitude_le K (nd_flat a) -> K <= 2 ^ 1000 -> near_table delta gs (nd_flat a) F ->
  (forall rs, length rs = length gs -> exists o w, rgi_make (map dvalues gs) (mkND [] (tab (map dvalues gs) F)) = Ok o /\ rgi_interp bm o rs false = Ok w /\ Rabs (w - F (clamp_point (map dvalues gs) rs)) <= E) ->
  exists o, rgi_make gs a = Ok o /\ forall p, length p = length gs -> exists v, rgi_interp bm o p false = Ok v /\ is_finite v = true /\
    Rabs (dvalue v - F (map2 saturated gs p)) <= E + delta + INR (length gs) * (14 * uround * K + 2 * uflow).
Proof.
  intros bm gs a F K delta E G Hn W Hl Fd Bd BK HF HE. eexists. split; [apply make_f; auto|]. intros p Hp.
  assert (BK' : K <= bpow radix2 1000) by (rewrite <- big_pow; exact BK).
  destruct (interp_f bm gs (nd_flat a) p K G (span_dmax _ W) Hp Hl Fd Bd BK' Hn) as (v & Ev & Fv & B).
  exists v. split; [unfold rgi_interp; simpl; exact Ev|]. split; [exact Fv|].
  destruct (axes_f gs p G (span_dmax _ W) Hp) as (_ & _ & rs & _ & _ & _ & _ & Lr & Cl & _ & _).
  destruct (HE rs Lr) as (o & w & Eo & Ew & B').
  set (rg := map dvalues gs) in *. assert (GR : good_axes rg) by (apply good_axes_dvalues, G). assert (Lrg : length rg = length gs) by (unfold rg; apply map_length).
  assert (LD := lengths_dvalues gs). fold rg in LD.
  rewrite rgi_make_ok in Eo by (auto; apply tab_length). injection Eo as <-. rewrite interp_live in Ew by (first [assumption|congruence|apply tab_length]). injection Ew as <-. cbn [nd_flat] in B'.
  rewrite <- Cl, (nest_clamp rg rs _ GR ltac:(congruence)) in B. rewrite <- LD in B.
  assert (C := nest_range rg GR rs (element (map (@length R) rg) (tab rg F)) (element (map (@length R) rg) (dvalues (nd_flat a))) (- delta) delta ltac:(congruence)).
  specialize (C ltac:(intros idx Hi; rewrite (tab_samples rg F idx Hi); rewrite LD in *; apply Rabs_le_inv, HF, Hi)).
  rewrite Cl in B'. rewrite uround_u53, uflow_eta. unfold dvalue. apply Rabs_le_inv in B, B'. apply Rabs_le. lra.
Qed.
Lemma grid_double_error : forall bm gs a F Ms hs K delta, good_axes64 gs -> (length gs <= 1000)%nat -> moderate_axes gs ->
  length (nd_flat a) = count (map (@length f64) gs) -> all_finite (nd_flat a) -> magnitude_le K (nd_flat a) -> K <= 2 ^ 1000 -> near_table delta gs (nd_flat a) F ->
  length Ms = length gs -> spacings hs (map dvalues gs) -> along_axes curved (map dvalues gs) Ms F ->
  exists o, rgi_make gs a = Ok o /\ forall p, length p = length gs -> exists v, rgi_interp bm o p false = Ok v /\ is_finite v = true /\
    Rabs (dvalue v - F (map2 saturated gs p)) <= total (fun M h => M * h ^ 2 / 8) Ms hs + delta + INR (length gs) * (14 * uround * K + 2 * uflow).
Proof.
  intros bm gs a F Ms hs K delta G Hn W Hl Fd Bd BK HF LM Hh HA. apply grid_double_gen; auto. intros rs Lr.
  apply grid_error; rewrite ?map_length; auto using good_axes_dvalues; [apply tab_length|apply tab_samples].
Qed.
Lemma grid_double_error_lip : forall bm gs a F Ks hs K delta, good_axes64 gs -> (length gs <= 1000)%nat -> moderate_axes gs ->
  length (nd_flat a) = count (map (@length f64) gs) -> all_finite (nd_flat a) -> magnitude_le K (nd_flat a) -> K <= 2 ^ 1000 -> near_table delta gs (nd_flat a) F ->
  length Ks = length gs -> spacings hs (map dvalues gs) -> List.Forall (fun K => 0 <= K) Ks -> List.Forall (fun h => 0 <= h) hs -> along_axes sloped (map dvalues gs) Ks F ->
  exists o, rgi_make gs a = Ok o /\ forall p, length p = length gs -> exists v, rgi_interp bm o p false = Ok v /\ is_finite v = true /\
    Rabs (dvalue v - F (map2 saturated gs p)) <= total (fun K h => K * h / 2) Ks hs + delta + INR (length gs) * (14 * uround * K + 2 * uflow).
Proof.
  intros bm gs a F Ks hs K delta G Hn W Hl Fd Bd BK HF LM Hh PK Ph HA. apply grid_double_gen; auto. intros rs Lr.
  apply grid_error_lip; rewrite ?map_length; auto using good_axes_dvalues; [apply tab_length|apply tab_samples].
Qed.
