(** Integrals and convolutions of sampled functions. *)
From Coq Require Import List Arith ZArith Reals Lra Lia Bool.
From Coquelicot Require Import Coquelicot.
From Flocq Require Import Core.Core IEEE754.BinarySingleNaN.
From Verif Require Import Outcome Num NumFun F64 M_Basics M_Integ S_Series L_Series S_Integ L_Integ L_Integ2 S_Angles S_Basics S_Double S_Trapz64 L_Trapz64 S_Sampled64 L_Sampled64 S_Quad.
Import ListNotations.
Local Open Scope R_scope.

Lemma areas_near delta F h : forall xs ys, length ys = length xs -> (0 < length xs)%nat -> steps h xs -> near_samples delta F xs ys ->
  Rabs (areas xs ys - areas xs (map F xs)) <= delta * (last xs 0 - hd 0 xs).
Proof.
  induction xs as [|x0 xs IH]; intros ys L P H N; [cbn in P; lia|]. destruct ys as [|y0 ys]; [discriminate|].
  destruct xs as [|x1 xs]; [destruct ys as [|y1 ys]; [|discriminate]; cbn; replace (0 - 0) with 0 by ring; rewrite Rabs_R0; lra|].
  destruct ys as [|y1 ys]; [discriminate|]. destruct H as [H0 H].
  change (map F (x0 :: x1 :: xs)) with (F x0 :: F x1 :: map F xs). rewrite !areas_cons. change (F x1 :: map F xs) with (map F (x1 :: xs)).
  change (last (x0 :: x1 :: xs) 0) with (last (x1 :: xs) 0). cbn [hd].
  assert (I := IH (y1 :: ys) ltac:(cbn in *; lia) ltac:(cbn; lia) H (fun i Hi => N (S i) ltac:(cbn in *; lia))). cbn [hd] in I.
  assert (A := N 0%nat ltac:(cbn; lia)). assert (B := N 1%nat ltac:(cbn; lia)). cbn [nth] in A, B.
  apply Rabs_le_between in I. apply Rabs_le_between in A. apply Rabs_le_between in B. apply Rabs_le.
  set (e := last (x1 :: xs) 0) in *. set (p := areas (x1 :: xs) (y1 :: ys)) in *. set (q := areas (x1 :: xs) (map F (x1 :: xs))) in *. clearbody e p q.
  assert (0 <= x1 - x0) by lra. set (d := x1 - x0) in *. replace (e - x0) with (d + (e - x1)) by (unfold d; ring). clearbody d. split; nra.
Qed.
Lemma areas_abs_le Y h : forall xs ys, length ys = length xs -> (0 < length xs)%nat -> steps h xs -> (forall i, (i < length xs)%nat -> Rabs (nth i ys 0) <= Y) ->
  areas_abs xs ys <= Y * (last xs 0 - hd 0 xs).
Proof.
  induction xs as [|x0 xs IH]; intros ys L P H N; [cbn in P; lia|]. destruct ys as [|y0 ys]; [discriminate|].
  destruct xs as [|x1 xs]; [destruct ys as [|y1 ys]; [|discriminate]; cbn; lra|].
  destruct ys as [|y1 ys]; [discriminate|]. destruct H as [H0 H].
  change (areas_abs (x0 :: x1 :: xs) (y0 :: y1 :: ys)) with (Rabs (x1 - x0) * (Rabs y0 + Rabs y1) / 2 + areas_abs (x1 :: xs) (y1 :: ys)).
  change (last (x0 :: x1 :: xs) 0) with (last (x1 :: xs) 0). cbn [hd].
  assert (I := IH (y1 :: ys) ltac:(cbn in *; lia) ltac:(cbn; lia) H (fun i Hi => N (S i) ltac:(cbn in *; lia))). cbn [hd] in I.
  assert (A := N 0%nat ltac:(cbn; lia)). assert (B := N 1%nat ltac:(cbn; lia)). cbn [nth] in A, B.
  rewrite (Rabs_pos_eq (x1 - x0)) by lra. set (e := last (x1 :: xs) 0) in *. set (p := areas_abs (x1 :: xs) (y1 :: ys)) in *. clearbody e p.
  assert (0 <= x1 - x0) by lra. set (d := x1 - x0) in *. replace (e - x0) with (d + (e - x1)) by (unfold d; ring). clearbody d. nra.
Qed.
(** The area of samples of [F] against its integral. *)
Lemma areas_integral F F1 F2 M h delta xs ys : length ys = length xs -> (0 < length xs)%nat -> steps h xs -> near_samples delta F xs ys ->
  twice_derivable F F1 F2 (hd 0 xs) (last xs 0) M ->
  Rabs (areas xs ys - RInt F (hd 0 xs) (last xs 0)) <= trapz_err M h (last xs 0 - hd 0 xs) + delta * (last xs 0 - hd 0 xs).
Proof.
  intros L P H N D. assert (A := areas_near delta F h xs ys L P H N). assert (B := error_lemma F F1 F2 M h xs P H D).
  unfold trapz_err. apply Rabs_le_between in A. apply Rabs_le_between in B. apply Rabs_le. split; lra.
Qed.

(** *** Regular grids *)
Lemma steps_map h a : forall n s, 0 <= h -> steps h (map (fun i => a + INR i * h) (seq s n)).
Proof.
  induction n as [|n IH]; intros s Hh; cbn [seq map]; [exact I|]. specialize (IH (S s) Hh). destruct n as [|n]; [exact I|].
  cbn [seq map] in *. split; [|exact IH]. rewrite S_INR. lra.
Qed.
Lemma grid_steps a h n : 0 <= h -> steps h (grid a h n).
Proof. apply steps_map. Qed.
Lemma grid_hd a h n : (0 < n)%nat -> hd 0 (grid a h n) = a.
Proof. destruct n; [lia|]. intros _. unfold grid. cbn [seq map hd]. simpl. ring. Qed.
Lemma last_nth_pred (l : list R) : last l 0 = nth (length l - 1) l 0.
Proof.
  induction l as [|x l IH]; [reflexivity|]. destruct l as [|y l]; [reflexivity|].
  change (last (x :: y :: l) 0) with (last (y :: l) 0). rewrite IH. cbn [length]. replace (S (S (length l)) - 1)%nat with (S (length l)) by lia.
  replace (S (length l) - 1)%nat with (length l) by lia. reflexivity.
Qed.
Lemma grid_last a h n : (0 < n)%nat -> last (grid a h n) 0 = a + INR (n - 1) * h.
Proof. intros H. rewrite last_nth_pred, grid_length. apply map_grid. lia. Qed.

(** *** Convolution *)
Lemma twice_mul f f1 f2 g g1 g2 a b B0 B1 B2 C0 C1 C2 : a <= b ->
  twice_derivable f f1 f2 a b B2 -> (forall x, a <= x <= b -> Rabs (f x) <= B0 /\ Rabs (f1 x) <= B1) ->
  twice_derivable g g1 g2 a b C2 -> (forall x, a <= x <= b -> Rabs (g x) <= C0 /\ Rabs (g1 x) <= C1) ->
  twice_derivable (fun x => f x * g x) (fun x => f1 x * g x + f x * g1 x) (fun x => f2 x * g x + 2 * (f1 x * g1 x) + f x * g2 x) a b (B0 * C2 + 2 * (B1 * C1) + B2 * C0).
Proof.
  intros L (F1 & F2 & F3) FB (G1 & G2 & G3) GB. split; [|split]; intros x Hx.
  - apply (derivable_pt_lim_mult f g); auto.
  - apply deriv_eq with ((f2 x * g x + f1 x * g1 x) + (f1 x * g1 x + f x * g2 x)); [ring|].
    apply (derivable_pt_lim_plus (fun x => f1 x * g x) (fun x => f x * g1 x)).
    + apply (derivable_pt_lim_mult f1 g); auto.
    + apply (derivable_pt_lim_mult f g1); auto.
  - destruct (FB x Hx) as [A0 A1]. destruct (GB x Hx) as [D0 D1]. assert (A2 := F3 x Hx). assert (D2 := G3 x Hx).
    assert (P : forall u v U V, Rabs u <= U -> Rabs v <= V -> Rabs (u * v) <= U * V).
    { intros. rewrite Rabs_mult. apply Rmult_le_compat; try apply Rabs_pos; assumption. }
    assert (X := P _ _ _ _ A2 D0). assert (Y := P _ _ _ _ A1 D1). assert (Z := P _ _ _ _ A0 D2).
    apply Rabs_le_between in X. apply Rabs_le_between in Y. apply Rabs_le_between in Z. apply Rabs_le. split; lra.
Qed.
Lemma twice_mirror g g1 g2 T C2 : twice_derivable g g1 g2 0 T C2 -> twice_derivable (fun t => g (T - t)) (fun t => - g1 (T - t)) (fun t => g2 (T - t)) 0 T C2.
Proof.
  intros (G1 & G2 & G3).
  assert (Dm : forall t, derivable_pt_lim (fun t => T - t) t (-1)).
  { intros t. apply deriv_eq with (0 - 1); [ring|]. apply (derivable_pt_lim_minus (fct_cte T) id); [apply derivable_pt_lim_const|apply derivable_pt_lim_id]. }
  split; [|split]; intros x Hx.
  - apply deriv_eq with (g1 (T - x) * -1); [ring|]. apply (derivable_pt_lim_comp (fun t => T - t) g); [apply Dm|apply G1; lra].
  - apply deriv_eq with (- (g2 (T - x) * -1)); [ring|]. apply (derivable_pt_lim_opp (fun t => g1 (T - t))).
    apply (derivable_pt_lim_comp (fun t => T - t) g1); [apply Dm|apply G2; lra].
  - apply G3. lra.
Qed.
(** The signal as the convolution sees it. *)
Definition seen (S : R -> R) (T : R) (straight : bool) (t : R) : R := S (if straight then t else T - t).
Lemma product_smooth K S T B0 B1 B2 C0 C1 C2 straight : 0 <= T -> bounded2 K 0 T B0 B1 B2 -> bounded2 S 0 T C0 C1 C2 ->
  exists f1 f2, twice_derivable (fun t => K t * seen S T straight t) f1 f2 0 T (B0 * C2 + 2 * (B1 * C1) + B2 * C0).
Proof.
  intros HT (f1 & f2 & F & FB) (g1 & g2 & G & GB). unfold seen. destruct straight.
  - exists (fun x => f1 x * S x + K x * g1 x), (fun x => f2 x * S x + 2 * (f1 x * g1 x) + K x * g2 x). now apply twice_mul.
  - exists (fun x => f1 x * S (T - x) + K x * - g1 (T - x)), (fun x => f2 x * S (T - x) + 2 * (f1 x * - g1 (T - x)) + K x * g2 (T - x)).
    apply (twice_mul K f1 f2 (fun t => S (T - t)) (fun t => - g1 (T - t)) (fun t => g2 (T - t))); auto; [now apply twice_mirror|].
    intros x Hx. rewrite Rabs_Ropp. apply GB. lra.
Qed.
Lemma lagged_length k s b : length (lagged k s b) = length k.
Proof. unfold lagged. now rewrite map_length, seq_length. Qed.
Lemma lagged_nth k s b i : (i < length k)%nat -> nth i (lagged k s b) 0 = nth i k 0 * nth (if b then i else length k - 1 - i) s 0.
Proof.
  intros H. unfold lagged. set (F := fun i => nth i k 0 * nth (if b then i else length k - 1 - i) s 0).
  rewrite (nth_indep _ 0 (F 0%nat)) by (now rewrite map_length, seq_length). rewrite (map_nth F), seq_nth by exact H. reflexivity.
Qed.
Lemma conv_areas bm k s dt b : (2 <= length k)%nat -> (length k <= length s)%nat ->
  naive_convolution bm k s dt b = Ok (areas (grid 0 dt (length k)) (lagged k s b)).
Proof.
  intros H1 H2. destruct (conv_value bm k s dt H1 H2) as [A B]. replace (grid 0 dt (length k)) with (grid 0 dt (length (lagged k s b))) by (now rewrite lagged_length). rewrite areas_grid, lagged_length.
  destruct b; [rewrite A|rewrite B]; do 2 f_equal; apply bsum_ext; intros i Hi; rewrite !lagged_nth by lia; reflexivity.
Qed.
Lemma near_product dk ds K S T B0 C0 (k s : list R) h b : (0 < length k)%nat -> 0 <= h -> T = INR (length k - 1) * h ->
  (forall t, 0 <= t <= T -> Rabs (K t) <= B0) -> (forall t, 0 <= t <= T -> Rabs (S t) <= C0) ->
  let g := grid 0 h (length k) in near_samples dk K g k -> near_samples ds S g s ->
  near_samples (dk * C0 + B0 * ds + dk * ds) (fun t => K t * seen S T b t) g (lagged k s b) /\
  (forall i, (i < length g)%nat -> Rabs (nth i (lagged k s b) 0) <= (B0 + dk) * (C0 + ds)).
Proof.
  intros L Hh HT HK HS g Nk Ns.
  assert (Q : forall i, (i < length k)%nat -> 0 <= INR i * h <= T /\ T - INR i * h = INR (length k - 1 - i) * h).
  { intros i Hi. subst T. rewrite (minus_INR (length k - 1) i) by lia. assert (INR i <= INR (length k - 1)) by (apply le_INR; lia). pose proof (pos_INR i). split; [split; nra|ring]. }
  assert (X : forall i, (i < length k)%nat -> exists x y u v, nth i (lagged k s b) 0 = x * y /\ K (nth i g 0) * seen S T b (nth i g 0) = u * v /\ Rabs (x - u) <= dk /\ Rabs (y - v) <= ds /\ Rabs u <= B0 /\ Rabs v <= C0).
  { intros i Hi. rewrite lagged_nth by exact Hi. unfold g. rewrite map_grid by exact Hi. rewrite Rplus_0_l.
    destruct (Q i Hi) as [Q1 Q2]. set (j := if b then i else (length k - 1 - i)%nat).
    assert (Hj : (j < length k)%nat) by (unfold j; destruct b; lia). destruct (Q j Hj) as [Q3 _].
    assert (E : seen S T b (INR i * h) = S (INR j * h)) by (unfold seen, j; destruct b; [reflexivity|now rewrite Q2]).
    rewrite E. exists (nth i k 0), (nth j s 0), (K (INR i * h)), (S (INR j * h)).
    assert (A := Nk i ltac:(unfold g; now rewrite grid_length)). assert (B := Ns j ltac:(unfold g; now rewrite grid_length)).
    unfold g in A, B. rewrite map_grid, Rplus_0_l in A by exact Hi. rewrite map_grid, Rplus_0_l in B by exact Hj. repeat split; auto. }
  split; intros i Hi; unfold g in Hi; rewrite grid_length in Hi; destruct (X i Hi) as (x & y & u & v & E1 & E2 & A & B & C & D).
  - rewrite E1, E2. replace (x * y - u * v) with ((x - u) * v + u * (y - v) + (x - u) * (y - v)) by ring.
    apply Rle_trans with (1 := Rabs_triang _ _). apply Rplus_le_compat; [apply Rle_trans with (1 := Rabs_triang _ _); apply Rplus_le_compat|];
      rewrite Rabs_mult; apply Rmult_le_compat; try apply Rabs_pos; assumption.
  - rewrite E1, Rabs_mult. apply Rmult_le_compat; try apply Rabs_pos.
    + replace x with (u + (x - u)) by ring. apply Rle_trans with (1 := Rabs_triang _ _). lra.
    + replace y with (v + (y - v)) by ring. apply Rle_trans with (1 := Rabs_triang _ _). lra.
Qed.

(** *** Statements *)
Lemma conv_error : forall bm K S (k s : list R) h B0 B1 B2 C0 C1 C2 dk ds straight, (2 <= length k)%nat -> (length k <= length s)%nat -> 0 <= h ->
  let g := grid 0 h (length k) in let T := INR (length k - 1) * h in
  near_samples dk K g k -> near_samples ds S g s -> bounded2 K 0 T B0 B1 B2 -> bounded2 S 0 T C0 C1 C2 ->
  exists v, naive_convolution bm k s h straight = Ok v /\
    Rabs (v - RInt (fun t => K t * S (if straight then t else T - t)) 0 T) <=
      trapz_err (B0 * C2 + 2 * (B1 * C1) + B2 * C0) h T + (dk * C0 + B0 * ds + dk * ds) * T.
Proof.
  intros bm K S k s h B0 B1 B2 C0 C1 C2 dk ds b L1 L2 Hh g T Nk Ns HK HS. rewrite conv_areas by assumption. eexists. split; [reflexivity|].
  assert (T0 : 0 <= T) by (apply Rmult_le_pos; [apply pos_INR|exact Hh]).
  destruct (product_smooth K S T B0 B1 B2 C0 C1 C2 b T0 HK HS) as (f1 & f2 & D).
  destruct HK as (k1 & k2 & _ & KB). destruct HS as (s1 & s2 & _ & SB).
  destruct (near_product dk ds K S T B0 C0 k s h b ltac:(lia) Hh eq_refl (fun t Ht => proj1 (KB t Ht)) (fun t Ht => proj1 (SB t Ht)) Nk Ns) as [N _].
  assert (Eh : hd 0 g = 0) by (apply grid_hd; lia). assert (El : last g 0 = T) by (unfold g, T; rewrite grid_last by lia; ring).
  assert (I := areas_integral (fun t => K t * seen S T b t) f1 f2 (B0 * C2 + 2 * (B1 * C1) + B2 * C0) h _ g (lagged k s b) ltac:(unfold g; now rewrite lagged_length, grid_length) ltac:(unfold g; rewrite grid_length; lia) (grid_steps 0 h _ Hh) N).
  rewrite Eh, El, Rminus_0_r in I. exact (I D).
Qed.

(** In double. *)
Lemma dvalues_nth_bound Y l i : ordinary Y l -> (i < length l)%nat -> Rabs (nth i (dvalues l) 0) <= Y.
Proof.
  intros H Hi. change 0 with (dvalue (B754_zero false : f64)). unfold dvalues. rewrite map_nth.
  destruct (proj1 (Forall_forall _ _) H (nth i l (B754_zero false)) (nth_In _ _ Hi)) as [_ B]. exact B.
Qed.
Lemma ordinary_le Y Z l : Y <= Z -> ordinary Y l -> ordinary Z l.
Proof. intros H. apply Forall_impl. intros x [A B]. split; [exact A|lra]. Qed.
Lemma uround_pos' : 0 <= uround.
Proof. unfold uround. apply Rlt_le, Rinv_0_lt_compat. apply pow_lt. lra. Qed.

Lemma trapz_xy_int : forall bm (x y : list f64) F F1 F2 M h delta Y, (2 <= length y)%nat -> (Z.of_nat (length y) <= 2 ^ 43)%Z -> length x = length y ->
  ordinary (2 ^ 400) x -> ordinary Y y -> Y <= 2 ^ 400 -> steps h (dvalues x) -> near_samples delta F (dvalues x) (dvalues y) ->
  let a := hd 0 (dvalues x) in let b := last (dvalues x) 0 in twice_derivable F F1 F2 a b M ->
  exists v, trapz_xy bm x y = Ok v /\ is_finite v = true /\
    Rabs (dvalue v - RInt F a b) <= trapz_err M h (b - a) + delta * (b - a) + 2 * (INR (length y) + 2) * uround * (Y * (b - a)) + (INR (length y) + 2) * uflow.
Proof.
  intros bm x y F F1 F2 M h delta Y L L43 Le Ox Oy HY Hs N a b D.
  destruct (trapz_xy_double_lemma bm x y L L43 Le Ox (ordinary_le _ _ _ HY Oy)) as (v & E & Fv & B). exists v. split; [exact E|]. split; [exact Fv|].
  assert (Lx : length (dvalues y) = length (dvalues x)) by (unfold dvalues; now rewrite !map_length).
  assert (Px : (0 < length (dvalues x))%nat) by (unfold dvalues; rewrite map_length; lia).
  assert (I := areas_integral F F1 F2 M h delta _ _ Lx Px Hs N D).
  assert (A : areas_abs (dvalues x) (dvalues y) <= Y * (b - a)).
  { apply (areas_abs_le Y h); auto. intros i Hi. apply dvalues_nth_bound; [exact Oy|]. unfold dvalues in Hi. rewrite map_length in Hi. lia. }
  assert (0 <= 2 * (INR (length y) + 2) * uround) by (apply Rmult_le_pos; [pose proof (pos_INR (length y)); lra|apply uround_pos']).
  fold a b in I. assert (C := Rmult_le_compat_l _ _ _ H A). apply Rabs_le_between in B. apply Rabs_le_between in I. apply Rabs_le. split; lra.
Qed.
Lemma trapz_uniform_int : forall (y : list f64) (dx : f64) F F1 F2 M delta Y, (2 <= length y)%nat -> (Z.of_nat (length y) <= 2 ^ 43)%Z ->
  ordinary Y y -> Y <= 2 ^ 400 -> ordinary (2 ^ 400) [dx] -> 0 <= dvalue dx ->
  let h := dvalue dx in let L := INR (length y - 1) * h in near_samples delta F (grid 0 h (length y)) (dvalues y) -> twice_derivable F F1 F2 0 L M ->
  exists v, trapz_uniform y dx = Ok v /\ is_finite v = true /\
    Rabs (dvalue v - RInt F 0 L) <= trapz_err M h L + delta * L + 2 * (INR (length y) + 1) * uround * (Y * L) + 2 * uflow * (h + 1).
Proof.
  intros y dx F F1 F2 M delta Y L L43 Oy HY Od Hd h T N D.
  destruct (trapz_uniform_double_lemma y dx L L43 (ordinary_le _ _ _ HY Oy) Od) as (v & E & Fv & B). exists v. split; [exact E|]. split; [exact Fv|].
  fold h in B. rewrite (Rabs_pos_eq h) in B by exact Hd. set (g := grid 0 h (length y)) in *.
  assert (Lx : length (dvalues y) = length g) by (unfold dvalues, g; now rewrite map_length, grid_length).
  assert (Px : (0 < length g)%nat) by (unfold g; rewrite grid_length; lia).
  assert (Hs : steps h g) by (apply grid_steps; exact Hd).
  assert (Eh : hd 0 g = 0) by (apply grid_hd; lia). assert (El : last g 0 = T) by (unfold g, T; rewrite grid_last by lia; ring).
  assert (I := areas_integral F F1 F2 M h delta g _ Lx Px Hs N). rewrite Eh, El, Rminus_0_r in I. specialize (I D).
  assert (A : areas_abs g (dvalues y) <= Y * T).
  { replace T with (last g 0 - hd 0 g) by (rewrite El, Eh; ring). apply (areas_abs_le Y h); auto. intros i Hi. apply dvalues_nth_bound; [exact Oy|]. unfold g in Hi. now rewrite grid_length in Hi. }
  assert (0 <= 2 * (INR (length y) + 1) * uround) by (apply Rmult_le_pos; [pose proof (pos_INR (length y)); lra|apply uround_pos']).
  assert (C := Rmult_le_compat_l _ _ _ H A). apply Rabs_le_between in B. apply Rabs_le_between in I. apply Rabs_le. split; lra.
Qed.
Lemma conv_int : forall bm (kernel signal : list f64) (dt : f64) K S B0 B1 B2 C0 C1 C2 dk ds straight,
  (2 <= length kernel)%nat -> (Z.of_nat (length kernel) <= 2 ^ 43)%Z -> (length kernel <= length signal)%nat ->
  ordinary (2 ^ 190) kernel -> ordinary (2 ^ 190) signal -> ordinary (2 ^ 400) [dt] -> 0 <= dvalue dt ->
  let n := length kernel in let h := dvalue dt in let g := grid 0 h n in let T := INR (n - 1) * h in
  near_samples dk K g (dvalues kernel) -> near_samples ds S g (dvalues signal) -> bounded2 K 0 T B0 B1 B2 -> bounded2 S 0 T C0 C1 C2 ->
  exists v, naive_convolution bm kernel signal dt straight = Ok v /\ is_finite v = true /\
    Rabs (dvalue v - RInt (fun t => K t * S (if straight then t else T - t)) 0 T) <=
      trapz_err (B0 * C2 + 2 * (B1 * C1) + B2 * C0) h T + (dk * C0 + B0 * ds + dk * ds) * T
      + 2 * (INR n + 2) * uround * ((B0 + dk) * (C0 + ds) * T) + 2 * uflow * (h * (INR n + 1) + 1).
Proof.
  intros bm kernel signal dt K S B0 B1 B2 C0 C1 C2 dk ds b L1 L43 L2 Ok1 Os Od Hd n h g T Nk Ns HK HS.
  destruct (convolution_double_lemma bm kernel signal dt b L1 L43 L2 Ok1 Os Od) as (v & E & Fv & B). exists v. split; [exact E|]. split; [exact Fv|].
  cbv zeta in B. fold n h in B. fold g in B. rewrite (Rabs_pos_eq h) in B by exact Hd.
  assert (Ln : length (dvalues kernel) = n) by (unfold dvalues; now rewrite map_length).
  assert (T0 : 0 <= T) by (apply Rmult_le_pos; [apply pos_INR|exact Hd]).
  destruct (product_smooth K S T B0 B1 B2 C0 C1 C2 b T0 HK HS) as (f1 & f2 & D).
  destruct HK as (k1 & k2 & _ & KB). destruct HS as (s1 & s2 & _ & SB).
  assert (P := near_product dk ds K S T B0 C0 (dvalues kernel) (dvalues signal) h b). rewrite Ln in P.
  destruct (P ltac:(unfold n; lia) Hd eq_refl (fun t Ht => proj1 (KB t Ht)) (fun t Ht => proj1 (SB t Ht)) Nk Ns) as [N W]. clear P.
  set (w := lagged (dvalues kernel) (dvalues signal) b) in *. fold g in N, W.
  assert (Lx : length w = length g) by (unfold w, g; now rewrite lagged_length, grid_length).
  assert (Px : (0 < length g)%nat) by (unfold g, n; rewrite grid_length; lia).
  assert (Hs : steps h g) by (apply grid_steps; exact Hd).
  assert (Eh : hd 0 g = 0) by (apply grid_hd; unfold n; lia). assert (El : last g 0 = T) by (unfold g, T; rewrite grid_last by (unfold n; lia); ring).
  assert (I := areas_integral (fun t => K t * seen S T b t) f1 f2 (B0 * C2 + 2 * (B1 * C1) + B2 * C0) h _ g w Lx Px Hs N). rewrite Eh, El, Rminus_0_r in I. specialize (I D).
  change (RInt (fun t => K t * S (if b then t else T - t)) 0 T) with (RInt (fun t => K t * seen S T b t) 0 T).
  assert (A : areas_abs g w <= (B0 + dk) * (C0 + ds) * T).
  { replace T with (last g 0 - hd 0 g) by (rewrite El, Eh; ring). apply (areas_abs_le _ h); auto. }
  assert (0 <= 2 * (INR n + 2) * uround) by (apply Rmult_le_pos; [pose proof (pos_INR n); lra|apply uround_pos']).
  assert (C := Rmult_le_compat_l _ _ _ H A). apply Rabs_le_between in B. apply Rabs_le_between in I. apply Rabs_le. split; lra.
Qed.
(** Sum of magnitudes of bounded entries. *)
Lemma abs_sum_le Y : forall l, (forall i, (i < length l)%nat -> Rabs (nth i l 0) <= Y) -> abs_sum l <= INR (length l) * Y.
Proof.
  induction l as [|x l IH]; intros H; [cbn; lra|]. unfold abs_sum. cbn [fold_right length]. rewrite S_INR. fold (abs_sum l).
  assert (A := H 0%nat ltac:(cbn; lia)). cbn [nth] in A. assert (B := IH (fun i Hi => H (S i) ltac:(cbn; lia))). lra.
Qed.
Lemma integrate_int : forall (f : f64 -> f64) (xmin xmax : f64) (nb : nat) F F1 F2 M delta Y,
  (2 <= nb)%nat -> (Z.of_nat nb <= 2 ^ 32)%Z -> ordinary (2 ^ 400) [xmin; xmax] -> Y <= 2 ^ 400 ->
  (forall x, is_finite x = true -> is_finite (f x) = true /\ Rabs (dvalue (f x)) <= Y) ->
  let a := dvalue xmin in let b := dvalue xmax in let h := (b - a) / INR (nb - 1) in a <= b ->
  (forall k x, (k < nb)%nat -> is_finite x = true -> Rabs (dvalue x - (a + INR k * h)) <= (2 * INR k + 3) * uround * (Rabs a + Rabs (b - a)) + 2 * INR k * uflow ->
    Rabs (dvalue (f x) - F (a + INR k * h)) <= delta) ->
  twice_derivable F F1 F2 a b M ->
  exists s v, integ1_get (integ1_function f xmin xmax nb) = (s, Ok v) /\ is_finite v = true /\
    Rabs (dvalue v - RInt F a b) <= trapz_err M h (b - a) + delta * (b - a) + 2 * (INR nb + 2) * uround * (Y * (b - a)) + 4 * uflow * (h + INR nb * Y + 1).
Proof.
  intros f xmin xmax nb F F1 F2 M delta Y L L32 O HY Hf a b h Hab Hd D.
  assert (Hf' : forall x, is_finite x = true -> is_finite (f x) = true /\ Rabs (dvalue (f x)) <= 2 ^ 400) by (intros x Hx; destruct (Hf x Hx); split; [assumption|lra]).
  destruct (integ1_function_double_lemma f xmin xmax nb L L32 O Hf') as (xs & s & v & E & _ & Lxs & Fv & X & B). exists s, v. split; [exact E|]. split; [exact Fv|].
  fold a b in X, B. fold h in X, B. set (g := grid a h nb) in *. set (ys := dvalues (map f xs)) in *.
  assert (N1 : 0 < INR (nb - 1)) by (apply lt_0_INR; lia).
  assert (Hh : 0 <= h) by (apply Rmult_le_pos; [lra|apply Rlt_le, Rinv_0_lt_compat; exact N1]).
  rewrite (Rabs_pos_eq h Hh) in B.
  assert (Ly : length ys = nb) by (unfold ys, dvalues; now rewrite !map_length).
  assert (Ey : forall i, (i < nb)%nat -> nth i ys 0 = dvalue (f (nth i xs xmax)) /\ is_finite (nth i xs xmax) = true).
  { intros i Hi. split; [|apply X; exact Hi]. unfold ys, dvalues. rewrite map_map.
    rewrite (nth_indep _ 0 (dvalue (f xmax))) by (rewrite map_length; lia). now rewrite (map_nth (fun x => dvalue (f x))). }
  assert (Eh : hd 0 g = a) by (apply grid_hd; lia). assert (El : last g 0 = b) by (unfold g; rewrite grid_last by lia; unfold h; field; lra).
  assert (N : near_samples delta F g ys).
  { intros i Hi. unfold g in Hi. rewrite grid_length in Hi. destruct (Ey i Hi) as [-> Fi]. unfold g. rewrite map_grid by exact Hi. apply (Hd i); [exact Hi|exact Fi|]. apply X. exact Hi. }
  assert (W : forall i, (i < nb)%nat -> Rabs (nth i ys 0) <= Y).
  { intros i Hi. destruct (Ey i Hi) as [-> Fi]. apply Hf. exact Fi. }
  assert (Lg : length g = nb) by (unfold g; apply grid_length).
  assert (I := areas_integral F F1 F2 M h delta g ys ltac:(lia) ltac:(lia) (grid_steps a h nb Hh) N). rewrite Eh, El in I. specialize (I D).
  assert (A : areas_abs g ys <= Y * (b - a)).
  { rewrite <- El, <- Eh. apply (areas_abs_le _ h); [lia|lia|exact (grid_steps a h nb Hh)|]. intros i Hi. apply W. lia. }
  assert (Q : abs_sum ys <= INR nb * Y) by (rewrite <- Ly; apply abs_sum_le; intros i Hi; apply W; lia).
  assert (0 <= 2 * (INR nb + 2) * uround) by (apply Rmult_le_pos; [pose proof (pos_INR nb); lra|apply uround_pos']).
  assert (C := Rmult_le_compat_l _ _ _ H A).
  assert (U : 0 <= 4 * uflow) by (unfold uflow; apply Rmult_le_pos; [lra|apply powerRZ_le; lra]).
  assert (V : 4 * uflow * (h + abs_sum ys + 1) <= 4 * uflow * (h + INR nb * Y + 1)) by (apply Rmult_le_compat_l; lra).
  apply Rabs_le_between in B. apply Rabs_le_between in I. apply Rabs_le. split; lra.
Qed.

(** *** Concrete cases *)
From Verif Require Import L_F64.
Lemma id_bounded b : 0 <= b -> bounded2 (fun t => t) 0 b b 1 0.
Proof.
  intros H. exists (fun _ => 1), (fun _ => 0). split; [split; [|split]|]; intros x Hx.
  - apply derivable_pt_lim_id.
  - apply (derivable_pt_lim_const 1 x).
  - rewrite Rabs_R0. lra.
  - rewrite Rabs_R1, Rabs_pos_eq by lra. lra.
Qed.
Lemma int_sq b : RInt (fun t => t * t) 0 b = b ^ 3 / 3.
Proof.
  apply is_RInt_unique. replace (b ^ 3 / 3) with (minus (b ^ 3 / 3) (0 ^ 3 / 3)) by (unfold minus, plus, opp; simpl; field).
  apply (is_RInt_derive (fun t => t ^ 3 / 3) (fun t => t * t)).
  - intros x _. apply is_derive_Reals. apply deriv_eq with (INR 3 * x ^ 2 * / 3); [simpl; field|]. apply (deriv_scal_r (fun t => t ^ 3)). apply (derivable_pt_lim_pow x 3).
  - intros x _. apply continuity_pt_filterlim. apply (derivable_continuous_pt (fun t => t * t)). exists (1 * x + x * 1). apply (derivable_pt_lim_mult id id); apply derivable_pt_lim_id.
Qed.
Lemma ex_conv : naive_convolution Debug [0; 1; 2] [0; 1; 2; 7] 1 true = Ok 3 /\ RInt (fun t => t * t) 0 2 = 8 / 3 /\
  trapz_err (2 * 0 + 2 * (1 * 1) + 0 * 2) 1 2 = 1 / 3 /\ bounded2 (fun t => t) 0 2 2 1 0 /\
  near_samples 0 (fun t => t) (grid 0 1 3) [0; 1; 2; 7].
Proof.
  split; [|split; [|split; [|split]]].
  - rewrite conv_areas by (cbn; lia). f_equal. cbn. field.
  - rewrite int_sq. lra.
  - unfold trapz_err. field.
  - apply id_bounded. lra.
  - intros i Hi. cbn in Hi. destruct i as [|[|[|]]]; [| | |lia]; cbn; rewrite Rabs_pos_eq; lra.
Qed.
Lemma ofZ_ordinary M z : (Z.abs z <= 2 ^ 20)%Z -> IZR (Z.abs z) <= M -> is_finite (f64_ofZ z) = true /\ Rabs (dvalue (f64_ofZ z)) <= M.
Proof. intros H HM. destruct (ofZ_ok z ltac:(lia)) as (F & V). split; [exact F|]. unfold dvalue. rewrite V, <- abs_IZR. exact HM. Qed.
Lemma big400 : 10 <= 2 ^ 400.
Proof. assert (2 ^ 4 <= 2 ^ 400) by (apply Rle_pow; [lra|lia]). replace (2 ^ 4) with 16 in H by lra. lra. Qed.
Lemma dvZ z : (Z.abs z < 2 ^ 53)%Z -> dvalue (f64_ofZ z) = IZR z.
Proof. intros H. exact (proj2 (ofZ_ok z H)). Qed.
Lemma sq_twice a b : twice_derivable (fun t => t * t) (fun t => 2 * t) (fun _ => 2) a b 2.
Proof.
  split; [|split]; intros x _.
  - apply deriv_eq with (1 * x + x * 1); [ring|]. apply (derivable_pt_lim_mult id id); apply derivable_pt_lim_id.
  - apply deriv_eq with (2 * 1); [ring|]. apply (derivable_pt_lim_scal id). apply derivable_pt_lim_id.
  - rewrite Rabs_pos_eq; lra.
Qed.
Lemma small_const : uround <= / 1000000000 /\ uflow <= / 1000000000.
Proof.
  split.
  - unfold uround. apply Rinv_le_contravar; [lra|]. assert (2 ^ 30 <= 2 ^ 53) by (apply Rle_pow; [lra|lia]). lra.
  - unfold uflow, powerRZ. apply Rinv_le_contravar; [lra|]. assert (2 ^ 30 <= 2 ^ Pos.to_nat 1075) by (apply Rle_pow; [lra|lia]). lra.
Qed.
Lemma ordZ M l : List.Forall (fun z => (Z.abs z <= 2 ^ 20)%Z /\ IZR (Z.abs z) <= M) l -> ordinary M (map f64_ofZ l).
Proof. intros H. apply Forall_map. revert H. apply Forall_impl. intros z [A B]. now apply ofZ_ordinary. Qed.
Lemma dvZs l : List.Forall (fun z => (Z.abs z <= 2 ^ 20)%Z) l -> dvalues (map f64_ofZ l) = map IZR l.
Proof. intros H. unfold dvalues. rewrite map_map. induction H as [|z l A H IH]; [reflexivity|]. cbn [map]. rewrite IH, dvZ by lia. reflexivity. Qed.
Ltac fz := repeat (apply Forall_cons; [first [lia | split; [lia|cbn; lra]]|]); apply Forall_nil.
Lemma near_sq : near_samples 0 (fun t => t * t) [0; 1; 2; 3] [0; 1; 4; 9].
Proof. intros i Hi. cbn in Hi. destruct i as [|[|[|[|]]]]; [| | | |lia]; cbn [nth]; rewrite Rabs_pos_eq; lra. Qed.
Lemma ex_trapz : exists v w, trapz_xy Debug (map f64_ofZ [0; 1; 2; 3]%Z) (map f64_ofZ [0; 1; 4; 9]%Z) = Ok v /\ trapz_uniform (map f64_ofZ [0; 1; 4; 9]%Z) (f64_ofZ 1) = Ok w /\
  Rabs (dvalue v - RInt (fun t => t * t) 0 3) <= 51 / 100 /\ Rabs (dvalue w - RInt (fun t => t * t) 0 3) <= 51 / 100.
Proof.
  assert (B := big400). destruct small_const as [U V].
  destruct (trapz_xy_int Debug (map f64_ofZ [0; 1; 2; 3]%Z) (map f64_ofZ [0; 1; 4; 9]%Z) (fun t => t * t) (fun t => 2 * t) (fun _ => 2) 2 1 0 9) as (v & E & _ & A).
  - cbn; lia.
  - cbn; lia.
  - reflexivity.
  - apply ordinary_le with 10; [exact B|]. apply ordZ. fz.
  - apply ordZ. fz.
  - lra.
  - rewrite dvZs by fz. cbn. lra.
  - rewrite !dvZs by fz. exact near_sq.
  - apply sq_twice.
  - destruct (trapz_uniform_int (map f64_ofZ [0; 1; 4; 9]%Z) (f64_ofZ 1) (fun t => t * t) (fun t => 2 * t) (fun _ => 2) 2 0 9) as (w & E' & _ & A').
    + cbn; lia.
    + cbn; lia.
    + apply ordZ. fz.
    + lra.
    + apply ordinary_le with 10; [exact B|]. apply (ordZ 10 [1%Z]). fz.
    + rewrite dvZ by lia. lra.
    + rewrite dvZ by lia. rewrite dvZs by fz. replace (grid 0 1 (length (map f64_ofZ [0; 1; 4; 9]%Z))) with [0; 1; 2; 3] by (cbn; repeat (f_equal; try lra)). exact near_sq.
    + apply sq_twice.
    + exists v, w. split; [exact E|]. split; [exact E'|]. rewrite dvZs in A by fz. rewrite dvZ in A' by lia. cbn [map hd last length Nat.sub INR] in A, A'. unfold trapz_err in A, A'.
      replace ((1 + 1 + 1) * 1) with 3 in A' by ring. split; [apply Rle_trans with (1 := A)|apply Rle_trans with (1 := A')]; lra.
Qed.
Lemma ex_convd : exists v, naive_convolution Debug (map f64_ofZ [0; 1; 2]%Z) (map f64_ofZ [0; 1; 2; 7]%Z) (f64_ofZ 1) true = Ok v /\ Rabs (dvalue v - 8 / 3) <= 34 / 100.
Proof.
  assert (B := big400). destruct small_const as [U V]. assert (B' : 10 <= 2 ^ 190) by (assert (2 ^ 4 <= 2 ^ 190) by (apply Rle_pow; [lra|lia]); lra).
  assert (G : grid 0 1 3 = [0; 1; 2]) by (cbn; repeat (f_equal; try lra)).
  destruct (conv_int Debug (map f64_ofZ [0; 1; 2]%Z) (map f64_ofZ [0; 1; 2; 7]%Z) (f64_ofZ 1) (fun t => t) (fun t => t) 2 1 0 2 1 0 0 0 true) as (v & E & _ & A).
  - cbn; lia.
  - cbn; lia.
  - cbn; lia.
  - apply ordinary_le with 10; [exact B'|]. apply ordZ. fz.
  - apply ordinary_le with 10; [exact B'|]. apply ordZ. fz.
  - apply ordinary_le with 10; [exact B|]. apply (ordZ 10 [1%Z]). fz.
  - rewrite dvZ by lia. lra.
  - rewrite dvZ by lia. rewrite dvZs by fz. cbn [map length]. rewrite G. intros i Hi. cbn in Hi. destruct i as [|[|[|]]]; [| | |lia]; cbn [nth]; rewrite Rabs_pos_eq; lra.
  - rewrite dvZ by lia. rewrite dvZs by fz. cbn [map length]. rewrite G. intros i Hi. cbn in Hi. destruct i as [|[|[|]]]; [| | |lia]; cbn [nth]; rewrite Rabs_pos_eq; lra.
  - rewrite dvZ by lia. cbn [map length Nat.sub INR]. replace ((1 + 1) * 1) with 2 by ring. apply id_bounded. lra.
  - rewrite dvZ by lia. cbn [map length Nat.sub INR]. replace ((1 + 1) * 1) with 2 by ring. apply id_bounded. lra.
  - exists v. split; [exact E|]. rewrite dvZ in A by lia. cbn [map length Nat.sub INR] in A. replace ((1 + 1) * 1) with 2 in A by ring. rewrite int_sq in A. unfold trapz_err in A.
    replace (2 ^ 3 / 3) with (8 / 3) in A by field. apply Rle_trans with (1 := A). lra.
Qed.
(** The identity on [0, 8] and zero elsewhere. *)
Definition window (x : f64) : f64 := if (Bleb (f64_ofZ 0) x && Bleb x (f64_ofZ 8))%bool then x else f64_ofZ 0.
Lemma window_in x : is_finite x = true -> 0 <= dvalue x <= 8 -> window x = x.
Proof.
  intros F [A B]. unfold window. rewrite !Bleb_correct by (try exact F; apply ofZ_ok; lia).
  change (B2R (f64_ofZ 0)) with (dvalue (f64_ofZ 0)). change (B2R (f64_ofZ 8)) with (dvalue (f64_ofZ 8)). rewrite !dvZ by lia.
  change (B2R x) with (dvalue x). rewrite !Rle_bool_true by lra. reflexivity.
Qed.
Lemma window_bound x : is_finite x = true -> is_finite (window x) = true /\ Rabs (dvalue (window x)) <= 8.
Proof.
  intros F. destruct (Rle_dec 0 (dvalue x)) as [A|A]; [destruct (Rle_dec (dvalue x) 8) as [B|B]|].
  - rewrite window_in by (auto; lra). split; [exact F|]. rewrite Rabs_pos_eq; lra.
  - unfold window. rewrite (Bleb_correct _ _ x (f64_ofZ 8)) by (try exact F; apply ofZ_ok; lia).
    change (B2R (f64_ofZ 8)) with (dvalue (f64_ofZ 8)). rewrite dvZ by lia. change (B2R x) with (dvalue x). rewrite (Rle_bool_false (dvalue x)) by lra. rewrite andb_false_r.
    apply ofZ_ordinary; [lia|cbn; lra].
  - unfold window. rewrite (Bleb_correct _ _ (f64_ofZ 0) x) by (try exact F; apply ofZ_ok; lia).
    change (B2R (f64_ofZ 0)) with (dvalue (f64_ofZ 0)). rewrite dvZ by lia. change (B2R x) with (dvalue x). rewrite (Rle_bool_false 0 (dvalue x)) by lra. cbn [andb].
    apply ofZ_ordinary; [lia|cbn; lra].
Qed.
Lemma ex_integ : exists s v, integ1_get (integ1_function window (f64_ofZ 1) (f64_ofZ 5) 3) = (s, Ok v) /\ Rabs (dvalue v - RInt (fun t => t) 1 5) <= / 1000000.
Proof.
  assert (B := big400). destruct small_const as [U V]. assert (U0 := uround_pos'). assert (V0 : 0 <= uflow) by (unfold uflow; apply powerRZ_le; lra).
  destruct (integrate_int window (f64_ofZ 1) (f64_ofZ 5) 3 (fun t => t) (fun _ => 1) (fun _ => 0) 0 (100 * uround + 10 * uflow) 8) as (s & v & E & _ & A).
  - lia.
  - lia.
  - apply ordinary_le with 10; [exact B|]. apply (ordZ 10 [1; 5]%Z). fz.
  - lra.
  - exact window_bound.
  - rewrite !dvZ by lia. lra.
  - rewrite !dvZ by lia. cbn [Nat.sub INR]. intros k x Hk F. rewrite (Rabs_pos_eq 1), (Rabs_pos_eq (5 - 1)) by lra. intros H.
    assert (K : INR k = 0 \/ INR k = 1 \/ INR k = 2) by (destruct k as [|[|[|]]]; [left|right; left|right; right|lia]; simpl; lra).
    set (q := INR k) in *. clearbody q. assert (R0 : Rabs (dvalue x - (1 + q * ((5 - 1) / (1 + 1)))) <= 100 * uround + 10 * uflow).
    { apply Rle_trans with (1 := H). destruct K as [-> | [-> | ->]]; lra. }
    rewrite window_in; [exact R0|exact F|]. apply Rabs_le_between in R0. destruct K as [-> | [-> | ->]]; lra.
  - split; [|split]; intros x Hx; [apply derivable_pt_lim_id|apply (derivable_pt_lim_const 1 x)|rewrite Rabs_R0; lra].
  - exists s, v. split; [exact E|]. rewrite !dvZ in A by lia. unfold trapz_err in A. cbn [Nat.sub INR] in A. apply Rle_trans with (1 := A). lra.
Qed.
