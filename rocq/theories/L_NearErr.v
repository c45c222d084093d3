(** Accuracy of the nearest node in double; convergence of the lookup tables. *)
From Coq Require Import List Arith ZArith Reals Lra Lia Bool.
From Flocq Require Import IEEE754.BinarySingleNaN.
From Verif Require Import Outcome Num F64 M_Grid M_Interp1d M_Interp2d M_Lookup S_Interp1d S_Interp2d S_Lookup S_Grid S_Integ S_Angles S_Double S_Grid64 S_Near64 S_Err S_Lim S_GErr64 S_NearErr
  L_Search L_Interp1d L_Grid L_GridNearest L_Grid64 L_Near64 L_Err L_Lim L_LutErr.
Import ListNotations.
Local Open Scope R_scope.

Lemma telescope_gen : forall gs es Ks p idx F, good_axes gs -> Forall (fun K => 0 <= K) Ks -> length Ks = length gs -> length es = length gs ->
  in_box gs p -> in_extents (map (@length R) gs) idx ->
  (forall k, (k < length gs)%nat -> Rabs (nth k p 0 - nth (nth k idx 0%nat) (nth k gs []) 0) <= nth k es 0) ->
  along_axes sloped gs Ks F -> Rabs (F (node_at gs idx) - F p) <= total (fun K e => K * e) Ks es.
Proof.
  induction gs as [|g gs IH]; intros es Ks p idx F Hg PK LK LE HB HI HN HA.
  - inversion HB; inversion HI; subst. unfold node_at. cbn [map2]. destruct Ks; [|discriminate].
    unfold total, sum. cbn [map2 fold_right]. rewrite Rminus_diag_eq, Rabs_R0 by reflexivity. lra.
  - destruct Ks as [|K Ks]; [discriminate|]. destruct es as [|e es]; [discriminate|].
    inversion HB as [|? x ? p' Bx Bp]; subst. inversion HI as [|? i ? idx' Ii Iidx]; subst.
    inversion Hg as [|? ? Gg Ggs]; subst. inversion PK; subst. simpl in LK, LE.
    change (node_at (g :: gs) (i :: idx')) with (nth i g 0 :: node_at gs idx').
    change (total (fun K e => K * e) (K :: Ks) (e :: es)) with (K * e + total (fun K e => K * e) Ks es).
    assert (Bi : first g <= nth i g 0 <= final g) by (unfold first, final; split; apply increasing_le; try apply Gg; lia).
    assert (A : Rabs (F (nth i g 0 :: p') - F (x :: p')) <= K * e).
    { pose proof (HA [] p' ltac:(simpl; lia) ltac:(constructor) Bp (nth i g 0) x Bi Bx) as A. cbn [app length nth] in A.
      apply Rle_trans with (1 := A). rewrite Rabs_minus_sym. apply Rmult_le_compat_l; [assumption|]. exact (HN 0%nat ltac:(simpl; lia)). }
    assert (B : Rabs (F (nth i g 0 :: node_at gs idx') - F (nth i g 0 :: p')) <= total (fun K e => K * e) Ks es).
    { apply (IH es Ks p' idx' (fun q => F (nth i g 0 :: q))); auto.
      - intros k Hk. apply (HN (S k)). simpl. lia.
      - intros pre post Hpre B1 B2. apply (HA (nth i g 0 :: pre) post); [simpl; lia| |exact B2]. simpl. constructor; assumption. }
    replace (F (nth i g 0 :: node_at gs idx') - F (x :: p')) with ((F (nth i g 0 :: node_at gs idx') - F (nth i g 0 :: p')) + (F (nth i g 0 :: p') - F (x :: p'))) by ring.
    apply Rle_trans with (1 := Rabs_triang _ _). lra.
Qed.
(** Some node is within half a spacing. *)
Lemma half_spacing g x h : good_axis g -> spacing h g -> 0 <= h -> first g <= x <= final g -> exists k, (k < length g)%nat /\ Rabs (x - nth k g 0) <= h / 2.
Proof.
  intros Hg Hh H0 Hx.
  destruct (nearest_lemma R Debug [g] (mkND [length g] g) [x] 0) as (o & idx & _ & _ & C & D & _); try reflexivity.
  - constructor; [exact Hg|constructor].
  - simpl. lia.
  - inversion C as [|? i ? t Ci Ct]; subst. inversion Ct; subst. specialize (D 0%nat ltac:(simpl; lia)). cbn [nth] in D.
    exists i. split; [apply D|]. now apply nearest_close.
Qed.
Lemma map2_len {A B C} (f : A -> B -> C) : forall l l', length l = length l' -> length (map2 f l l') = length l.
Proof. induction l as [|x l IH]; intros [|y l'] E; try discriminate; simpl; auto. Qed.
Lemma map2_at {A B C} (f : A -> B -> C) a b c : forall l l' k, length l = length l' -> (k < length l)%nat -> nth k (map2 f l l') c = f (nth k l a) (nth k l' b).
Proof. induction l as [|x l IH]; intros [|y l'] [|k] E H; simpl in *; try discriminate; try lia; auto. apply IH; lia. Qed.
Lemma f2_nth {A B} (P : A -> B -> Prop) a b : forall l l' k, Forall2 P l l' -> (k < length l)%nat -> P (nth k l a) (nth k l' b).
Proof. intros l l' k H. revert k. induction H; intros [|k] Hk; simpl in *; try lia; auto. apply IHForall2. lia. Qed.
Lemma nearest_double_error : forall bm gs (a : ndarray f64) F Ks hs Ms delta p, good_axes64 gs -> Forall doubling_ok gs -> nd_shape a = map (@length f64) gs -> length (nd_flat a) = count (nd_shape a) ->
  near_table delta gs (nd_flat a) F -> length Ks = length gs -> spacings hs (map dvalues gs) -> Forall2 magnitude_le Ms gs -> Forall (fun K => 0 <= K) Ks -> Forall (fun h => 0 <= h) hs ->
  along_axes sloped (map dvalues gs) Ks F -> all_finite p -> in_box (map dvalues gs) (dvalues p) ->
  exists o n, rgn_make gs a = Ok o /\ rgn_nearest bm o p = Ok n /\ Rabs (dvalue (gn_val n) - F (dvalues p)) <= total (fun K e => K * e) Ks (node_excess hs Ms) + delta.
Proof.
  intros bm gs a F Ks hs Ms delta p HG HD Hsh Hl HT LK Hh HM PK Ph HA Fp HB.
  assert (Lp : length p = length gs) by (apply Forall2_length in HB; unfold dvalues in HB; rewrite !map_length in HB; auto).
  destruct (near_double_lemma f64 bm gs a p B754_nan HG HD Hsh Hl Lp) as (o & idx & A & B & C & D).
  { eapply Forall_impl; [|exact Fp]. intros x Hx. destruct x; try discriminate; reflexivity. }
  exists o. eexists. split; [exact A|]. split; [exact B|]. cbn [gn_val]. rewrite Hsh in C |- *.
  assert (LH : length hs = length gs) by (apply Forall2_length in Hh; rewrite map_length in Hh; exact Hh).
  assert (LM : length Ms = length gs) by (eapply Forall2_length; exact HM).
  assert (C' : in_extents (map (@length R) (map dvalues gs)) idx).
  { replace (map (@length R) (map dvalues gs)) with (map (@length f64) gs); [exact C|]. rewrite map_map. apply map_ext. intros g. unfold dvalues. now rewrite map_length. }
  assert (T : Rabs (F (node_at (map dvalues gs) idx) - F (dvalues p)) <= total (fun K e => K * e) Ks (node_excess hs Ms)).
  { apply telescope_gen; auto using good_axes_dvalues.
    - now rewrite map_length.
    - unfold node_excess. rewrite map2_len, map_length by lia. exact LH.
    - intros k Hk. rewrite map_length in Hk. specialize (D k Hk).
      assert (Eg : nth k (map dvalues gs) [] = dvalues (nth k gs [])) by (change (@nil R) with (dvalues []); apply map_nth).
      assert (Ep : nth k (dvalues p) 0 = dvalue (nth k p B754_nan)) by (change 0 with (dvalue B754_nan); apply map_nth).
      assert (Gk : good_axis64 (nth k gs [])) by (unfold good_axes64 in HG; rewrite Forall_forall in HG; apply HG, nth_In; exact Hk).
      assert (Fk : is_finite (nth k p B754_nan) = true) by (unfold all_finite in Fp; rewrite Forall_forall in Fp; apply Fp, nth_In; lia).
      assert (Mk : magnitude_le (nth k Ms 0) (nth k gs [])) by (apply f2_nth; [exact HM|lia]).
      assert (Sk : spacing (nth k hs 0) (dvalues (nth k gs []))) by (rewrite <- Eg; apply f2_nth; [exact Hh|lia]).
      assert (Pk : 0 <= nth k hs 0) by (rewrite Forall_forall in Ph; apply Ph, nth_In; lia).
      assert (Bk : first (dvalues (nth k gs [])) <= dvalue (nth k p B754_nan) <= final (dvalues (nth k gs []))).
      { rewrite <- Eg, <- Ep. apply (f2_nth (fun g x => first g <= x <= final g)); [exact HB|]. now rewrite map_length. }
      destruct (half_spacing _ _ _ (proj2 Gk) Sk Pk Bk) as (j & Hj & Bj). unfold dvalues in Hj. rewrite map_length in Hj.
      pose proof (near_excess_lemma _ _ _ _ Gk Fk D Mk j Hj) as X. rewrite Eg, Ep. unfold node_excess. rewrite (map2_at _ 0 0) by lia. lra. }
  specialize (HT idx C). unfold element in HT.
  assert (E : nth (pos (map (@length f64) gs) idx) (dvalues (nd_flat a)) 0 = dvalue (nth (pos (map (@length f64) gs) idx) (nd_flat a) B754_nan)) by (change 0 with (dvalue B754_nan); apply map_nth).
  rewrite E in HT. match goal with |- Rabs (?v - ?w) <= _ => replace (v - w) with ((v - F (node_at (map dvalues gs) idx)) + (F (node_at (map dvalues gs) idx) - w)) by ring end.
  apply Rle_trans with (1 := Rabs_triang _ _). lra.
Qed.

(** *** Lookup tables *)
Lemma table2_double_error_lip : forall bm ops (t : lut2 f64) name xs ys data x y i j f delta Kx Ky, lut2_run bm lut2_new ops = Ok t ->
  registered2 LINEAR None None ops name = Some (LINEAR, Some xs, Some ys, data) ->
  all_finite xs -> all_finite ys -> all_finite data -> is_finite x = true -> is_finite y = true ->
  increasing (dvalues xs) -> increasing (dvalues ys) -> length data = (length xs * length ys)%nat ->
  inside (dvalues xs) (dvalues ys) (dvalue x) (dvalue y) ->
  clamped_cell (dvalues xs) (dvalue x) i -> clamped_cell (dvalues ys) (dvalue y) j ->
  let x1 := nth i (dvalues xs) 0 in let x2 := nth (S i) (dvalues xs) 0 in
  let y1 := nth j (dvalues ys) 0 in let y2 := nth (S j) (dvalues ys) 0 in
  let d a b := nth (length ys * a + b) (dvalues data) 0 in
  let X := Rmax (Rabs x1) (Rabs x2) in let Y := Rmax (Rabs y1) (Rabs y2) in
  let D := Rabs (d i j) + Rabs (d i (S j)) + Rabs (d (S i) j) + Rabs (d (S i) (S j)) in
  X <= 2 ^ 100 -> Y <= 2 ^ 100 -> D <= 2 ^ 400 -> / 2 ^ 100 <= x2 - x1 -> / 2 ^ 100 <= y2 - y1 ->
  Rabs (d i j - f x1 y1) <= delta -> Rabs (d i (S j) - f x1 y2) <= delta -> Rabs (d (S i) j - f x2 y1) <= delta -> Rabs (d (S i) (S j) - f x2 y2) <= delta ->
  along2 sloped [x1; x2] [y1; y2] f Kx Ky ->
  exists v, lut2_eval bm t name x y = Ok v /\ is_finite v = true /\
    Rabs (dvalue v - f (dvalue x) (dvalue y)) <= (Kx * (x2 - x1) + Ky * (y2 - y1)) / 2 + delta + (57 * uround * (D * X * Y / ((x2 - x1) * (y2 - y1))) + / 2 ^ 200).
Proof.
  intros bm ops t name xs ys data x y i j f delta Kx Ky Hr Hg Fx Fy Fd Qx Qy Ix Iy Hl Hi Cx Cy x1 x2 y1 y2 d X Y D BX BY BD Wx Wy E11 E12 E21 E22 HA.
  destruct (interp2d_double_error_lip bm xs ys data x y i j f delta Kx Ky Fx Fy Fd Qx Qy Ix Iy Hl Hi Cx Cy BX BY BD Wx Wy E11 E12 E21 E22 HA) as (o & v & A & B & C).
  exists v. split; [exact (table2_value bm ops t name LINEAR xs ys data o x y v Hr Hg A B)|exact C].
Qed.
Lemma table1_converges : forall f a b, continuous_on f a b -> forall eps, 0 < eps -> exists h, 0 < h /\
  forall bm m ops (t : lut1 R R) name xs, lut1_run bm (lut1_new m) ops = Ok t -> registered1 None ops name = Some (Some xs, map f xs) ->
  is_linear m -> increasing xs -> (2 <= length xs)%nat -> spacing h xs -> first xs = a -> final xs = b ->
  forall x, a <= x <= b -> exists v, lut1_eval t name x = Ok v /\ Rabs (v - f x) <= eps.
Proof.
  intros f a b HC eps He. destruct (interp1d_converges f a b HC eps He) as (h & H0 & H). exists h. split; [exact H0|].
  intros bm m ops t name xs Hr Hg Hm Hi Hl Hs Ea Eb x Hx. destruct (H bm m xs Hm Hi Hl Hs Ea Eb) as (o & A & B). destruct (B x Hx) as (v & Ev & Bv).
  exists v. split; [exact (table1_value bm m ops t name xs (map f xs) o x v Hr Hg A Ev)|exact Bv].
Qed.
Lemma table2_converges : forall f ax bx ay b_y, continuous_box [(ax, bx); (ay, b_y)] (fun p => f (nth 0 p 0) (nth 1 p 0)) -> forall eps, 0 < eps -> exists h, 0 < h /\
  forall bm ops (t : lut2 R) name xs ys data, lut2_run bm lut2_new ops = Ok t -> registered2 LINEAR None None ops name = Some (LINEAR, Some xs, Some ys, data) ->
  increasing xs -> increasing ys -> (2 <= length xs)%nat -> (2 <= length ys)%nat -> length data = (length xs * length ys)%nat ->
  samples2 xs ys data f -> spacing h xs -> spacing h ys -> first xs = ax -> final xs = bx -> first ys = ay -> final ys = b_y ->
  forall x y, inside xs ys x y -> exists v, lut2_eval bm t name x y = Ok v /\ Rabs (v - f x y) <= eps.
Proof.
  intros f ax bx ay b_y HC eps He. destruct (interp2d_converges f ax bx ay b_y HC eps He) as (h & H0 & H). exists h. split; [exact H0|].
  intros bm ops t name xs ys data Hr Hg Ix Iy Lx Ly Ld HS Sx Sy E1 E2 E3 E4 x y Hi.
  destruct (H bm xs ys data Ix Iy Lx Ly Ld HS Sx Sy E1 E2 E3 E4 x y Hi) as (o & v & A & B & C).
  exists v. split; [exact (table2_value bm ops t name LINEAR xs ys data o x y v Hr Hg A B)|exact C].
Qed.
