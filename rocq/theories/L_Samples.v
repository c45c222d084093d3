(** Interpolants as functions of their samples. *)
From Coq Require Import List Arith ZArith Reals Lra Lia Bool.
From Verif Require Import Outcome Num StdAlgo M_Interp1d S_Interp1d L_Search L_Interp1d M_Interp2d S_Interp2d L_Interp2d M_Grid S_Grid L_Grid.
Import ListNotations.
Local Open Scope R_scope.

Lemma range1 bm m xs ys o x : is_linear m -> increasing xs -> (2 <= length xs)%nat -> length ys = length xs ->
  nth 0 xs 0 <= x <= nth (length xs - 1) xs 0 -> new1d bm m xs ys = Ok o ->
  exists i v, eval1d o x = Ok v /\ (S i < length xs)%nat /\ nth i xs 0 < nth (S i) xs 0 /\ nth i xs 0 <= x <= nth (S i) xs 0 /\
    on_line (nth i xs 0) (nth i ys 0) (nth (S i) xs 0) (nth (S i) ys 0) x v.
Proof.
  intros Hm Hi Hn Hl Hx Ho. destruct (is_linear_kind m Hm) as (k & Hk).
  destruct (eval1d_in_range m k xs ys bm x Hk Hi Hn Hl Hx) as (o' & v & Ho' & He & (i & H1 & H2 & H3)).
  rewrite Ho in Ho'. injection Ho' as <-. exists i, v. repeat split; auto; try apply H2; try (apply Hi; lia).
Qed.
Lemma at_cell bm m xs ys o x i v : is_linear m -> increasing xs -> (2 <= length xs)%nat -> length ys = length xs ->
  new1d bm m xs ys = Ok o -> (S i < length xs)%nat -> nth i xs 0 <= x <= nth (S i) xs 0 ->
  on_line (nth i xs 0) (nth i ys 0) (nth (S i) xs 0) (nth (S i) ys 0) x v -> eval1d o x = Ok v.
Proof.
  intros Hm Hi Hn Hl Ho H1 H2 H3. apply (eval1d_polyline m xs ys bm o x v); auto; [now apply is_linear_kind|]. now exists i.
Qed.
Lemma line_value x0 y0 x1 y1 x v : x0 < x1 -> on_line x0 y0 x1 y1 x v -> v = y0 + (y1 - y0) * ((x - x0) / (x1 - x0)).
Proof.
  unfold on_line. intros H E. apply (Rmult_eq_reg_r (x1 - x0)); [|lra].
  replace ((y0 + (y1 - y0) * ((x - x0) / (x1 - x0))) * (x1 - x0)) with (y0 * (x1 - x0) + (y1 - y0) * (x - x0)) by (field; lra). lra.
Qed.
Lemma line_param x0 x1 x : x0 < x1 -> x0 <= x <= x1 -> 0 <= (x - x0) / (x1 - x0) <= 1.
Proof.
  intros H Hx. split.
  - apply Rmult_le_pos; [lra|]. left. apply Rinv_0_lt_compat. lra.
  - apply (Rmult_le_reg_r (x1 - x0)); [lra|]. unfold Rdiv. rewrite Rmult_assoc, Rinv_l by lra. lra.
Qed.
Lemma two1 bm m xs ys zs oy oz x : is_linear m -> increasing xs -> (2 <= length xs)%nat ->
  length ys = length xs -> length zs = length xs -> nth 0 xs 0 <= x <= nth (length xs - 1) xs 0 ->
  new1d bm m xs ys = Ok oy -> new1d bm m xs zs = Ok oz ->
  exists i t, (S i < length xs)%nat /\ 0 <= t <= 1 /\
    eval1d oy x = Ok (nth i ys 0 + (nth (S i) ys 0 - nth i ys 0) * t) /\
    eval1d oz x = Ok (nth i zs 0 + (nth (S i) zs 0 - nth i zs 0) * t).
Proof.
  intros Hm Hi Hn Ly Lz Hx Hy Hz.
  destruct (range1 bm m xs ys oy x Hm Hi Hn Ly Hx Hy) as (i & v & E1 & H1 & H2 & H3 & H4).
  exists i, ((x - nth i xs 0) / (nth (S i) xs 0 - nth i xs 0)). split; [exact H1|]. split; [now apply line_param|]. split.
  - rewrite E1. f_equal. now apply line_value.
  - apply (at_cell bm m xs zs oz x i); auto. unfold on_line. field. lra.
Qed.
Lemma combine1 bm m xs ys zs us oy oz ou al be x : is_linear m -> increasing xs -> (2 <= length xs)%nat ->
  length ys = length xs -> length zs = length xs -> length us = length xs ->
  (forall i, (i < length xs)%nat -> nth i us 0 = al * nth i ys 0 + be * nth i zs 0) ->
  new1d bm m xs ys = Ok oy -> new1d bm m xs zs = Ok oz -> new1d bm m xs us = Ok ou ->
  nth 0 xs 0 <= x <= nth (length xs - 1) xs 0 ->
  exists v w, eval1d oy x = Ok v /\ eval1d oz x = Ok w /\ eval1d ou x = Ok (al * v + be * w).
Proof.
  intros Hm Hi Hn Ly Lz Lu H Hy Hz Hu Hx.
  destruct (range1 bm m xs ys oy x Hm Hi Hn Ly Hx Hy) as (i & v & E1 & H1 & H2 & H3 & H4).
  exists v, (nth i zs 0 + (nth (S i) zs 0 - nth i zs 0) * ((x - nth i xs 0) / (nth (S i) xs 0 - nth i xs 0))).
  split; [exact E1|]. split.
  - apply (at_cell bm m xs zs oz x i); auto. unfold on_line. field. lra.
  - apply (at_cell bm m xs us ou x i); auto. rewrite !H by lia.
    rewrite (line_value _ _ _ _ _ _ H2 H4). unfold on_line. field. lra.
Qed.
Lemma order1 bm m xs ys zs oy oz x : is_linear m -> increasing xs -> (2 <= length xs)%nat ->
  length ys = length xs -> length zs = length xs ->
  (forall i, (i < length xs)%nat -> nth i ys 0 <= nth i zs 0) ->
  new1d bm m xs ys = Ok oy -> new1d bm m xs zs = Ok oz ->
  nth 0 xs 0 <= x <= nth (length xs - 1) xs 0 ->
  exists v w, eval1d oy x = Ok v /\ eval1d oz x = Ok w /\ v <= w.
Proof.
  intros Hm Hi Hn Ly Lz H Hy Hz Hx.
  destruct (two1 bm m xs ys zs oy oz x) as (i & t & H1 & Ht & E1 & E2); auto.
  do 2 eexists. split; [exact E1|]. split; [exact E2|].
  pose proof (H i ltac:(lia)). pose proof (H (S i) H1). nra.
Qed.
Lemma stable1 bm m xs ys zs oy oz x e : is_linear m -> increasing xs -> (2 <= length xs)%nat ->
  length ys = length xs -> length zs = length xs ->
  (forall i, (i < length xs)%nat -> Rabs (nth i ys 0 - nth i zs 0) <= e) ->
  new1d bm m xs ys = Ok oy -> new1d bm m xs zs = Ok oz ->
  nth 0 xs 0 <= x <= nth (length xs - 1) xs 0 ->
  exists v w, eval1d oy x = Ok v /\ eval1d oz x = Ok w /\ Rabs (v - w) <= e.
Proof.
  intros Hm Hi Hn Ly Lz H Hy Hz Hx.
  destruct (two1 bm m xs ys zs oy oz x) as (i & t & H1 & Ht & E1 & E2); auto.
  do 2 eexists. split; [exact E1|]. split; [exact E2|].
  pose proof (H i ltac:(lia)) as A. pose proof (H (S i) H1) as B.
  revert A B. generalize (nth i ys 0) (nth i zs 0) (nth (S i) ys 0) (nth (S i) zs 0). intros a b c d A B.
  assert (A' : - e <= a - b <= e) by (revert A; unfold Rabs; destruct Rcase_abs; lra).
  assert (B' : - e <= c - d <= e) by (revert B; unfold Rabs; destruct Rcase_abs; lra).
  apply Rabs_le. replace (a + (c - a) * t - (b + (d - b) * t)) with ((a - b) * (1 - t) + (c - d) * t) by ring. nra.
Qed.

(** One more sample, taken from the interpolant, changes nothing. *)
Lemma ins_nth (p q : list R) a k : nth k (p ++ a :: q) 0 =
  if (k <? length p)%nat then nth k (p ++ q) 0 else if (k =? length p)%nat then a else nth (k - 1) (p ++ q) 0.
Proof.
  destruct (Nat.ltb_spec k (length p)).
  - now rewrite !app_nth1 by lia.
  - destruct (Nat.eqb_spec k (length p)) as [->|N].
    + rewrite app_nth2, Nat.sub_diag by lia. reflexivity.
    + rewrite !app_nth2 by lia. replace (k - length p)%nat with (S (k - 1 - length p)) by lia. reflexivity.
Qed.
Lemma insert1 bm m p q a b r s oy oz x : is_linear m -> increasing (p ++ q) ->
  p <> [] -> q <> [] -> length r = length p -> length s = length q ->
  nth (length p - 1) (p ++ q) 0 < a < nth (length p) (p ++ q) 0 ->
  new1d bm m (p ++ q) (r ++ s) = Ok oy -> eval1d oy a = Ok b ->
  new1d bm m (p ++ a :: q) (r ++ b :: s) = Ok oz ->
  nth 0 (p ++ q) 0 <= x <= nth (length (p ++ q) - 1) (p ++ q) 0 ->
  exists v, eval1d oy x = Ok v /\ eval1d oz x = Ok v.
Proof.
  intros Hm Hi Hp Hq Lr Ls Ha Hy Eb Hz Hx.
  assert (P : (0 < length p)%nat) by (destruct p; [congruence|simpl; lia]).
  assert (Q : (0 < length q)%nat) by (destruct q; [congruence|simpl; lia]).
  assert (Ln : length (p ++ q) = (length p + length q)%nat) by apply app_length.
  assert (Ly : length (r ++ s) = length (p ++ q)) by (rewrite !app_length; lia).
  assert (Ln' : length (p ++ a :: q) = S (length p + length q)) by (rewrite app_length; simpl; lia).
  assert (Lz : length (r ++ b :: s) = length (p ++ a :: q)) by (rewrite !app_length; simpl; lia).
  assert (Hi' : increasing (p ++ a :: q)).
  { assert (LE : forall u w, (u <= w < length (p ++ q))%nat -> nth u (p ++ q) 0 <= nth w (p ++ q) 0) by (intros; now apply increasing_le).
    intros u w Huw. rewrite !ins_nth.
    destruct (Nat.ltb_spec u (length p)), (Nat.ltb_spec w (length p)); try lia.
    - apply Hi. lia.
    - pose proof (LE u (length p - 1)%nat ltac:(lia)). destruct (Nat.eqb_spec w (length p)); [lra|].
      pose proof (LE (length p) (w - 1)%nat ltac:(lia)). lra.
    - destruct (Nat.eqb_spec w (length p)), (Nat.eqb_spec u (length p)); try lia.
      + pose proof (LE (length p) (w - 1)%nat ltac:(lia)). lra.
      + apply Hi. lia. }
  destruct (range1 bm m (p ++ q) (r ++ s) oy x Hm Hi ltac:(lia) Ly Hx Hy) as (j & v & E & J1 & J2 & J3 & J4).
  exists v. split; [exact E|].
  set (i := (length p - 1)%nat) in *. assert (Ei : length p = S i) by (unfold i; lia).
  destruct (lt_eq_lt_dec j i) as [[L|L]|L].
  - apply (at_cell bm m _ _ oz x j v Hm Hi' ltac:(lia) Lz Hz ltac:(lia)); rewrite !ins_nth, ?Lr;
      repeat (match goal with |- context [(?c <? length p)%nat] => destruct (Nat.ltb_spec c (length p)); [|lia] end); assumption.
  - subst j.
    assert (B : on_line (nth i (p ++ q) 0) (nth i (r ++ s) 0) (nth (S i) (p ++ q) 0) (nth (S i) (r ++ s) 0) a b).
    { rewrite Ei in Ha.
      assert (E2 : eval1d oy a = Ok (nth i (r ++ s) 0 + (nth (S i) (r ++ s) 0 - nth i (r ++ s) 0) *
         ((a - nth i (p ++ q) 0) / (nth (S i) (p ++ q) 0 - nth i (p ++ q) 0)))).
      { apply (at_cell bm m (p ++ q) (r ++ s) oy a i); auto; try lia; try lra. unfold on_line. field. lra. }
      rewrite Eb in E2. injection E2 as E2. rewrite E2. unfold on_line. field. lra. }
    rewrite Ei in Ha.
    set (x0 := nth i (p ++ q) 0) in *. set (x1 := nth (S i) (p ++ q) 0) in *.
    set (y0 := nth i (r ++ s) 0) in *. set (y1 := nth (S i) (r ++ s) 0) in *.
    apply line_value in B; [|exact J2]. apply line_value in J4; [|exact J2].
    destruct (Rle_lt_dec x a) as [C|C].
    + apply (at_cell bm m _ _ oz x i v Hm Hi' ltac:(lia) Lz Hz ltac:(lia)); rewrite !ins_nth, ?Lr;
      destruct (Nat.ltb_spec i (length p)); try lia; destruct (Nat.ltb_spec (S i) (length p)); try lia;
      destruct (Nat.eqb_spec (S i) (length p)); try lia; fold x0 y0; [lra|].
      subst b v. unfold on_line. field. lra.
    + apply (at_cell bm m _ _ oz x (S i) v Hm Hi' ltac:(lia) Lz Hz ltac:(lia)); rewrite !ins_nth, ?Lr;
      destruct (Nat.ltb_spec (S i) (length p)); try lia; destruct (Nat.ltb_spec (S (S i)) (length p)); try lia;
      destruct (Nat.eqb_spec (S i) (length p)); try lia; destruct (Nat.eqb_spec (S (S i)) (length p)); try lia;
      replace (S (S i) - 1)%nat with (S i) by lia; fold x1 y1; [lra|].
      subst b v. unfold on_line. field. lra.
  - apply (at_cell bm m _ _ oz x (S j) v Hm Hi' ltac:(lia) Lz Hz ltac:(lia)); rewrite !ins_nth, ?Lr;
      destruct (Nat.ltb_spec (S j) (length p)); try lia; destruct (Nat.ltb_spec (S (S j)) (length p)); try lia;
      destruct (Nat.eqb_spec (S j) (length p)); try lia; destruct (Nat.eqb_spec (S (S j)) (length p)); try lia;
      replace (S (S j) - 1)%nat with (S j) by lia; replace (S j - 1)%nat with j by lia; assumption.
Qed.

(** Change of unit of the abscissae. *)
Lemma rescale1 bm m xs xs' ys o o' c d x : is_linear m -> increasing xs -> (2 <= length xs)%nat -> length ys = length xs ->
  0 < c -> xs' = map (fun t => c * t + d) xs ->
  new1d bm m xs ys = Ok o -> new1d bm m xs' ys = Ok o' ->
  nth 0 xs 0 <= x <= nth (length xs - 1) xs 0 ->
  exists v, eval1d o x = Ok v /\ eval1d o' (c * x + d) = Ok v.
Proof.
  intros Hm Hi Hn Ly Hc -> Ho Ho' Hx.
  assert (N : forall k, (k < length xs)%nat -> nth k (map (fun t => c * t + d) xs) 0 = c * nth k xs 0 + d).
  { intros k Hk. rewrite (nth_indep _ 0 (c * 0 + d)) by (now rewrite map_length). apply (map_nth (fun t => c * t + d)). }
  assert (Hi' : increasing (map (fun t => c * t + d) xs)).
  { intros u w Huw. rewrite map_length in Huw. rewrite !N by lia. pose proof (Hi u w Huw). nra. }
  destruct (range1 bm m xs ys o x Hm Hi Hn Ly Hx Ho) as (i & v & E & J1 & J2 & J3 & J4).
  exists v. split; [exact E|].
  apply (at_cell bm m (map (fun t => c * t + d) xs) ys o' _ i v); auto; try (rewrite map_length; lia); rewrite !N by lia; [nra|].
  unfold on_line in *. replace (c * nth (S i) xs 0 + d - (c * nth i xs 0 + d)) with (c * (nth (S i) xs 0 - nth i xs 0)) by ring.
  replace (c * x + d - (c * nth i xs 0 + d)) with (c * (x - nth i xs 0)) by ring. nra.
Qed.

(** Two axes. *)
Lemma cell_of xs x : increasing xs -> (2 <= length xs)%nat -> nth 0 xs 0 <= x <= nth (length xs - 1) xs 0 ->
  exists i, (S i < length xs)%nat /\ nth i xs 0 <= x <= nth (S i) xs 0 /\ nth i xs 0 < nth (S i) xs 0.
Proof.
  intros Hi Hn Hx. destruct (eval1d_in_range LINEAR _ xs xs Release x eq_refl Hi Hn eq_refl Hx) as (o & v & _ & _ & (i & H1 & H2 & _)).
  exists i. split; [exact H1|]. split; [exact H2|]. apply Hi. lia.
Qed.
Lemma bil_unique x1 x2 y1 y2 a b c d x y v w : x1 < x2 -> y1 < y2 ->
  bilinear x1 x2 y1 y2 a b c d x y v -> bilinear x1 x2 y1 y2 a b c d x y w -> v = w.
Proof.
  unfold bilinear. intros H1 H2 A B. rewrite <- B in A. apply Rmult_eq_reg_r in A; [exact A|].
  apply Rgt_not_eq, Rmult_lt_0_compat; lra.
Qed.
Lemma at_patch bm xs ys data o x y i j v : increasing xs -> increasing ys -> (2 <= length xs)%nat -> (2 <= length ys)%nat ->
  length data = (length xs * length ys)%nat -> new2d bm LINEAR xs ys data = Ok o ->
  (S i < length xs)%nat -> (S j < length ys)%nat ->
  nth i xs 0 <= x <= nth (S i) xs 0 -> nth j ys 0 <= y <= nth (S j) ys 0 -> patch xs ys data i j x y v ->
  eval2d bm o x y = Ok v.
Proof.
  intros Hi Hj Hn Hm Hl Ho H1 H2 Hx Hy Hp.
  destruct (bilinear_cell_lemma bm xs ys data i j x y Hi Hj Hn Hm Hl H1 H2 Hx Hy) as (o' & w & Ho' & E & B & _).
  rewrite Ho in Ho'. injection Ho' as <-. rewrite E. f_equal.
  eapply bil_unique; [apply (Hi i (S i)); lia|apply (Hj j (S j)); lia|exact B|exact Hp].
Qed.
Definition tpos (x0 x1 x : R) : R := (x - x0) / (x1 - x0).
Definition bval (a b c d s t : R) : R := (1 - s) * ((1 - t) * a + t * b) + s * ((1 - t) * c + t * d).
Lemma patch_value xs ys data i j x y : increasing xs -> increasing ys -> (S i < length xs)%nat -> (S j < length ys)%nat ->
  patch xs ys data i j x y (bval (nth (length ys * i + j) data 0) (nth (length ys * i + S j) data 0)
    (nth (length ys * S i + j) data 0) (nth (length ys * S i + S j) data 0)
    (tpos (nth i xs 0) (nth (S i) xs 0) x) (tpos (nth j ys 0) (nth (S j) ys 0) y)).
Proof.
  intros Hi Hj H1 H2. pose proof (Hi i (S i) ltac:(lia)). pose proof (Hj j (S j) ltac:(lia)).
  unfold patch, bilinear, bval, tpos. field. split; lra.
Qed.
Lemma corner_lt n m i j : (i < n)%nat -> (j < m)%nat -> (m * i + j < n * m)%nat.
Proof. intros. nia. Qed.
Lemma combine2 bm xs ys ds es us od oe ou al be x y : increasing xs -> increasing ys -> (2 <= length xs)%nat -> (2 <= length ys)%nat ->
  length ds = (length xs * length ys)%nat -> length es = (length xs * length ys)%nat -> length us = (length xs * length ys)%nat ->
  (forall k, (k < length xs * length ys)%nat -> nth k us 0 = al * nth k ds 0 + be * nth k es 0) ->
  new2d bm LINEAR xs ys ds = Ok od -> new2d bm LINEAR xs ys es = Ok oe -> new2d bm LINEAR xs ys us = Ok ou ->
  inside xs ys x y ->
  exists v w, eval2d bm od x y = Ok v /\ eval2d bm oe x y = Ok w /\ eval2d bm ou x y = Ok (al * v + be * w).
Proof.
  intros Hi Hj Hn Hm Ld Le Lu H Hd He Hu [Hx Hy].
  destruct (cell_of xs x Hi Hn Hx) as (i & I1 & I2 & I3). destruct (cell_of ys y Hj Hm Hy) as (j & J1 & J2 & J3).
  do 2 eexists. split; [exact (at_patch bm xs ys ds od x y i j _ Hi Hj Hn Hm Ld Hd I1 J1 I2 J2 (patch_value xs ys ds i j x y Hi Hj I1 J1))|].
  split; [exact (at_patch bm xs ys es oe x y i j _ Hi Hj Hn Hm Le He I1 J1 I2 J2 (patch_value xs ys es i j x y Hi Hj I1 J1))|].
  pose proof (patch_value xs ys us i j x y Hi Hj I1 J1) as P. rewrite !H in P by (apply corner_lt; lia).
  replace (bval _ _ _ _ _ _) with
    (al * bval (nth (length ys * i + j) ds 0) (nth (length ys * i + S j) ds 0) (nth (length ys * S i + j) ds 0) (nth (length ys * S i + S j) ds 0)
       (tpos (nth i xs 0) (nth (S i) xs 0) x) (tpos (nth j ys 0) (nth (S j) ys 0) y) +
     be * bval (nth (length ys * i + j) es 0) (nth (length ys * i + S j) es 0) (nth (length ys * S i + j) es 0) (nth (length ys * S i + S j) es 0)
       (tpos (nth i xs 0) (nth (S i) xs 0) x) (tpos (nth j ys 0) (nth (S j) ys 0) y)) in P by (unfold bval; ring).
  exact (at_patch bm xs ys us ou x y i j _ Hi Hj Hn Hm Lu Hu I1 J1 I2 J2 P).
Qed.
Lemma bval_le a b c d a' b' c' d' s t : 0 <= s <= 1 -> 0 <= t <= 1 -> a <= a' -> b <= b' -> c <= c' -> d <= d' ->
  bval a b c d s t <= bval a' b' c' d' s t.
Proof.
  intros Hs Ht A B C D. unfold bval.
  assert (E : forall u v u' v', u <= u' -> v <= v' -> (1 - t) * u + t * v <= (1 - t) * u' + t * v') by (intros; nra).
  pose proof (E a b a' b' A B). pose proof (E c d c' d' C D). nra.
Qed.
Lemma stable2 bm xs ys ds es od oe lo hi x y : increasing xs -> increasing ys -> (2 <= length xs)%nat -> (2 <= length ys)%nat ->
  length ds = (length xs * length ys)%nat -> length es = (length xs * length ys)%nat ->
  (forall k, (k < length xs * length ys)%nat -> lo <= nth k ds 0 - nth k es 0 <= hi) ->
  new2d bm LINEAR xs ys ds = Ok od -> new2d bm LINEAR xs ys es = Ok oe -> inside xs ys x y ->
  exists v w, eval2d bm od x y = Ok v /\ eval2d bm oe x y = Ok w /\ lo <= v - w <= hi.
Proof.
  intros Hi Hj Hn Hm Ld Le H Hd He [Hx Hy].
  destruct (cell_of xs x Hi Hn Hx) as (i & I1 & I2 & I3). destruct (cell_of ys y Hj Hm Hy) as (j & J1 & J2 & J3).
  do 2 eexists. split; [exact (at_patch bm xs ys ds od x y i j _ Hi Hj Hn Hm Ld Hd I1 J1 I2 J2 (patch_value xs ys ds i j x y Hi Hj I1 J1))|].
  split; [exact (at_patch bm xs ys es oe x y i j _ Hi Hj Hn Hm Le He I1 J1 I2 J2 (patch_value xs ys es i j x y Hi Hj I1 J1))|].
  pose proof (line_param _ _ _ I3 I2) as S1. pose proof (line_param _ _ _ J3 J2) as T1.
  fold (tpos (nth i xs 0) (nth (S i) xs 0) x) in S1. fold (tpos (nth j ys 0) (nth (S j) ys 0) y) in T1.
  revert S1 T1. generalize (tpos (nth i xs 0) (nth (S i) xs 0) x) (tpos (nth j ys 0) (nth (S j) ys 0) y). intros s t S1 T1.
  pose proof (H _ (corner_lt (length xs) (length ys) i j ltac:(lia) ltac:(lia))) as A.
  pose proof (H _ (corner_lt (length xs) (length ys) i (S j) ltac:(lia) ltac:(lia))) as B.
  pose proof (H _ (corner_lt (length xs) (length ys) (S i) j ltac:(lia) ltac:(lia))) as C.
  pose proof (H _ (corner_lt (length xs) (length ys) (S i) (S j) ltac:(lia) ltac:(lia))) as D.
  revert A B C D. generalize (length ys * i + j)%nat (length ys * i + S j)%nat (length ys * S i + j)%nat (length ys * S i + S j)%nat.
  intros k1 k2 k3 k4 A B C D.
  set (a := nth k1 ds 0) in *. set (b := nth k2 ds 0) in *. set (c := nth k3 ds 0) in *. set (d := nth k4 ds 0) in *.
  set (a' := nth k1 es 0) in *. set (b' := nth k2 es 0) in *. set (c' := nth k3 es 0) in *. set (d' := nth k4 es 0) in *.
  replace (bval a b c d s t - bval a' b' c' d' s t) with (bval (a - a') (b - b') (c - c') (d - d') s t) by (unfold bval; ring).
  assert (K : forall k, bval k k k k s t = k) by (intros; unfold bval; ring).
  split; [rewrite <- (K lo)|rewrite <- (K hi)]; apply bval_le; lra.
Qed.
Lemma transpose2 bm xs ys ds es od oe x y : increasing xs -> increasing ys -> (2 <= length xs)%nat -> (2 <= length ys)%nat ->
  length ds = (length xs * length ys)%nat -> length es = (length xs * length ys)%nat ->
  (forall i j, (i < length xs)%nat -> (j < length ys)%nat -> nth (length xs * j + i) es 0 = nth (length ys * i + j) ds 0) ->
  new2d bm LINEAR xs ys ds = Ok od -> new2d bm LINEAR ys xs es = Ok oe -> inside xs ys x y ->
  exists v, eval2d bm od x y = Ok v /\ eval2d bm oe y x = Ok v.
Proof.
  intros Hi Hj Hn Hm Ld Le H Hd He [Hx Hy].
  destruct (cell_of xs x Hi Hn Hx) as (i & I1 & I2 & I3). destruct (cell_of ys y Hj Hm Hy) as (j & J1 & J2 & J3).
  eexists. split; [exact (at_patch bm xs ys ds od x y i j _ Hi Hj Hn Hm Ld Hd I1 J1 I2 J2 (patch_value xs ys ds i j x y Hi Hj I1 J1))|].
  pose proof (patch_value ys xs es j i y x Hj Hi J1 I1) as P. rewrite !H in P by lia.
  assert (Le' : length es = (length ys * length xs)%nat) by lia.
  apply (at_patch bm ys xs es oe y x j i _ Hj Hi Hm Hn Le' He J1 I1 J2 I2).
  replace (bval _ _ _ _ _ _) with (bval (nth (length ys * i + j) ds 0) (nth (length ys * S i + j) ds 0) (nth (length ys * i + S j) ds 0)
    (nth (length ys * S i + S j) ds 0) (tpos (nth j ys 0) (nth (S j) ys 0) y) (tpos (nth i xs 0) (nth (S i) xs 0) x)); [exact P|].
  unfold bval. ring.
Qed.

(** Any number of axes. *)
Lemma grid_at bm gs a cell p o : good_axes gs -> length (nd_flat a) = count (map (@length R) gs) -> in_cell gs cell p ->
  rgi_make gs a = Ok o -> rgi_interp bm o p false = Ok (blend gs (nd_flat a) cell p).
Proof.
  intros H1 H2 H3 Ho. destruct (grid_blend_lemma bm gs a cell p H1 H2 H3) as (o' & Ho' & E).
  rewrite Ho in Ho'. injection Ho' as <-. exact E.
Qed.
Lemma combine_grid bm gs a b c oa ob oc al be cell p : good_axes gs ->
  length (nd_flat a) = count (map (@length R) gs) -> length (nd_flat b) = count (map (@length R) gs) ->
  length (nd_flat c) = count (map (@length R) gs) ->
  (forall k, (k < count (map (@length R) gs))%nat -> nth k (nd_flat c) 0 = al * nth k (nd_flat a) 0 + be * nth k (nd_flat b) 0) ->
  rgi_make gs a = Ok oa -> rgi_make gs b = Ok ob -> rgi_make gs c = Ok oc -> in_cell gs cell p ->
  exists v w, rgi_interp bm oa p false = Ok v /\ rgi_interp bm ob p false = Ok w /\
    rgi_interp bm oc p false = Ok (al * v + be * w).
Proof.
  intros Hg La Lb Lc H Ha Hb Hc Hp. do 2 eexists.
  split; [exact (grid_at bm gs a cell p oa Hg La Hp Ha)|]. split; [exact (grid_at bm gs b cell p ob Hg Lb Hp Hb)|]. rewrite (grid_at bm gs c cell p oc) by assumption. f_equal.
  unfold blend. rewrite <- !sum_scal. induction (corners (length gs)) as [|v l IH]; cbn [map sum fold_right]; [ring|].
  unfold sum in IH. rewrite IH. unfold element.
  destruct (lt_dec (pos (map (@length R) gs) (map2 Nat.add cell v)) (count (map (@length R) gs))) as [L|L].
  - rewrite H by exact L. ring.
  - rewrite !(nth_overflow (nd_flat _)) by lia. ring.
Qed.
Lemma weight_pos gs : forall cell p v, good_axes gs -> in_cell gs cell p -> 0 <= weight gs cell p v.
Proof.
  induction gs as [|g gs IH]; intros [|i cell] [|x p] [|b v] Hg Hc; cbn [weight]; try lra; cbn [in_cell] in Hc; try contradiction.
  destruct Hc as (H1 & H2 & H3). inversion Hg as [|? ? [Gi _] Hg']. subst.
  pose proof (Gi i (S i) ltac:(lia)). apply Rmult_le_pos; [|now apply IH].
  destruct b; (apply Rmult_le_pos; [lra|left; apply Rinv_0_lt_compat; lra]).
Qed.
Lemma weight_one gs : forall cell p, good_axes gs -> in_cell gs cell p ->
  sum (map (fun v => weight gs cell p v) (corners (length gs))) = 1.
Proof.
  induction gs as [|g gs IH]; intros [|i cell] [|x p] Hg Hc; cbn [in_cell] in Hc; try contradiction.
  - cbn. lra.
  - destruct Hc as (H1 & H2 & H3). inversion Hg as [|? ? [Gi _] Hg']. subst. pose proof (Gi i (S i) ltac:(lia)).
    cbn [length corners]. rewrite map_app, sum_app, !map_map. cbn [weight].
    rewrite !sum_scal, IH by assumption. field. lra.
Qed.
Lemma stable_grid bm gs a b oa ob lo hi cell p : good_axes gs ->
  length (nd_flat a) = count (map (@length R) gs) -> length (nd_flat b) = count (map (@length R) gs) ->
  (forall k, (k < count (map (@length R) gs))%nat -> lo <= nth k (nd_flat a) 0 - nth k (nd_flat b) 0 <= hi) ->
  rgi_make gs a = Ok oa -> rgi_make gs b = Ok ob -> in_cell gs cell p ->
  exists v w, rgi_interp bm oa p false = Ok v /\ rgi_interp bm ob p false = Ok w /\ lo <= v - w <= hi.
Proof.
  intros Hg La Lb H Ha Hb Hp. do 2 eexists.
  split; [exact (grid_at bm gs a cell p oa Hg La Hp Ha)|]. split; [exact (grid_at bm gs b cell p ob Hg Lb Hp Hb)|].
  assert (IN : forall gs' cell' p' v, in_cell gs' cell' p' -> In v (corners (length gs')) ->
    (pos (map (@length R) gs') (map2 Nat.add cell' v) < count (map (@length R) gs'))%nat).
  { induction gs' as [|g gs' IH]; intros [|i cell'] [|x p'] v Hc Hv; cbn [in_cell] in Hc; try contradiction.
    - cbn. lia.
    - destruct Hc as (H1 & _ & H3). cbn [length corners] in Hv. apply in_app_or in Hv.
      destruct Hv as [Hv|Hv]; apply in_map_iff in Hv; destruct Hv as (w & <- & Hw); pose proof (IH cell' p' w H3 Hw); cbn [map map2 pos count]; nia. }
  pose proof (weight_one gs cell p Hg Hp) as W1.
  assert (G : forall l, incl l (corners (length gs)) ->
    lo * sum (map (fun v => weight gs cell p v) l) <=
    sum (map (fun v => weight gs cell p v * element (map (@length R) gs) (nd_flat a) (map2 Nat.add cell v)) l) -
    sum (map (fun v => weight gs cell p v * element (map (@length R) gs) (nd_flat b) (map2 Nat.add cell v)) l) <=
    hi * sum (map (fun v => weight gs cell p v) l)).
  { induction l as [|v l IH]; intros Hl; cbn [map sum fold_right]; [lra|].
    specialize (IH (fun w Hw => Hl w (or_intror Hw))). unfold sum in IH.
    pose proof (weight_pos gs cell p v Hg Hp) as Wp. pose proof (H _ (IN gs cell p v Hp (Hl v (or_introl eq_refl)))) as E.
    unfold element in *. nra. }
  specialize (G _ (incl_refl _)). rewrite W1 in G. unfold blend. lra.
Qed.
