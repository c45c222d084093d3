(** The trapezoidal rule integrates the linear interpolant. *)
From Coq Require Import List Arith ZArith Reals Lra Lia Bool.
From Coquelicot Require Import Coquelicot.
From Verif Require Import Outcome Num StdAlgo M_Interp1d S_Interp1d L_Search L_Interp1d M_Integ S_Series S_Integ L_Series L_Integ L_Samples.
Import ListNotations.
Local Open Scope R_scope.

Lemma areas_bsum : forall x y, length y = length x ->
  areas x y = bsum (length x - 1) (fun i => (nth (S i) x 0 - nth i x 0) * (nth i y 0 + nth (S i) y 0) / 2).
Proof.
  induction x as [|x0 x IH]; intros [|y0 y] H; try discriminate; [reflexivity|].
  destruct x as [|x1 x], y as [|y1 y]; try discriminate; [reflexivity|].
  replace (length (x0 :: x1 :: x) - 1)%nat with (S (length (x1 :: x) - 1)) by (simpl; lia).
  rewrite bsum_shift, areas_cons. f_equal. rewrite (IH (y1 :: y)) by (simpl in *; lia). reflexivity.
Qed.
Lemma cell_int (F : R -> R) x0 y0 x1 y1 : x0 < x1 ->
  (forall x, x0 <= x <= x1 -> on_line x0 y0 x1 y1 x (F x)) -> is_RInt F x0 x1 ((x1 - x0) * (y0 + y1) / 2).
Proof.
  intros H HF. apply (is_RInt_ext (fun x => y0 + (y1 - y0) * ((x - x0) / (x1 - x0)))).
  - intros x Hx. rewrite Rmin_left, Rmax_right in Hx by lra. symmetry. apply line_value; [exact H|apply HF; lra].
  - set (G := fun t => y0 * t + (y1 - y0) / (x1 - x0) * (t - x0) ^ 2 / 2).
    replace ((x1 - x0) * (y0 + y1) / 2) with (minus (G x1) (G x0)).
    2:{ unfold minus, plus, opp, G; simpl. field. lra. }
    apply (is_RInt_derive G).
    + intros x _. unfold G. auto_derive; [exact I|]. field. lra.
    + intros x _. apply (ex_derive_continuous (V := R_NormedModule)). auto_derive. exact I.
Qed.
Lemma polyline_int bm m xs ys o (F : R -> R) : is_linear m -> increasing xs -> (2 <= length xs)%nat -> length ys = length xs ->
  new1d bm m xs ys = Ok o -> (forall x, nth 0 xs 0 <= x <= nth (length xs - 1) xs 0 -> eval1d o x = Ok (F x)) ->
  forall i j, (i <= j < length xs)%nat ->
  is_RInt F (nth i xs 0) (nth j xs 0) (bsum (j - i) (fun k => (nth (S (i + k)) xs 0 - nth (i + k) xs 0) * (nth (i + k) ys 0 + nth (S (i + k)) ys 0) / 2)).
Proof.
  intros Hm Hi Hn Hl Ho HF i j [Hij Hj]. induction Hij as [|j Hij IH].
  - rewrite Nat.sub_diag. apply (is_RInt_point F).
  - replace (S j - i)%nat with (S (j - i)) by lia. cbn [bsum].
    apply (is_RInt_Chasles F _ (nth j xs 0)); [apply IH; lia|].
    replace (i + (j - i))%nat with j by lia. apply cell_int; [apply Hi; lia|].
    intros x Hx.
    assert (Rg : nth 0 xs 0 <= x <= nth (length xs - 1) xs 0).
    { pose proof (increasing_le xs 0 j Hi ltac:(lia)). pose proof (increasing_le xs (S j) (length xs - 1) Hi ltac:(lia)). lra. }
    pose proof (chord_line xs ys j x Hi Hj) as L.
    match type of L with on_line _ _ _ _ _ ?v => assert (E : eval1d o x = Ok v) by (apply (at_cell bm m xs ys o x j); auto) end.
    rewrite HF in E by exact Rg. injection E as E. rewrite E. exact L.
Qed.
Lemma trapz_interp bm bm' m xs ys o (F : R -> R) : is_linear m -> increasing xs -> (2 <= length xs)%nat -> length ys = length xs ->
  new1d bm m xs ys = Ok o -> (forall x, nth 0 xs 0 <= x <= nth (length xs - 1) xs 0 -> eval1d o x = Ok (F x)) ->
  ex_RInt F (nth 0 xs 0) (nth (length xs - 1) xs 0) /\
  trapz_xy bm' xs ys = Ok (RInt F (nth 0 xs 0) (nth (length xs - 1) xs 0)).
Proof.
  intros Hm Hi Hn Hl Ho HF. pose proof (polyline_int bm m xs ys o F Hm Hi Hn Hl Ho HF 0 (length xs - 1) ltac:(lia)) as P.
  rewrite Nat.sub_0_r in P. split; [eexists; exact P|].
  rewrite trapz_xy_ok by lia. apply (f_equal (@Ok R)). rewrite areas_bsum by exact Hl. symmetry. apply is_RInt_unique. exact P.
Qed.
(** Between two samples, the rule on the samples in between. *)
Lemma areas_slice xs ys i j : length ys = length xs -> (i <= j < length xs)%nat ->
  areas (firstn (j - i + 1) (skipn i xs)) (firstn (j - i + 1) (skipn i ys)) =
  bsum (j - i) (fun k => (nth (S (i + k)) xs 0 - nth (i + k) xs 0) * (nth (i + k) ys 0 + nth (S (i + k)) ys 0) / 2).
Proof.
  intros Hl Hij. assert (A : length (firstn (j - i + 1) (skipn i xs)) = (j - i + 1)%nat) by (rewrite firstn_length, skipn_length; lia).
  assert (B : length (firstn (j - i + 1) (skipn i ys)) = (j - i + 1)%nat) by (rewrite firstn_length, skipn_length; lia).
  rewrite areas_bsum by lia. rewrite A. replace (j - i + 1 - 1)%nat with (j - i)%nat by lia.
  assert (N : forall (l : list R) k, (k < j - i + 1)%nat -> nth k (firstn (j - i + 1) (skipn i l)) 0 = nth (i + k) l 0).
  { intros l k Hk. revert Hk. generalize (j - i + 1)%nat as n. intros n Hk.
    transitivity (nth k (skipn i l) 0).
    - generalize (skipn i l). clear l. revert k Hk. induction n as [|n IH]; intros [|k] Hk [|h l]; try lia; try reflexivity.
      cbn [firstn nth]. apply IH. lia.
    - clear. revert l. induction i as [|i IH]; intros [|h l]; try reflexivity; [destruct k; reflexivity|]. cbn [skipn plus nth]. apply IH. }
  apply bsum_ext. intros k Hk. rewrite !N by lia. rewrite !Nat.add_succ_r. reflexivity.
Qed.
Lemma trapz_slice bm bm' m xs ys o (F : R -> R) i j : is_linear m -> increasing xs -> (2 <= length xs)%nat -> length ys = length xs ->
  new1d bm m xs ys = Ok o -> (forall x, nth 0 xs 0 <= x <= nth (length xs - 1) xs 0 -> eval1d o x = Ok (F x)) ->
  (i < j < length xs)%nat ->
  trapz_xy bm' (firstn (j - i + 1) (skipn i xs)) (firstn (j - i + 1) (skipn i ys)) = Ok (RInt F (nth i xs 0) (nth j xs 0)).
Proof.
  intros Hm Hi Hn Hl Ho HF Hij. rewrite trapz_xy_ok by (rewrite ?firstn_length, ?skipn_length; lia).
  rewrite areas_slice by lia. apply (f_equal (@Ok R)). symmetry. apply is_RInt_unique.
  apply (polyline_int bm m xs ys o F Hm Hi Hn Hl Ho HF). lia.
Qed.
(** The rule does not see a sample on the chord. *)
Lemma areas_insert p x0 x1 q r y0 y1 s a b : length r = length p -> length s = length q -> on_line x0 y0 x1 y1 a b ->
  areas (p ++ x0 :: a :: x1 :: q) (r ++ y0 :: b :: y1 :: s) = areas (p ++ x0 :: x1 :: q) (r ++ y0 :: y1 :: s).
Proof.
  intros Hr Hs L. revert r Hr. induction p as [|u p IH]; intros [|v r] Hr; try discriminate.
  - cbn [app]. change (areas (x0 :: a :: x1 :: q) (y0 :: b :: y1 :: s)) with
      ((a - x0) * (y0 + b) / 2 + ((x1 - a) * (b + y1) / 2 + areas (x1 :: q) (y1 :: s))).
    change (areas (x0 :: x1 :: q) (y0 :: y1 :: s)) with ((x1 - x0) * (y0 + y1) / 2 + areas (x1 :: q) (y1 :: s)).
    unfold on_line in L. nra.
  - specialize (IH r (eq_add_S _ _ Hr)). cbn [app].
    destruct p as [|u' p], r as [|v' r]; try discriminate.
    + cbn [app] in *. cbn [areas]. cbn [areas] in IH. rewrite IH. reflexivity.
    + cbn [app] in *. change (areas (u :: u' :: p ++ x0 :: a :: x1 :: q) (v :: v' :: r ++ y0 :: b :: y1 :: s)) with
        ((u' - u) * (v + v') / 2 + areas (u' :: p ++ x0 :: a :: x1 :: q) (v' :: r ++ y0 :: b :: y1 :: s)).
      rewrite IH. reflexivity.
Qed.
Lemma trapz_insert bm p x0 x1 q r y0 y1 s a b : length r = length p -> length s = length q -> on_line x0 y0 x1 y1 a b ->
  trapz_xy bm (p ++ x0 :: a :: x1 :: q) (r ++ y0 :: b :: y1 :: s) = trapz_xy bm (p ++ x0 :: x1 :: q) (r ++ y0 :: y1 :: s).
Proof.
  intros Hr Hs L. rewrite !trapz_xy_ok by (rewrite !app_length; simpl; lia). f_equal. now apply areas_insert.
Qed.
