(** Grid interpolation one axis at a time. *)
From Coq Require Import List Arith ZArith Reals Lra Lia Bool.
From Verif Require Import Outcome Num StdAlgo S_Interp1d M_Grid S_Grid L_Grid L_Samples S_Slab.
Import ListNotations.
Local Open Scope R_scope.

Lemma corner_pos : forall gs cell p v, in_cell gs cell p -> In v (corners (length gs)) ->
  (pos (map (@length R) gs) (map2 Nat.add cell v) < count (map (@length R) gs))%nat.
Proof.
  induction gs as [|g gs IH]; intros [|i cell] [|x p] v Hc Hv; cbn [in_cell] in Hc; try contradiction.
  - cbn. lia.
  - destruct Hc as (H1 & _ & H3). cbn [length corners] in Hv. apply in_app_or in Hv.
    destruct Hv as [Hv|Hv]; apply in_map_iff in Hv; destruct Hv as (w & <- & Hw); pose proof (IH cell p w H3 Hw); cbn [map map2 pos count]; nia.
Qed.
Lemma slice_nth (l : list R) i n k : (k < n)%nat -> nth k (firstn n (skipn i l)) 0 = nth (i + k) l 0.
Proof.
  intros Hk. transitivity (nth k (skipn i l) 0).
  - generalize (skipn i l). clear l. revert k Hk. induction n as [|n IH]; intros [|k] Hk [|h l]; try lia; try reflexivity.
    cbn [firstn nth]. apply IH. lia.
  - clear. revert l. induction i as [|i IH]; intros [|h l]; try reflexivity; [destruct k; reflexivity|]. cbn [skipn plus nth]. apply IH.
Qed.
Lemma slab_length sizes a i n : length (nd_flat a) = (n * count sizes)%nat -> (i < n)%nat ->
  length (nd_flat (slab sizes a i)) = count sizes.
Proof. intros H Hi. unfold slab. cbn [nd_flat]. rewrite firstn_length, skipn_length, H. nia. Qed.
Lemma blend_cons g gs a i cell x p : in_cell gs cell p ->
  blend (g :: gs) (nd_flat a) (i :: cell) (x :: p) =
  (nth (S i) g 0 - x) / (nth (S i) g 0 - nth i g 0) * blend gs (nd_flat (slab (map (@length R) gs) a i)) cell p +
  (x - nth i g 0) / (nth (S i) g 0 - nth i g 0) * blend gs (nd_flat (slab (map (@length R) gs) a (S i))) cell p.
Proof.
  intros Hc. unfold blend. cbn [length corners]. rewrite map_app, sum_app, !map_map, <- !sum_scal.
  f_equal; apply sum_ext; intros v Hv; cbn [weight map2 map]; rewrite Rmult_assoc; f_equal; f_equal;
    unfold element, slab; cbn [nd_flat pos]; rewrite slice_nth by (eapply corner_pos; eauto); f_equal; f_equal; lia.
Qed.
Lemma axis_by_axis bm g gs a o o0 o1 i cell x p :
  good_axes (g :: gs) -> length (nd_flat a) = count (map (@length R) (g :: gs)) ->
  in_cell (g :: gs) (i :: cell) (x :: p) ->
  rgi_make (g :: gs) a = Ok o ->
  rgi_make gs (slab (map (@length R) gs) a i) = Ok o0 -> rgi_make gs (slab (map (@length R) gs) a (S i)) = Ok o1 ->
  exists v v0 v1, rgi_interp bm o (x :: p) false = Ok v /\ rgi_interp bm o0 p false = Ok v0 /\ rgi_interp bm o1 p false = Ok v1 /\
    on_line (nth i g 0) v0 (nth (S i) g 0) v1 x v.
Proof.
  intros Hg La Hc Ho H0 H1. pose proof Hc as Hc'. cbn [in_cell] in Hc'. destruct Hc' as (I1 & I2 & I3).
  pose proof Hg as Hg2. inversion Hg2 as [|? ? [Gi _] Hg']. subst. cbn [map count] in La.
  do 3 eexists. split; [exact (grid_at bm (g :: gs) a (i :: cell) (x :: p) o Hg La Hc Ho)|].
  split; [exact (grid_at bm gs _ cell p o0 Hg' (slab_length _ a i _ La ltac:(lia)) I3 H0)|].
  split; [exact (grid_at bm gs _ cell p o1 Hg' (slab_length _ a (S i) _ La I1) I3 H1)|].
  rewrite blend_cons by exact I3. pose proof (Gi i (S i) ltac:(lia)). unfold on_line. field. lra.
Qed.
Lemma at_slab bm g gs a o o0 i cell p :
  good_axes (g :: gs) -> length (nd_flat a) = count (map (@length R) (g :: gs)) -> (2 <= length g)%nat -> (i < length g)%nat ->
  in_cell gs cell p -> rgi_make (g :: gs) a = Ok o -> rgi_make gs (slab (map (@length R) gs) a i) = Ok o0 ->
  rgi_interp bm o (nth i g 0 :: p) false = rgi_interp bm o0 p false.
Proof.
  intros Hg La G2 Hi Hc Ho H0. pose proof Hg as Hg2. inversion Hg2 as [|? ? [Gi _] Hg']. subst. cbn [map count] in La.
  rewrite (grid_at bm gs _ cell p o0 Hg' (slab_length _ a i _ La Hi) Hc H0).
  destruct (Nat.eq_dec (S i) (length g)) as [E|E].
  - assert (C : in_cell (g :: gs) ((i - 1)%nat :: cell) (nth i g 0 :: p)).
    { cbn [in_cell]. split; [lia|]. split; [|exact Hc]. pose proof (Gi (i - 1)%nat i ltac:(lia)).
      replace (S (i - 1)) with i by lia. lra. }
    rewrite (grid_at bm (g :: gs) a _ _ o Hg La C Ho). f_equal. rewrite blend_cons by exact Hc.
    replace (S (i - 1)) with i by lia. pose proof (Gi (i - 1)%nat i ltac:(lia)). field. lra.
  - assert (C : in_cell (g :: gs) (i :: cell) (nth i g 0 :: p)).
    { cbn [in_cell]. split; [lia|]. split; [|exact Hc]. pose proof (Gi i (S i) ltac:(lia)). lra. }
    rewrite (grid_at bm (g :: gs) a _ _ o Hg La C Ho). f_equal. rewrite blend_cons by exact Hc.
    pose proof (Gi i (S i) ltac:(lia)). field. lra.
Qed.
Lemma constant_axis bm g gs a o o0 i cell x p :
  good_axes (g :: gs) -> length (nd_flat a) = count (map (@length R) (g :: gs)) ->
  in_cell (g :: gs) (i :: cell) (x :: p) ->
  (forall k, (k < length g)%nat -> slab (map (@length R) gs) a k = slab (map (@length R) gs) a 0) ->
  rgi_make (g :: gs) a = Ok o -> rgi_make gs (slab (map (@length R) gs) a 0) = Ok o0 ->
  rgi_interp bm o (x :: p) false = rgi_interp bm o0 p false.
Proof.
  intros Hg La Hc Hs Ho H0. pose proof Hc as Hc'. cbn [in_cell] in Hc'. destruct Hc' as (I1 & I2 & I3).
  pose proof Hg as Hg2. inversion Hg2 as [|? ? [Gi _] Hg']. subst. pose proof (Gi i (S i) ltac:(lia)).
  destruct (axis_by_axis bm g gs a o o0 o0 i cell x p Hg La Hc Ho) as (v & v0 & v1 & E & E0 & E1 & L).
  - rewrite Hs by lia. exact H0.
  - rewrite Hs by lia. exact H0.
  - rewrite E, E0. rewrite E0 in E1. injection E1 as E1. subst v1. f_equal. unfold on_line in L.
    assert (Z : (v - v0) * (nth (S i) g 0 - nth i g 0) = 0) by lra. apply Rmult_integral in Z. lra.
Qed.
