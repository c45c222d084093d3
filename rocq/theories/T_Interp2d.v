(** Properties C13-C16 and C84: 2D interpolation (Interp2d.h).

    [new2d bm m xs ys data] is the client sequence "MakeInterp2d(m), then
    Initialize(xs, ys, data)"; [eval2d bm o x y] is Eval(x, y). *)
From Coq Require Import List Arith Lia Bool Reals Lra.
From Verif Require Import Outcome Num StdAlgo M_Interp1d S_Interp1d L_Search L_Interp1d M_Interp2d S_Interp2d L_Interp2d.
Import ListNotations.
Open Scope R_scope.

(** Table of the examples: 3 x 2 grid. *)
Definition ex2_x : list R := [0; 1; 3].
Definition ex2_y : list R := [0; 2].
Definition ex2_d : list R := [1; 2; 3; 5; 8; 13].
Lemma ex2_x_increasing : increasing ex2_x.
Proof.
  intros i j Hij. simpl in Hij.
  destruct i as [|[|[|i]]]; destruct j as [|[|[|j]]]; simpl; try lia; lra.
Qed.
Lemma ex2_y_increasing : increasing ex2_y.
Proof.
  intros i j Hij. simpl in Hij.
  destruct i as [|[|i]]; destruct j as [|[|j]]; simpl; try lia; lra.
Qed.

(** C13: every node is reproduced, data being stored row by row (x slow, y fast). *)
Theorem C13_interp2d_reproduces_samples : forall bm xs ys data i j,
  increasing xs -> increasing ys -> (2 <= length xs)%nat -> (2 <= length ys)%nat ->
  length data = (length xs * length ys)%nat ->
  (i < length xs)%nat -> (j < length ys)%nat ->
  exists o, new2d bm LINEAR xs ys data = Ok o /\
    eval2d bm o (nth i xs 0) (nth j ys 0) = Ok (nth (length ys * i + j) data 0).
Proof. exact nodes2d_lemma. Qed.
Print Assumptions C13_interp2d_reproduces_samples.

Example C13_example : exists o, new2d Debug LINEAR ex2_x ex2_y ex2_d = Ok o /\ eval2d Debug o 1 2 = Ok 5.
Proof.
  exact (C13_interp2d_reproduces_samples Debug ex2_x ex2_y ex2_d 1 1 ex2_x_increasing ex2_y_increasing
    ltac:(simpl; lia) ltac:(simpl; lia) eq_refl ltac:(simpl; lia) ltac:(simpl; lia)).
Qed.

(** C14: in every closed cell the value is the bilinear blend of the corners of
    that cell, between their minimum and maximum.  On an edge shared by two
    cells the statement holds for both, so the surface has no jump there. *)
Theorem C14_interp2d_bilinear : forall bm xs ys data i j x y,
  increasing xs -> increasing ys -> (2 <= length xs)%nat -> (2 <= length ys)%nat ->
  length data = (length xs * length ys)%nat ->
  (S i < length xs)%nat -> (S j < length ys)%nat ->
  nth i xs 0 <= x <= nth (S i) xs 0 -> nth j ys 0 <= y <= nth (S j) ys 0 ->
  exists o v, new2d bm LINEAR xs ys data = Ok o /\ eval2d bm o x y = Ok v /\
    let d := fun i j => nth (length ys * i + j) data 0 in
    bilinear (nth i xs 0) (nth (S i) xs 0) (nth j ys 0) (nth (S j) ys 0)
      (d i j) (d i (S j)) (d (S i) j) (d (S i) (S j)) x y v /\
    min4 (d i j) (d i (S j)) (d (S i) j) (d (S i) (S j)) <= v
      <= max4 (d i j) (d i (S j)) (d (S i) j) (d (S i) (S j)).
Proof. exact bilinear_cell_lemma. Qed.
Print Assumptions C14_interp2d_bilinear.

Example C14_example : exists o, new2d Release LINEAR ex2_x ex2_y ex2_d = Ok o /\
  eval2d Release o 2 1 = Ok (29 / 4).
Proof.
  destruct (C14_interp2d_bilinear Release ex2_x ex2_y ex2_d 1 0 2 1 ex2_x_increasing ex2_y_increasing
    ltac:(simpl; lia) ltac:(simpl; lia) eq_refl ltac:(simpl; lia) ltac:(simpl; lia)
    ltac:(simpl; lra) ltac:(simpl; lra)) as (o & v & H1 & H2 & H3 & _).
  exists o. split; auto. rewrite H2. f_equal. unfold bilinear in H3. simpl in H3. lra.
Qed.

(** C15, debug build: Eval aborts exactly outside the bounding box, and returns inside. *)
Theorem C15_interp2d_debug_guard : forall xs ys data x y,
  increasing xs -> increasing ys -> (2 <= length xs)%nat -> (2 <= length ys)%nat ->
  length data = (length xs * length ys)%nat ->
  exists o, new2d Debug LINEAR xs ys data = Ok o /\
    (eval2d Debug o x y = Abort <->
       ~ (nth 0 xs 0 <= x <= nth (length xs - 1) xs 0 /\ nth 0 ys 0 <= y <= nth (length ys - 1) ys 0)) /\
    (eval2d Debug o x y <> Abort -> exists v, eval2d Debug o x y = Ok v).
Proof. exact debug2d_lemma. Qed.
Print Assumptions C15_interp2d_debug_guard.

Example C15_debug_example : exists o, new2d Debug LINEAR ex2_x ex2_y ex2_d = Ok o /\
  eval2d Debug o (1/2) 3 = Abort.
Proof.
  destruct (C15_interp2d_debug_guard ex2_x ex2_y ex2_d (1/2) 3 ex2_x_increasing ex2_y_increasing
    ltac:(simpl; lia) ltac:(simpl; lia) eq_refl) as (o & H1 & H2 & _).
  exists o. split; auto. apply H2. simpl. lra.
Qed.

(** C15, release build, (x, y) not above the box: the cell selected by clamping
    answers, in range or not. *)
Theorem C15_interp2d_release_below : forall xs ys data i j x y,
  increasing xs -> increasing ys -> (2 <= length xs)%nat -> (2 <= length ys)%nat ->
  length data = (length xs * length ys)%nat ->
  clamped_cell xs x i -> clamped_cell ys y j ->
  exists o v, new2d Release LINEAR xs ys data = Ok o /\ eval2d Release o x y = Ok v /\
    patch xs ys data i j x y v.
Proof. exact release_cell_lemma. Qed.
Print Assumptions C15_interp2d_release_below.

(** C15, release build, x above the box: out_of_range, whatever y. *)
Theorem C15_interp2d_release_x_above : forall xs ys data x y,
  increasing xs -> increasing ys -> (2 <= length xs)%nat -> (2 <= length ys)%nat ->
  length data = (length xs * length ys)%nat ->
  nth (length xs - 1) xs 0 < x ->
  exists o, new2d Release LINEAR xs ys data = Ok o /\ eval2d Release o x y = Throw OutOfRange.
Proof. exact release_xabove_lemma. Qed.
Print Assumptions C15_interp2d_release_x_above.

(** C15, release build, y above the box and x attributed to x-cell [i]: the
    first y-cell of the NEXT x-cell answers; for the last x-cell out_of_range. *)
Theorem C15_interp2d_release_y_above : forall xs ys data i x y,
  increasing xs -> increasing ys -> (2 <= length xs)%nat -> (2 <= length ys)%nat ->
  length data = (length xs * length ys)%nat ->
  nth (length ys - 1) ys 0 < y -> clamped_cell xs x i ->
  exists o, new2d Release LINEAR xs ys data = Ok o /\
    ((S (S i) < length xs)%nat -> exists v, eval2d Release o x y = Ok v /\
       patch xs ys data (S i) 0 x y v) /\
    ((S (S i) = length xs)%nat -> eval2d Release o x y = Throw OutOfRange).
Proof. exact release_above_lemma. Qed.
Print Assumptions C15_interp2d_release_y_above.

Example C15_release_example : exists o, new2d Release LINEAR ex2_x ex2_y ex2_d = Ok o /\
  eval2d Release o (1/2) 3 = Ok (29/8) /\ eval2d Release o 2 3 = Throw OutOfRange /\
  eval2d Release o 4 1 = Throw OutOfRange /\ eval2d Release o (-1) (-1) = Ok (-1).
Proof.
  assert (Hc : clamped_cell ex2_x (1/2) 0) by (repeat split; simpl; auto; try lia; try lra).
  assert (Hc2 : clamped_cell ex2_x 2 1) by (repeat split; simpl; auto; try lia; try lra).
  assert (Hc3 : clamped_cell ex2_x (-1) 0) by (repeat split; simpl; auto; try lia; try lra).
  assert (Hc4 : clamped_cell ex2_y (-1) 0) by (repeat split; simpl; auto; try lia; try lra).
  destruct (C15_interp2d_release_y_above ex2_x ex2_y ex2_d 0 (1/2) 3 ex2_x_increasing ex2_y_increasing
    ltac:(simpl; lia) ltac:(simpl; lia) eq_refl ltac:(simpl; lra) Hc) as (o & H1 & H2 & _).
  destruct (C15_interp2d_release_y_above ex2_x ex2_y ex2_d 1 2 3 ex2_x_increasing ex2_y_increasing
    ltac:(simpl; lia) ltac:(simpl; lia) eq_refl ltac:(simpl; lra) Hc2) as (o' & H1' & _ & H2').
  destruct (C15_interp2d_release_x_above ex2_x ex2_y ex2_d 4 1 ex2_x_increasing ex2_y_increasing
    ltac:(simpl; lia) ltac:(simpl; lia) eq_refl ltac:(simpl; lra)) as (o3 & H3 & H4).
  destruct (C15_interp2d_release_below ex2_x ex2_y ex2_d 0 0 (-1) (-1) ex2_x_increasing ex2_y_increasing
    ltac:(simpl; lia) ltac:(simpl; lia) eq_refl Hc3 Hc4) as (o5 & v5 & H5 & H6 & H7).
  rewrite H1 in H1', H3, H5. injection H1' as <-. injection H3 as <-. injection H5 as <-.
  exists o. split; auto. split; [|split; [|split]]; auto.
  - destruct (H2 ltac:(simpl; lia)) as (v & Hv & Hp). rewrite Hv. f_equal.
    unfold patch, bilinear in Hp. simpl in Hp. lra.
  - rewrite H6. f_equal. unfold patch, bilinear in H7. simpl in H7. lra.
Qed.

(** C15, intended claim, refuted: in a release build a query outside the grid is
    not always reported, nor does it always extend the cell the point projects to. *)
Theorem C15_interp2d_release_refuted : exists xs ys data x y o v,
  increasing xs /\ increasing ys /\ (2 <= length xs)%nat /\ (2 <= length ys)%nat /\
  length data = (length xs * length ys)%nat /\
  nth 0 xs 0 < x < nth 1 xs 0 /\ nth (length ys - 1) ys 0 < y /\
  new2d Release LINEAR xs ys data = Ok o /\ eval2d Release o x y = Ok v /\
  ~ patch xs ys data 0 (length ys - 2) x y v.
Proof.
  destruct C15_release_example as (o & H1 & H2 & _).
  exists ex2_x, ex2_y, ex2_d, (1/2), 3, o, (29/8).
  split; [exact ex2_x_increasing|]. split; [exact ex2_y_increasing|].
  repeat split; auto; try (simpl; lia); try (simpl; lra).
  unfold patch, bilinear. simpl. lra.
Qed.
Print Assumptions C15_interp2d_release_refuted.

(** C16: construction guards. *)
Theorem C16_interp2d_debug_sorted : forall xs ys data : list R,
  new2d Debug LINEAR xs ys data = Abort <-> (~ nondecreasing xs \/ ~ nondecreasing ys).
Proof. exact debug_guard2d_lemma. Qed.
Print Assumptions C16_interp2d_debug_sorted.

Theorem C16_interp2d_data_size : forall bm (xs ys data : list R),
  (bm = Debug -> nondecreasing xs /\ nondecreasing ys) ->
  (2 <= length xs)%nat -> (2 <= length ys)%nat ->
  ((length data < length xs * length ys)%nat -> new2d bm LINEAR xs ys data = Throw OutOfRange) /\
  ((length xs * length ys <= length data)%nat -> exists o, new2d bm LINEAR xs ys data = Ok o).
Proof. exact short_data_lemma. Qed.
Print Assumptions C16_interp2d_data_size.

Theorem C16_interp2d_empty_axis : forall bm (xs ys data : list R),
  (bm = Debug -> nondecreasing xs /\ nondecreasing ys) ->
  xs = [] \/ ys = [] -> new2d bm LINEAR xs ys data = Throw OutOfRange.
Proof. exact empty2d_lemma. Qed.
Print Assumptions C16_interp2d_empty_axis.

Theorem C16_interp2d_other_methods : forall bm m (xs ys data : list R),
  m <> LINEAR -> new2d bm m xs ys data = Throw CString.
Proof. exact make2d_throws. Qed.
Print Assumptions C16_interp2d_other_methods.

Example C16_example :
  new2d Release LINEAR ex2_x ex2_y [1; 2; 3; 5; 8] = Throw OutOfRange /\
  new2d Debug LINEAR [1; 0] ex2_y ex2_d = Abort /\
  new2d Release LINEAR ex2_x [] ex2_d = Throw OutOfRange /\
  new2d Debug BSPLINE ex2_x ex2_y ex2_d = Throw CString.
Proof.
  split; [|split; [|split]].
  - apply (C16_interp2d_data_size Release ex2_x ex2_y [1; 2; 3; 5; 8]); simpl; try lia. discriminate.
  - apply C16_interp2d_debug_sorted. left. intros H. specialize (H 0%nat 1%nat ltac:(simpl; lia)).
    simpl in H. lra.
  - apply C16_interp2d_empty_axis; auto. discriminate.
  - apply C16_interp2d_other_methods. discriminate.
Qed.

(** C16: for every scalar type (no law assumed) and every initialised object,
    Eval returns, throws out_of_range or (debug) aborts: no undefined behaviour. *)
Theorem C16_interp2d_no_ub : forall {T} `{NT : Num T} bm (o o' : interp2d T) x y d bm' q r,
  init2d bm o x y d = (o', Ok tt) ->
  (exists v, eval2d bm' o' q r = Ok v) \/ eval2d bm' o' q r = Throw OutOfRange \/
  (bm' = Debug /\ eval2d bm' o' q r = Abort).
Proof. exact @eval2d_no_ub. Qed.
Print Assumptions C16_interp2d_no_ub.

Example C16_no_ub_example : exists (o o' : interp2d nat) r,
  let _ := Build_Num nat Nat.add Nat.sub Nat.mul Nat.div (fun n => n) Nat.ltb Nat.leb Nat.eqb
             (fun z => BinInt.Z.to_nat z) 3%nat in
  init2d Debug o (Some [0; 2]%nat) (Some [0; 1]%nat) (Some [4; 5; 6; 7]%nat) = (o', Ok tt) /\
  eval2d Debug o' 2%nat 1%nat = r.
Proof. exists blank2d. eexists. eexists. cbv zeta. split; reflexivity. Qed.

(** C84: a second Initialize does not replace the data: in cells that exist in
    the first table too, the first table answers. *)
Theorem C84_interp2d_reinitialize_stale : forall xs1 ys1 d1 xs2 ys2 d2 bm o1 o2 i j x y,
  increasing xs1 -> increasing ys1 -> (2 <= length xs1)%nat -> (2 <= length ys1)%nat ->
  length d1 = (length xs1 * length ys1)%nat ->
  increasing xs2 -> increasing ys2 -> (2 <= length xs2)%nat ->
  length ys2 = length ys1 -> length d2 = (length xs2 * length ys2)%nat ->
  new2d bm LINEAR xs1 ys1 d1 = Ok o1 -> init2d bm o1 (Some xs2) (Some ys2) (Some d2) = (o2, Ok tt) ->
  (S i < length xs2)%nat -> (S i < length xs1)%nat -> (S j < length ys2)%nat ->
  nth i xs2 0 < x <= nth (S i) xs2 0 -> nth j ys2 0 < y <= nth (S j) ys2 0 ->
  exists v, eval2d bm o2 x y = Ok v /\ patch xs1 ys1 d1 i j x y v.
Proof. exact reinit2d_lemma. Qed.
Print Assumptions C84_interp2d_reinitialize_stale.

Definition ex2_d' : list R := [0; 0; 0; 0; 0; 0].

(** C84, intended claim "the last Initialize wins", refuted. *)
Theorem C84_interp2d_reinitialize_refuted : exists xs ys d1 d2 bm o1 o2 i j,
  increasing xs /\ increasing ys /\ (i < length xs)%nat /\ (j < length ys)%nat /\
  length d1 = (length xs * length ys)%nat /\ length d2 = (length xs * length ys)%nat /\
  new2d bm LINEAR xs ys d1 = Ok o1 /\ init2d bm o1 (Some xs) (Some ys) (Some d2) = (o2, Ok tt) /\
  eval2d bm o2 (nth i xs 0) (nth j ys 0) <> Ok (nth (length ys * i + j) d2 0).
Proof.
  destruct (C16_interp2d_data_size Release ex2_x ex2_y ex2_d ltac:(discriminate)
    ltac:(simpl; lia) ltac:(simpl; lia)) as [_ H].
  destruct (H ltac:(simpl; lia)) as (o1 & H1).
  pose proof (init2d_ok Release o1 ex2_x ex2_y ex2_d' ltac:(discriminate) ltac:(simpl; lia)
    ltac:(simpl; lia) ltac:(simpl; lia)) as H2.
  exists ex2_x, ex2_y, ex2_d, ex2_d', Release, o1. eexists. exists 1%nat, 1%nat.
  split; [exact ex2_x_increasing|]. split; [exact ex2_y_increasing|].
  split; [simpl; lia|]. split; [simpl; lia|]. split; [reflexivity|]. split; [reflexivity|].
  split; [exact H1|]. split; [exact H2|].
  destruct (C84_interp2d_reinitialize_stale ex2_x ex2_y ex2_d ex2_x ex2_y ex2_d' Release o1 _ 0 0 1 2
    ex2_x_increasing ex2_y_increasing ltac:(simpl; lia) ltac:(simpl; lia) eq_refl
    ex2_x_increasing ex2_y_increasing ltac:(simpl; lia) eq_refl eq_refl H1 H2
    ltac:(simpl; lia) ltac:(simpl; lia) ltac:(simpl; lia) ltac:(simpl; lra) ltac:(simpl; lra))
    as (v & Hv & Hp).
  change (nth 1 ex2_x 0) with 1. change (nth 1 ex2_y 0) with 2. rewrite Hv. simpl.
  unfold patch, bilinear in Hp. simpl in Hp. intros Heq. injection Heq as Heq. lra.
Qed.
Print Assumptions C84_interp2d_reinitialize_refuted.
