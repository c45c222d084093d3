(** Further theorems of C120 (2D interpolators after a refused Initialize) and
    C121 (order of the calls on RegularGridNearest). *)
From Coq Require Import List Arith ZArith Bool Reals Lra Lia.
From Verif Require Import Outcome Num NumFun M_Interp1d S_Interp1d M_Interp2d S_Interp2d M_Grid S_Grid L_Acc L_Fail2.
Import ListNotations.
Local Open Scope R_scope.

(** C120.  An empty x axis is refused and leaves the 2D interpolator as it
    was, whatever its history. *)
Theorem C120_empty_x_2d : forall bm (o : interp2d R) ys d, (bm = Debug -> nondecreasing ys) ->
  exists o', init2d bm o (Some []) (Some ys) d = (o', Throw OutOfRange) /\
    (forall bm' x y, eval2d bm' o' x y = eval2d bm' o x y) /\ get_limits2 o' = get_limits2 o.
Proof. exact empty_x. Qed.
Print Assumptions C120_empty_x_2d.
(** An empty y axis is refused too, but the limits in x are the new ones, and
    release builds then answer in cell (i, j) of the old table with the
    bilinear patch of cell (0, j - i), or throw when i > j. *)
Theorem C120_empty_y_2d : forall bm xs1 ys1 d1 xs2 d2 o1, increasing xs1 -> increasing ys1 ->
  (2 <= length xs1)%nat -> (2 <= length ys1)%nat -> length d1 = (length xs1 * length ys1)%nat ->
  (bm = Debug -> nondecreasing xs2) -> xs2 <> [] ->
  new2d bm LINEAR xs1 ys1 d1 = Ok o1 ->
  exists o2, init2d bm o1 (Some xs2) (Some []) d2 = (o2, Throw OutOfRange) /\
    get_limits2 o2 = (Some (nth 0 xs2 0), Some (nth (length xs2 - 1) xs2 0),
                      Some (nth 0 ys1 0), Some (nth (length ys1 - 1) ys1 0)) /\
    forall i j x y, clamped_cell xs1 x i -> clamped_cell ys1 y j ->
      ((j < i)%nat -> eval2d Release o2 x y = Throw OutOfRange) /\
      ((i <= j)%nat -> exists v, eval2d Release o2 x y = Ok v /\ patch xs1 ys1 d1 0 (j - i) x y v).
Proof. exact empty_y. Qed.
Print Assumptions C120_empty_y_2d.
(** Too few data: the new axes and limits are in place with the old patches,
    found by their rank. *)
Theorem C120_short_table_2d : forall bm xs1 ys1 d1 xs2 ys2 d2 o1, increasing xs1 -> increasing ys1 ->
  (2 <= length xs1)%nat -> (2 <= length ys1)%nat -> length d1 = (length xs1 * length ys1)%nat ->
  increasing xs2 -> increasing ys2 -> (2 <= length xs2)%nat -> (2 <= length ys2)%nat ->
  (length d2 < length xs2 * length ys2)%nat ->
  new2d bm LINEAR xs1 ys1 d1 = Ok o1 ->
  exists o2, init2d bm o1 (Some xs2) (Some ys2) (Some d2) = (o2, Throw OutOfRange) /\
    get_limits2 o2 = (Some (nth 0 xs2 0), Some (nth (length xs2 - 1) xs2 0),
                      Some (nth 0 ys2 0), Some (nth (length ys2 - 1) ys2 0)) /\
    forall i j i1 j1 x y, clamped_cell xs2 x i -> clamped_cell ys2 y j ->
      (S i1 < length xs1)%nat -> (S j1 < length ys1)%nat ->
      (i * (length ys2 - 1) + j = i1 * (length ys1 - 1) + j1)%nat ->
      exists v, eval2d Release o2 x y = Ok v /\ patch xs1 ys1 d1 i1 j1 x y v.
Proof. exact short_data. Qed.
Print Assumptions C120_short_table_2d.
(** A table of 3 by 3 values; after an Initialize with an empty y
    axis the value at (3/2, 3/2) is that of the first patch, and the call at
    (3/2, 1/2) throws. *)
Example C120_example_2d : exists o1 o2, new2d Release LINEAR [0; 1; 2] [0; 1; 2] [0; 0; 0; 0; 1; 2; 0; 2; 5] = Ok o1 /\
  init2d Release o1 (Some [0; 1; 2]) (Some []) (Some []) = (o2, Throw OutOfRange) /\
  eval2d Release o2 (3 / 2) (3 / 2) = Ok (9 / 4) /\ eval2d Release o2 (3 / 2) (1 / 2) = Throw OutOfRange.
Proof.
  assert (E : exists o1, new2d (T := R) Release LINEAR [0; 1; 2] [0; 1; 2] [0; 0; 0; 0; 1; 2; 0; 2; 5] = Ok o1) by (eexists; reflexivity).
  destruct E as (o1 & E). exists o1.
  destruct (C120_empty_y_2d Release [0; 1; 2] [0; 1; 2] [0; 0; 0; 0; 1; 2; 0; 2; 5] [0; 1; 2] (Some []) o1) as (o2 & H1 & _ & H2);
    try (apply inc3; lra); try (cbn; lia); try discriminate; [exact E|].
  exists o2. split; [exact E|]. split; [exact H1|].
  assert (C1 : clamped_cell [0; 1; 2] (3 / 2) 1) by (split; [cbn; lia|split; [cbn; lra|right; cbn; lra]]).
  assert (C0 : clamped_cell [0; 1; 2] (1 / 2) 0) by (split; [cbn; lia|split; [cbn; lra|left; reflexivity]]).
  split.
  - destruct (H2 1%nat 1%nat (3 / 2) (3 / 2) C1 C1) as (_ & A). destruct A as (v & -> & P); [lia|]. f_equal.
    unfold patch, bilinear in P. cbn in P. lra.
  - apply (H2 1%nat 0%nat _ _ C1 C0). lia.
Qed.

(** C121.  RegularGridNearest: one axis more than the dimension, or the data
    before the last axis, ends the process with code 1. *)
Theorem C121_nearest_calls : forall (D : Type) dim gs (v : list R) (a : ndarray D), (length gs <= dim)%nat ->
  exists o, foldM (fun o v => let (o', r) := rgn_add_coord dim o v in omap (fun _ => o') r) (rgn_new dim) gs = Ok o /\
    (length gs = dim -> rgn_add_coord dim o v = (o, Exit 1)) /\
    ((length gs < dim)%nat -> rgn_add_var dim o a = (o, Exit 1)).
Proof. exact (@rgn_calls). Qed.
Print Assumptions C121_nearest_calls.
Example C121_example_calls : exists o, rgn_add_coord 2 (rgn_new (T := R) (D := bool) 2) [3; 1] = (o, Ok tt) /\
  rgn_add_var 2 o (mkND [2%nat] [true; false]) = (o, Exit 1).
Proof.
  destruct (C121_nearest_calls bool 2 [[3; 1]] [0] (mkND [2%nat] [true; false])) as (o & E & _ & H); [cbn; lia|].
  exists o. split; [|apply H; cbn; lia]. cbn in E. injection E as <-. reflexivity.
Qed.
