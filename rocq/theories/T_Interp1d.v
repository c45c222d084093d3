(** Properties C01-C12: 1D interpolation (Interp1d.h).

    [new1d bm m xs ys] is the client sequence "make the interpolator for
    method [m], call Initialize(xs, ys)"; [eval1d o x] is Eval(x). *)
From Coq Require Import List Arith Lia Bool Reals Lra.
From Verif Require Import Outcome Num StdAlgo M_Interp1d S_Interp1d L_Search L_Interp1d.
Import ListNotations.
Open Scope R_scope.

(** Concrete table used by the examples: three samples (0,1) (1,3) (3,2). *)
Definition ex_x : list R := [0; 1; 3].
Definition ex_y : list R := [1; 3; 2].
Lemma ex_x_increasing : increasing ex_x.
Proof.
  intros i j Hij. simpl in Hij.
  destruct i as [|[|[|i]]]; destruct j as [|[|[|j]]]; simpl; try lia; lra.
Qed.

(** C01: every sample is reproduced. *)
Theorem C01_interp1d_reproduces_samples : forall bm m xs ys i,
  is_linear m -> increasing xs -> (2 <= length xs)%nat -> length ys = length xs ->
  (i < length xs)%nat ->
  exists o, new1d bm m xs ys = Ok o /\ eval1d o (nth i xs 0) = Ok (nth i ys 0).
Proof. exact nodes_lemma. Qed.
Print Assumptions C01_interp1d_reproduces_samples.

Example C01_example : exists o, new1d Debug LINEAR ex_x ex_y = Ok o /\ eval1d o 3 = Ok 2.
Proof.
  exact (C01_interp1d_reproduces_samples Debug LINEAR ex_x ex_y 2
           (or_introl eq_refl) ex_x_increasing ltac:(simpl; lia) eq_refl ltac:(simpl; lia)).
Qed.

(** C02: between two consecutive samples the value is on their chord. *)
Theorem C02_interp1d_chord : forall bm m xs ys i x,
  is_linear m -> increasing xs -> (2 <= length xs)%nat -> length ys = length xs ->
  (S i < length xs)%nat -> nth i xs 0 <= x <= nth (S i) xs 0 ->
  exists o v, new1d bm m xs ys = Ok o /\ eval1d o x = Ok v /\
    on_line (nth i xs 0) (nth i ys 0) (nth (S i) xs 0) (nth (S i) ys 0) x v /\
    Rmin (nth i ys 0) (nth (S i) ys 0) <= v <= Rmax (nth i ys 0) (nth (S i) ys 0).
Proof. exact chord_lemma. Qed.
Print Assumptions C02_interp1d_chord.

Example C02_example : exists o v,
  new1d Release LINEAR_EXTRAPOLATE ex_x ex_y = Ok o /\ eval1d o 2 = Ok v /\ v = 5 / 2.
Proof.
  destruct (C02_interp1d_chord Release LINEAR_EXTRAPOLATE ex_x ex_y 1 2
    (or_intror (or_introl eq_refl)) ex_x_increasing ltac:(simpl; lia) eq_refl ltac:(simpl; lia)
    ltac:(simpl; lra)) as (o & v & H1 & H2 & H3 & _).
  exists o, v. repeat split; auto. unfold on_line in H3. simpl in H3. lra.
Qed.

(** C03: LINEAR exits with status 1 outside the range and answers inside. *)
Theorem C03_interp1d_linear_guard : forall bm xs ys x,
  increasing xs -> (2 <= length xs)%nat -> length ys = length xs ->
  exists o, new1d bm LINEAR xs ys = Ok o /\
    ((x < nth 0 xs 0 \/ nth (length xs - 1) xs 0 < x) -> eval1d o x = Exit 1) /\
    (nth 0 xs 0 <= x <= nth (length xs - 1) xs 0 -> exists v, eval1d o x = Ok v).
Proof. exact linear_guard_lemma. Qed.
Print Assumptions C03_interp1d_linear_guard.

Example C03_example : exists o, new1d Debug LINEAR ex_x ex_y = Ok o /\ eval1d o (-1) = Exit 1.
Proof.
  destruct (C03_interp1d_linear_guard Debug ex_x ex_y (-1) ex_x_increasing ltac:(simpl; lia) eq_refl)
    as (o & H1 & H2 & _).
  exists o. split; auto. apply H2. left. simpl. lra.
Qed.

(** C04: LINEAR_SATURATE answers everywhere, with the value at the clamped point. *)
Theorem C04_interp1d_saturate : forall bm xs ys x,
  increasing xs -> (2 <= length xs)%nat -> length ys = length xs ->
  exists o v, new1d bm LINEAR_SATURATE xs ys = Ok o /\ eval1d o x = Ok v /\
    on_polyline xs ys (clamp (nth 0 xs 0) (nth (length xs - 1) xs 0) x) v /\
    (x <= nth 0 xs 0 -> v = nth 0 ys 0) /\
    (nth (length xs - 1) xs 0 <= x -> v = nth (length xs - 1) ys 0) /\
    (forall lo hi, (forall y, In y ys -> lo <= y <= hi) -> lo <= v <= hi).
Proof. exact saturate_lemma. Qed.
Print Assumptions C04_interp1d_saturate.

Example C04_example : exists o,
  new1d Debug LINEAR_SATURATE ex_x ex_y = Ok o /\ eval1d o 10 = Ok 2.
Proof.
  destruct (C04_interp1d_saturate Debug ex_x ex_y 10 ex_x_increasing ltac:(simpl; lia) eq_refl)
    as (o & v & H1 & H2 & _ & _ & H3 & _).
  exists o. split; auto. rewrite H2, H3; [reflexivity|simpl; lra].
Qed.

(** C05: LINEAR_EXTRAPOLATE below (and in) the first cell follows the first chord. *)
Theorem C05_interp1d_extrapolate_below : forall bm xs ys x,
  increasing xs -> (2 <= length xs)%nat -> length ys = length xs -> x <= nth 1 xs 0 ->
  exists o v, new1d bm LINEAR_EXTRAPOLATE xs ys = Ok o /\ eval1d o x = Ok v /\
    on_line (nth 0 xs 0) (nth 0 ys 0) (nth 1 xs 0) (nth 1 ys 0) x v.
Proof. exact extrapolate_below_lemma. Qed.
Print Assumptions C05_interp1d_extrapolate_below.

Example C05_example : exists o v,
  new1d Debug LINEAR_EXTRAPOLATE ex_x ex_y = Ok o /\ eval1d o (-4) = Ok v /\ v = -7.
Proof.
  destruct (C05_interp1d_extrapolate_below Debug ex_x ex_y (-4) ex_x_increasing ltac:(simpl; lia)
    eq_refl ltac:(simpl; lra)) as (o & v & H1 & H2 & H3).
  exists o, v. repeat split; auto. unfold on_line in H3. simpl in H3. lra.
Qed.

(** C06 (defect): LINEAR_EXTRAPOLATE above the range always throws. *)
Theorem C06_interp1d_extrapolate_above_throws : forall bm xs ys x,
  increasing xs -> (1 <= length xs)%nat -> length ys = length xs ->
  nth (length xs - 1) xs 0 < x ->
  exists o, new1d bm LINEAR_EXTRAPOLATE xs ys = Ok o /\ eval1d o x = Throw OutOfRange.
Proof. exact extrapolate_above_lemma. Qed.
Print Assumptions C06_interp1d_extrapolate_above_throws.

(** The intended claim: beyond the last sample, the last chord is continued. *)
Definition extrapolates_above (bm : build) (xs ys : list R) (x : R) : Prop :=
  exists o v, new1d bm LINEAR_EXTRAPOLATE xs ys = Ok o /\ eval1d o x = Ok v /\
    on_line (nth (length xs - 2) xs 0) (nth (length xs - 2) ys 0)
            (nth (length xs - 1) xs 0) (nth (length xs - 1) ys 0) x v.

Lemma extrapolate_refuted_lemma : exists xs ys x,
  increasing xs /\ (2 <= length xs)%nat /\ length ys = length xs /\
  forall bm, ~ extrapolates_above bm xs ys x.
Proof.
  exists ex_x, ex_y, 4. split; [exact ex_x_increasing|]. split; [simpl; lia|]. split; [reflexivity|].
  intros bm (o & v & H1 & H2 & _).
  destruct (extrapolate_above_lemma bm ex_x ex_y 4 ex_x_increasing ltac:(simpl; lia) eq_refl
    ltac:(simpl; lra)) as (o' & H1' & H2').
  rewrite H1 in H1'. injection H1' as <-. rewrite H2 in H2'. discriminate.
Qed.

Theorem C06_extrapolation_above_refuted : exists xs ys x,
  increasing xs /\ (2 <= length xs)%nat /\ length ys = length xs /\
  forall bm, ~ extrapolates_above bm xs ys x.
Proof. exact extrapolate_refuted_lemma. Qed.
Print Assumptions C06_extrapolation_above_refuted.

(** C07: monotone data give a monotone saturated interpolant; chord slopes
    bounded by K give a K-Lipschitz one. *)
Theorem C07_interp1d_monotone : forall bm xs ys o x x',
  increasing xs -> (2 <= length xs)%nat -> length ys = length xs ->
  new1d bm LINEAR_SATURATE xs ys = Ok o -> nondecreasing ys -> x <= x' ->
  exists v v', eval1d o x = Ok v /\ eval1d o x' = Ok v' /\ v <= v'.
Proof. exact saturate_mono_lemma. Qed.
Print Assumptions C07_interp1d_monotone.

Theorem C07_interp1d_lipschitz : forall bm xs ys o K x x',
  increasing xs -> (2 <= length xs)%nat -> length ys = length xs ->
  new1d bm LINEAR_SATURATE xs ys = Ok o -> slopes_bounded K xs ys ->
  exists v v', eval1d o x = Ok v /\ eval1d o x' = Ok v' /\ Rabs (v' - v) <= K * Rabs (x' - x).
Proof. exact saturate_lipschitz_lemma. Qed.
Print Assumptions C07_interp1d_lipschitz.

Example C07_example_monotone : exists o v v',
  new1d Debug LINEAR_SATURATE ex_x [1; 3; 4] = Ok o /\
  eval1d o (1/2) = Ok v /\ eval1d o 7 = Ok v' /\ v <= v'.
Proof.
  destruct (C04_interp1d_saturate Debug ex_x [1;3;4] 0 ex_x_increasing ltac:(simpl; lia) eq_refl)
    as (o & _ & Ho & _).
  destruct (C07_interp1d_monotone Debug ex_x [1;3;4] o (1/2) 7 ex_x_increasing ltac:(simpl; lia)
    eq_refl Ho) as (v & v' & H); [|lra|exists o, v, v'; tauto].
  intros i j Hij. simpl in Hij.
  destruct i as [|[|[|i]]]; destruct j as [|[|[|j]]]; simpl; try lia; lra.
Qed.
Example C07_example_lipschitz : slopes_bounded 2 ex_x ex_y.
Proof.
  intros i Hi. simpl in Hi. destruct i as [|[|i]]; simpl; [| |lia];
    unfold Rabs; destruct (Rcase_abs _); lra.
Qed.

(** C08: evaluation of a vector is pointwise, up to the first failing point,
    for any scalar type. *)
Theorem C08_interp1d_vector_eval :
  forall (T V : Type) (NT : Num T) (VT : VNum T V) (o : interp1d T V) xv,
  (forall vs, eval1d_vec o xv = Ok vs <-> Forall2 (fun x v => eval1d o x = Ok v) xv vs) /\
  (forall pre x post vs, xv = pre ++ x :: post ->
     Forall2 (fun x v => eval1d o x = Ok v) pre vs ->
     (forall v, eval1d o x <> Ok v) ->
     eval1d_vec o xv = omap (fun _ => []) (eval1d o x)).
Proof. exact @eval_vec_lemma. Qed.
Print Assumptions C08_interp1d_vector_eval.

Example C08_example : exists o,
  new1d Debug LINEAR ex_x ex_y = Ok o /\
  eval1d_vec o [0; 3; 1] = Ok [1; 2; 3] /\ eval1d_vec o [0; 5; 1] = Exit 1.
Proof.
  destruct (C01_interp1d_reproduces_samples Debug LINEAR ex_x ex_y 0 (or_introl eq_refl)
    ex_x_increasing ltac:(simpl; lia) eq_refl ltac:(simpl; lia)) as (o & Ho & H0).
  destruct (C01_interp1d_reproduces_samples Debug LINEAR ex_x ex_y 1 (or_introl eq_refl)
    ex_x_increasing ltac:(simpl; lia) eq_refl ltac:(simpl; lia)) as (o1 & Ho1 & H1).
  destruct (C01_interp1d_reproduces_samples Debug LINEAR ex_x ex_y 2 (or_introl eq_refl)
    ex_x_increasing ltac:(simpl; lia) eq_refl ltac:(simpl; lia)) as (o2 & Ho2 & H2).
  rewrite Ho in Ho1, Ho2. injection Ho1 as <-. injection Ho2 as <-.
  destruct (C03_interp1d_linear_guard Debug ex_x ex_y 5 ex_x_increasing ltac:(simpl; lia) eq_refl)
    as (o3 & Ho3 & H3 & _).
  rewrite Ho in Ho3. injection Ho3 as <-.
  assert (H5 : eval1d o 5 = Exit 1) by (apply H3; right; simpl; lra).
  exists o. split; [exact Ho|]. split.
  - apply (proj1 (C08_interp1d_vector_eval R R _ _ o [0; 3; 1])). repeat constructor; assumption.
  - rewrite (proj2 (C08_interp1d_vector_eval R R _ _ o [0; 5; 1]) [0] 5 [1] [1]); auto.
    + rewrite H5. reflexivity.
    + intros v Hv. rewrite H5 in Hv. discriminate.
Qed.

(** C09: complex ordinates are interpolated component by component, for any
    component type. *)
Theorem C09_interp1d_complex :
  forall (T : Type) (NT : Num T) bm m (xs : list T) (ys : list (T * T)) x,
  (let* o := new1d (VT := VNum_complex) bm m xs ys in eval1d (VT := VNum_complex) o x) =
  (let* o1 := new1d (VT := VNum_self) bm m xs (map fst ys) in
   let* o2 := new1d (VT := VNum_self) bm m xs (map snd ys) in
   let* re := eval1d o1 x in
   let* im := eval1d o2 x in Ok (re, im)).
Proof. exact @complex_lemma. Qed.
Print Assumptions C09_interp1d_complex.

Example C09_example :
  (let* o := new1d (VT := VNum_complex) Debug LINEAR ex_x [(1, 2); (3, 0); (2, 7)] in
   eval1d (VT := VNum_complex) o 3) = Ok (2, 7).
Proof.
  rewrite C09_interp1d_complex. simpl map.
  destruct (C01_interp1d_reproduces_samples Debug LINEAR ex_x [1; 3; 2] 2 (or_introl eq_refl)
    ex_x_increasing ltac:(simpl; lia) eq_refl ltac:(simpl; lia)) as (o1 & Ho1 & H1).
  destruct (C01_interp1d_reproduces_samples Debug LINEAR ex_x [2; 0; 7] 2 (or_introl eq_refl)
    ex_x_increasing ltac:(simpl; lia) eq_refl ltac:(simpl; lia)) as (o2 & Ho2 & H2).
  rewrite Ho1, Ho2. cbn [bind].
  change 3 with (nth 2 ex_x 0). rewrite H1. cbn [bind]. rewrite H2. reflexivity.
Qed.

(** C10 (defect): a second Initialize leaves the first coefficients in front:
    in cell [j] of the new abscissae the value lies on the [j]-th chord of the
    OLD table whenever the old table had such a cell. *)
Theorem C10_interp1d_reinitialize_stale : forall bm m xs1 ys1 xs2 ys2 o1 o2 j x,
  is_linear m ->
  increasing xs1 -> (2 <= length xs1)%nat -> length ys1 = length xs1 ->
  increasing xs2 -> (2 <= length xs2)%nat -> length ys2 = length xs2 ->
  new1d bm m xs1 ys1 = Ok o1 -> init1d bm o1 (Some xs2) (Some ys2) = (o2, Ok tt) ->
  (S j < length xs2)%nat -> (S j < length xs1)%nat ->
  nth j xs2 0 < x <= nth (S j) xs2 0 ->
  exists v, eval1d o2 x = Ok v /\
    on_line (nth j xs1 0) (nth j ys1 0) (nth (S j) xs1 0) (nth (S j) ys1 0) x v.
Proof. exact reinit_lemma. Qed.
Print Assumptions C10_interp1d_reinitialize_stale.

Lemma reinit_refuted_lemma : exists o1 o2,
  new1d Debug LINEAR ex_x ex_y = Ok o1 /\
  init1d Debug o1 (Some ex_x) (Some [5; 6; 7]) = (o2, Ok tt) /\
  eval1d o2 1 = Ok 3 /\ eval1d o2 1 <> Ok 6.
Proof.
  assert (Ho1 := new1d_increasing Debug LINEAR KLinear ex_x ex_y eq_refl ex_x_increasing
    ltac:(simpl; lia) eq_refl).
  eexists. eexists. split; [exact Ho1|].
  assert (H2 := init1d_ok Debug (obj KLinear ex_x ex_y (coefs_a ex_x ex_y) (coefs_b ex_x ex_y))
    ex_x [5; 6; 7] (fun _ => conj eq_refl (increasing_is_sorted _ ex_x_increasing)) ltac:(simpl; lia)).
  split; [exact H2|].
  destruct (reinit_lemma Debug LINEAR ex_x ex_y ex_x [5;6;7] _ _ 0 1 (or_introl eq_refl)
    ex_x_increasing ltac:(simpl; lia) eq_refl ex_x_increasing ltac:(simpl; lia) eq_refl Ho1 H2
    ltac:(simpl; lia) ltac:(simpl; lia) ltac:(simpl; lra)) as (v & Hv & Hl).
  unfold on_line in Hl. simpl in Hl. assert (v = 3) by lra. subst v.
  split; [exact Hv|]. rewrite Hv. intros H. injection H as H. lra.
Qed.

(** Witness: re-initialised with ordinates 5,6,7 on the same abscissae 0,1,3,
    the object still answers 3 (the old ordinate) at x = 1. *)
Theorem C10_last_initialize_wins_refuted : exists o1 o2,
  new1d Debug LINEAR ex_x ex_y = Ok o1 /\
  init1d Debug o1 (Some ex_x) (Some [5; 6; 7]) = (o2, Ok tt) /\
  eval1d o2 1 = Ok 3 /\ eval1d o2 1 <> Ok 6.
Proof. exact reinit_refuted_lemma. Qed.
Print Assumptions C10_last_initialize_wins_refuted.

(** C11: what Initialize accepts. *)
Theorem C11_interp1d_debug_guard : forall m xs (ys : list R),
  is_linear m ->
  (new1d Debug m xs ys = Abort <-> (length xs <> length ys \/ ~ nondecreasing xs)).
Proof. exact debug_guard_lemma. Qed.
Print Assumptions C11_interp1d_debug_guard.

Theorem C11_interp1d_empty_throws : forall bm m (ys : list R),
  is_linear m -> (bm = Debug -> ys = []) ->
  @new1d R R _ _ bm m [] ys = Throw OutOfRange.
Proof. exact empty_lemma. Qed.
Print Assumptions C11_interp1d_empty_throws.

Theorem C11_interp1d_release_guard : forall m xs (ys : list R),
  is_linear m -> (1 <= length xs)%nat ->
  ((2 <= length xs)%nat -> (length ys < length xs)%nat -> new1d Release m xs ys = Throw OutOfRange) /\
  ((length xs <= length ys)%nat -> exists o, new1d Release m xs ys = Ok o).
Proof. exact release_guard_lemma. Qed.
Print Assumptions C11_interp1d_release_guard.

Theorem C11_interp1d_single_sample_unusable : forall bm m (a y : R), is_linear m ->
  exists o, new1d bm m [a] [y] = Ok o /\
    forall x, eval1d o x = Throw OutOfRange \/ (m = LINEAR /\ x <> a /\ eval1d o x = Exit 1).
Proof. exact one_sample_lemma. Qed.
Print Assumptions C11_interp1d_single_sample_unusable.

Example C11_example_debug : new1d Debug LINEAR ex_x [1; 2] = Abort.
Proof. apply C11_interp1d_debug_guard; [left; reflexivity|]. left. simpl. lia. Qed.
Example C11_example_release : new1d Release LINEAR ex_x [1; 2] = Throw OutOfRange.
Proof.
  apply (C11_interp1d_release_guard LINEAR ex_x [1; 2] (or_introl eq_refl)); simpl; lia.
Qed.

(** C12: after a successful Initialize, evaluation never has undefined
    behaviour, for any scalar type, any data and any point (NaN included). *)
Theorem C12_interp1d_no_ub :
  forall (T V : Type) (NT : Num T) (VT : VNum T V) bm (o o' : interp1d T V) x y q,
  init1d bm o x y = (o', Ok tt) ->
  (exists v, eval1d o' q = Ok v) \/ eval1d o' q = Throw OutOfRange \/
  (i_kind o' = KLinear /\ eval1d o' q = Exit 1).
Proof. exact @no_ub_lemma. Qed.
Print Assumptions C12_interp1d_no_ub.

Example C12_example : exists o, init1d Release (blank1d KSaturate) (Some [2; 0; 1]) (Some ex_y) = (o, Ok tt).
Proof. eexists. apply init1d_ok; [discriminate|simpl; lia]. Qed.

(** C89: the factory supports exactly the three linear methods and ends the
    program for the others; a created object that is not yet initialised must
    not be used. *)
Theorem C89_interp1d_factory : forall (T V : Type) (NT : Num T) (VT : VNum T V) bm m (xs : list T) (ys : list V) q,
  (is_linear m -> exists o : interp1d T V, make1d m = Ok o /\ eval1d o q = UB /\ get_xmin o = UB /\ get_xmax o = UB) /\
  (~ is_linear m -> make1d (T := T) (V := V) m = Exit 1 /\ new1d bm m xs ys = Exit 1).
Proof. exact factory_lemma. Qed.
Print Assumptions C89_interp1d_factory.

Example C89_example : new1d Debug BSPLINE ex_x ex_y = Exit 1.
Proof.
  apply (C89_interp1d_factory R R _ _ Debug BSPLINE ex_x ex_y 0).
  unfold is_linear. intuition discriminate.
Qed.
