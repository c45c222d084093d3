(** Properties C25-C34 and C85-C86: data on N-dimensional grids
    (RegularGridInterpolator.h, RegularGridNearest.h, thirdparty/linterp.h).

    [rgi_make gs a] is the client sequence "construct, AddCoord for every axis
    of [gs], AddVar(a)"; [rgi_interp bm o p bc] is Interp(p, bc); [rgi_at] is
    EvalAtIndice.  The dimension is [length gs]. *)
From Coq Require Import List Arith ZArith Lia Bool Reals Lra.
From Verif Require Import Outcome Num StdAlgo M_Interp1d S_Interp1d M_Interp2d S_Interp2d
  M_Grid S_Grid S_GridHistory L_Grid L_GridLow L_GridHistory L_GridNearest L_GridSimplex L_GridExamples.
Import ListNotations.
Open Scope R_scope.

(** C25: node data are reproduced, in every dimension, with or without bound check. *)
Theorem C25_grid_reproduces_nodes : forall bm gs a idx bc,
  good_axes gs -> nd_shape a = map (@length R) gs -> length (nd_flat a) = count (nd_shape a) ->
  in_extents (nd_shape a) idx ->
  exists o, rgi_make gs a = Ok o /\
    rgi_interp bm o (node_at gs idx) bc = Ok (element (nd_shape a) (nd_flat a) idx) /\
    rgi_at bm o idx = Ok (element (nd_shape a) (nd_flat a) idx).
Proof. exact grid_nodes_lemma. Qed.
Print Assumptions C25_grid_reproduces_nodes.

Example C25_example : exists o, rgi_make exg exa = Ok o /\ rgi_interp Debug o [3; 0] true = Ok 8.
Proof.
  destruct (C25_grid_reproduces_nodes Debug exg exa [2; 0]%nat true exg_good eq_refl eq_refl
    (exg_extents 2 0 ltac:(lia) ltac:(lia))) as (o & H1 & H2 & _).
  exists o. split; auto.
Qed.

(** C26: in every closed cell the value is the sum over the 2^N corners of the
    product of the per-axis weights times the corner data. *)
Theorem C26_grid_multilinear_blend : forall bm gs a cell p,
  good_axes gs -> length (nd_flat a) = count (map (@length R) gs) -> in_cell gs cell p ->
  exists o, rgi_make gs a = Ok o /\ rgi_interp bm o p false = Ok (blend gs (nd_flat a) cell p).
Proof. exact grid_blend_lemma. Qed.
Print Assumptions C26_grid_multilinear_blend.

Example C26_example : exists o, rgi_make exg exa = Ok o /\ rgi_interp Release o [2; 1] false = Ok (29 / 4).
Proof.
  destruct (C26_grid_multilinear_blend Release exg exa [1; 0]%nat [2; 1] exg_good eq_refl)
    as (o & H1 & H2).
  - simpl. repeat split; try lia; lra.
  - exists o. split; auto. rewrite H2. f_equal. unfold blend, element, exg, exd. simpl. field.
Qed.

(** C26: exactness on every function affine in each variable; outside the grid
    the function is evaluated at the clamped point. *)
Theorem C26_grid_exact_on_multi_affine : forall bm gs a F p,
  good_axes gs -> length (nd_flat a) = count (map (@length R) gs) -> length p = length gs ->
  multi_affine (length gs) F -> samples gs (nd_flat a) F ->
  exists o, rgi_make gs a = Ok o /\
    rgi_interp bm o p false = Ok (F (clamp_point gs p)) /\
    (~ outside gs p -> rgi_interp bm o p false = Ok (F p)).
Proof. exact grid_multi_affine_lemma. Qed.
Print Assumptions C26_grid_exact_on_multi_affine.

Definition exF (p : list R) : R := 1 + nth 0 p 0 * nth 1 p 0.
Lemma exF_multi_affine : multi_affine 2 exF.
Proof.
  intros pre x y t post H. unfold exF.
  destruct pre as [|a [|b pre]]; destruct post as [|c [|d post]]; simpl in H; try lia; simpl; ring.
Qed.
Lemma exF_samples : samples exg [1; 1; 1; 3; 1; 7] exF.
Proof.
  intros idx H. inversion H as [|? i ? is Hi H1]; subst. inversion H1 as [|? j ? js Hj H2]; subst. inversion H2; subst.
  destruct i as [|[|[|i]]]; destruct j as [|[|j]]; simpl in Hi, Hj; try lia; unfold element, exF; simpl; lra.
Qed.
Example C26_affine_example : exists o, rgi_make exg (mkND [3; 2]%nat [1; 1; 1; 3; 1; 7]) = Ok o /\
  rgi_interp Debug o [2; 1/2] false = Ok 2.
Proof.
  destruct (C26_grid_exact_on_multi_affine Debug exg (mkND [3; 2]%nat [1; 1; 1; 3; 1; 7]) exF [2; 1/2]
    exg_good eq_refl eq_refl exF_multi_affine exF_samples) as (o & H1 & H2 & H3).
  exists o. split; auto. rewrite H3; [f_equal; unfold exF; simpl; lra|].
  intros (k & Hk & H). destruct k as [|[|k]]; simpl in Hk, H; try lia; lra.
Qed.

(** C26, one dimension: polygonal line through the samples, saturated. *)
Theorem C26_grid_1d_chord : forall bm g data x,
  increasing g -> (2 <= length g)%nat -> length data = length g ->
  exists o v, rgi_make [g] (mkND [length g] data) = Ok o /\ rgi_interp bm o [x] false = Ok v /\
    on_polyline g data (clamp (nth 0 g 0) (nth (length g - 1) g 0) x) v.
Proof. exact grid_1d_lemma. Qed.
Print Assumptions C26_grid_1d_chord.

(** C26, two dimensions: inside the grid, same value as Interp2d on the same data. *)
Theorem C26_grid_2d_is_interp2d : forall bm bm' xs ys data x y,
  increasing xs -> increasing ys -> (2 <= length xs)%nat -> (2 <= length ys)%nat ->
  length data = (length xs * length ys)%nat -> inside xs ys x y ->
  exists o o2 v, rgi_make [xs; ys] (mkND [length xs; length ys] data) = Ok o /\
    new2d bm' LINEAR xs ys data = Ok o2 /\
    rgi_interp bm o [x; y] false = Ok v /\ eval2d bm' o2 x y = Ok v.
Proof. exact grid_2d_lemma. Qed.
Print Assumptions C26_grid_2d_is_interp2d.

Example C26_2d_example : inside [0; 1; 3] [0; 2] 2 1 /\ inside [0; 1; 3] [0; 2] 3 2.
Proof. unfold inside. simpl. lra. Qed.

(** C27: clamping, and no overshoot. *)
Theorem C27_grid_clamps : forall bm gs a p m M,
  good_axes gs -> length (nd_flat a) = count (map (@length R) gs) -> length p = length gs ->
  (forall d, In d (nd_flat a) -> m <= d <= M) ->
  exists o v, rgi_make gs a = Ok o /\ rgi_interp bm o p false = Ok v /\
    rgi_interp bm o (clamp_point gs p) false = Ok v /\ m <= v <= M.
Proof. exact grid_clamp_lemma. Qed.
Print Assumptions C27_grid_clamps.

Example C27_example : exists o, rgi_make exg exa = Ok o /\ rgi_interp Debug o [-5; 7] false = Ok 2.
Proof.
  destruct (C27_grid_clamps Debug exg exa [-5; 7] 1 13 exg_good eq_refl eq_refl) as (o & v & H1 & H2 & H3 & _).
  - simpl. intros d Hd. lra.
  - exists o. split; auto. rewrite H2, <- H3.
    destruct (C25_grid_reproduces_nodes Debug exg exa [0; 1]%nat false exg_good eq_refl eq_refl
      (exg_extents 0 1 ltac:(lia) ltac:(lia))) as (o' & H4 & H5 & _).
    rewrite H1 in H4. injection H4 as <-.
    replace (clamp_point exg [-5; 7]) with (node_at exg [0; 1]%nat); [exact H5|].
    unfold clamp_point, node_at, exg, clamp. simpl. f_equal; [|f_equal].
    + rewrite Rmin_right, Rmax_left; lra.
    + rewrite Rmin_left, Rmax_right; lra.
Qed.

(** C28: bound checking. *)
Theorem C28_grid_bound_check : forall bm gs a p,
  good_axes gs -> length (nd_flat a) = count (map (@length R) gs) -> length p = length gs ->
  exists o v, rgi_make gs a = Ok o /\ rgi_interp bm o p false = Ok v /\
    (outside gs p -> rgi_interp bm o p true = Throw RuntimeError) /\
    (~ outside gs p -> rgi_interp bm o p true = Ok v).
Proof. exact grid_bound_check_lemma. Qed.
Print Assumptions C28_grid_bound_check.

Example C28_example : exists o, rgi_make exg exa = Ok o /\ rgi_interp Debug o [1; 3] true = Throw RuntimeError.
Proof.
  destruct (C28_grid_bound_check Debug exg exa [1; 3] exg_good eq_refl eq_refl) as (o & v & H1 & _ & H2 & _).
  exists o. split; auto. apply H2. exists 1%nat. simpl. split; [lia|lra].
Qed.

(** C29: after every history of AddCoord / AddVar calls (exceptions caught),
    the registered axes are the strictly increasing vectors in order, IsValid
    tells whether some AddVar succeeded, and Interp is usable exactly when the
    LAST AddVar succeeded.  [rgi_run] is the state after the whole history;
    it is [Exit 1] or [UB] when some call exits or is undefined. *)
Theorem C29_grid_history : forall bm dim h o,
  rgi_run dim (rgi_new dim) h = Ok o ->
  exists axes, registered h axes /\ (length axes <= dim)%nat /\
    (forall i v, rgi_coord dim o i = Ok v <-> nth_error axes i = Some v) /\
    (rgi_is_valid o = true <-> exists a, In (RAddVar a) h /\ fits axes a) /\
    ((exists a, last_var h a /\ fits axes a) ->
       forall p, length p = dim -> exists v, rgi_interp bm o p false = Ok v) /\
    (~ (exists a, last_var h a /\ fits axes a) ->
       forall p, rgi_interp bm o p false = UB).
Proof. exact history_lemma. Qed.
Print Assumptions C29_grid_history.

(** C29: the outcome of the next call after any history. *)
Theorem C29_grid_next_call : forall dim h o,
  rgi_run dim (rgi_new dim) h = Ok o ->
  exists axes, registered h axes /\
    (forall v, length axes = dim -> rgi_add_coord dim o v = (o, Exit 1)) /\
    (forall v, (length axes < dim)%nat -> increasing v ->
       exists o', rgi_add_coord dim o v = (o', Ok tt) /\ r_grids o' = axes ++ [v] /\
         rgi_is_valid o' = rgi_is_valid o) /\
    (forall v, (length axes < dim)%nat -> ~ increasing v -> rgi_add_coord dim o v = (o, Throw RuntimeError)) /\
    (forall a, (length axes < dim)%nat -> rgi_add_var dim o a = (o, Exit 1)) /\
    (forall a, length axes = dim -> Forall (fun g => g <> []) axes -> fits axes a ->
       exists o', rgi_add_var dim o a = (o', Ok tt) /\ rgi_is_valid o' = true) /\
    (forall a, length axes = dim -> Forall (fun g => g <> []) axes -> ~ fits axes a ->
       exists o', rgi_add_var dim o a = (o', Throw InvalidArgument)).
Proof. exact protocol_lemma. Qed.
Print Assumptions C29_grid_next_call.

(** C29, intended claim "IsValid() means Interp can be called", refuted: a good
    AddVar followed by one of the wrong size leaves IsValid() true with a
    dangling interpolator. *)
Theorem C29_is_valid_means_usable_refuted : exists h o,
  rgi_run 1 (rgi_new 1) h = Ok o /\ rgi_is_valid o = true /\
  forall bm p, rgi_interp bm o p false = UB.
Proof. exact C29_is_valid_means_usable_refuted_pf. Qed.
Print Assumptions C29_is_valid_means_usable_refuted.

Example C29_example : exists o,
  rgi_run 1 (rgi_new 1) [RAddCoord [1; 0]; RAddCoord [0; 1]; RAddVar (mkND [2%nat] [5; 6])] = Ok o /\
  rgi_coord 1 o 0 = Ok [0; 1].
Proof.
  eexists. split.
  - simpl. unfold rgi_add_coord. simpl. rewrite (proj2 (Rleb_true 0 1)) by lra. simpl.
    rewrite (proj2 (Rleb_false 1 0)) by lra. simpl. reflexivity.
  - reflexivity.
Qed.

(** C30: copying (or assigning from) any usable object gives an object that
    answers every query identically. *)
Theorem C30_grid_copy : forall bm dim h o,
  rgi_run dim (rgi_new dim) h = Ok o ->
  (exists p v, length p = dim /\ rgi_interp bm o p false = Ok v) ->
  forall target, exists o', rgi_assign dim target o = (o', Ok tt) /\
    rgi_copy dim o = (o', Ok tt) /\
    (forall p bc, rgi_interp bm o' p bc = rgi_interp bm o p bc) /\
    (forall i, rgi_coord dim o' i = rgi_coord dim o i) /\
    (forall idx, rgi_at bm o' idx = rgi_at bm o idx).
Proof. exact copy_lemma. Qed.
Print Assumptions C30_grid_copy.

(** C30, defect: copying an object with missing axes is undefined behaviour,
    copying one with all axes but no data throws. *)
Theorem C30_grid_copy_incomplete : forall dim h o,
  rgi_run dim (rgi_new dim) h = Ok o -> (exists axes, registered h axes /\ (length axes < dim)%nat) ->
  snd (rgi_copy dim o) = UB /\ forall target, snd (rgi_assign dim target o) = UB.
Proof. exact copy_incomplete_lemma. Qed.
Print Assumptions C30_grid_copy_incomplete.

Theorem C30_grid_copy_no_data : forall dim h o axes,
  rgi_run dim (rgi_new dim) h = Ok o -> (forall a, ~ In (RAddVar a) h) ->
  registered h axes -> length axes = dim -> Forall (fun g => g <> []) axes ->
  snd (rgi_copy dim o) = Throw InvalidArgument.
Proof. exact copy_no_data_lemma. Qed.
Print Assumptions C30_grid_copy_no_data.

Example C30_example : snd (rgi_copy 2 (rgi_new (T := R) 2)) = UB.
Proof.
  apply (C30_grid_copy_incomplete 2 [] (rgi_new 2) eq_refl). exists []. split; [constructor|simpl; lia].
Qed.

(** C31: Nearest returns a node nearest along every axis (ties to the larger
    coordinate), hence nearest in Euclidean distance, with its coordinates and
    datum; [D] is any data type. *)
Theorem C31_nearest : forall (D : Type) bm gs (a : ndarray D) p d,
  good_axes gs -> nd_shape a = map (@length R) gs -> length (nd_flat a) = count (nd_shape a) ->
  length p = length gs ->
  exists o idx, rgn_make gs a = Ok o /\
    rgn_nearest bm o p = Ok (mkGN idx (node_at gs idx) (nth (pos (nd_shape a) idx) (nd_flat a) d)) /\
    in_extents (nd_shape a) idx /\
    (forall k, (k < length gs)%nat -> nearest_on (nth k gs []) (nth k p 0) (nth k idx 0%nat)) /\
    (forall idx', in_extents (nd_shape a) idx' -> dist2 p (node_at gs idx) <= dist2 p (node_at gs idx')).
Proof. exact nearest_lemma. Qed.
Print Assumptions C31_nearest.

Example C31_example : nearest_on [0; 1; 3] 2 2 /\ ~ nearest_on [0; 1; 3] 2 1.
Proof.
  split.
  - split; [simpl; lia|]. intros j Hj. destruct j as [|[|[|j]]]; simpl in *; try lia;
    (split; [repeat (unfold Rabs; destruct (Rcase_abs _)); lra|try lia]).
  - intros [_ H]. destruct (H 2%nat ltac:(simpl; lia)) as [_ H2]. simpl in H2.
    assert (2 <= 1)%nat; [|lia]. apply H2. repeat (unfold Rabs; destruct (Rcase_abs _)); lra.
Qed.

(** C32: inside the grid, GetSurroundingGridNodes returns the 2^N corners of the
    one half-open cell containing the point, first axis most significant. *)
Theorem C32_surrounding_nodes_inside : forall (D : Type) bm gs (a : ndarray D) cell p d,
  good_axes gs -> Forall small gs -> nd_shape a = map (@length R) gs ->
  length (nd_flat a) = count (nd_shape a) -> in_cell_ho gs cell p ->
  exists o, rgn_make gs a = Ok o /\
    rgn_around bm o p =
      Ok (map (fun v => let idx := map2 Nat.add cell v in
                        mkGN idx (node_at gs idx) (nth (pos (nd_shape a) idx) (nd_flat a) d))
              (corners (length gs))) /\
    forall cell', in_cell_ho gs cell' p -> cell' = cell.
Proof. exact around_inside_lemma. Qed.
Print Assumptions C32_surrounding_nodes_inside.

Example C32_example : exists o, rgn_make exg exa = Ok o /\
  rgn_around Debug o [2; 1] = Ok [mkGN [1; 0]%nat [1; 0] 3; mkGN [1; 1]%nat [1; 2] 5;
                                  mkGN [2; 0]%nat [3; 0] 8; mkGN [2; 1]%nat [3; 2] 13].
Proof.
  destruct (C32_surrounding_nodes_inside R Debug exg exa [1; 0]%nat [2; 1] 0 exg_good) as (o & H1 & H2 & _).
  - repeat constructor; unfold small; simpl; lia.
  - reflexivity.
  - reflexivity.
  - simpl. repeat split; try lia; lra.
  - exists o. split; auto.
Qed.

(** C33: outside along axis [k], below as well as above, every returned node
    has the LAST index of that axis. *)
Theorem C33_surrounding_nodes_outside : forall (D : Type) bm gs (a : ndarray D) p k,
  good_axes gs -> Forall small gs -> nd_shape a = map (@length R) gs ->
  length (nd_flat a) = count (nd_shape a) -> length p = length gs -> (k < length gs)%nat ->
  let g := nth k gs [] in
  nth k p 0 < nth 0 g 0 \/ nth (length g - 1) g 0 <= nth k p 0 ->
  exists o nodes, rgn_make gs a = Ok o /\ rgn_around bm o p = Ok nodes /\
    length nodes = (2 ^ length gs)%nat /\
    forall n, In n nodes -> nth k (gn_indices n) 0%nat = (length g - 1)%nat /\
      nth k (gn_coords n) 0 = nth (length g - 1) g 0.
Proof. exact around_outside_lemma. Qed.
Print Assumptions C33_surrounding_nodes_outside.

(** C33, intended claim "a point below the grid gives the boundary nodes
    nearest to it", refuted. *)
Theorem C33_below_saturates_refuted : exists (gs : list (list R)) (a : ndarray R) p o nodes,
  good_axes gs /\ length p = length gs /\ rgn_make gs a = Ok o /\ rgn_around Debug o p = Ok nodes /\
  nth 0 p 0 < nth 0 (nth 0 gs []) 0 /\
  forall n, In n nodes -> ~ nearest_on (nth 0 gs []) (nth 0 p 0) (nth 0 (gn_indices n) 0%nat).
Proof. exact C33_below_saturates_refuted_pf. Qed.
Print Assumptions C33_below_saturates_refuted.

(** C34: simplex interpolation, for every axis order [std::sort] may leave. *)
Theorem C34_simplex_nodes : forall bm gs data idx sort_axes,
  good_axes gs -> length data = count (map (@length R) gs) -> sorts_axes sort_axes ->
  in_extents (map (@length R) gs) idx ->
  interp_simplex bm gs data (node_at gs idx) sort_axes = Ok (element (map (@length R) gs) data idx).
Proof. exact simplex_nodes_lemma. Qed.
Print Assumptions C34_simplex_nodes.

Theorem C34_simplex_affine : forall bm gs data p sort_axes a b,
  good_axes gs -> length p = length gs -> length data = count (map (@length R) gs) ->
  sorts_axes sort_axes -> length a = length gs -> samples gs data (affine a b) ->
  interp_simplex bm gs data p sort_axes = Ok (affine a b (clamp_point gs p)) /\
  (~ outside gs p -> interp_simplex bm gs data p sort_axes = Ok (affine a b p)).
Proof. exact simplex_affine_lemma. Qed.
Print Assumptions C34_simplex_affine.

Theorem C34_simplex_range : forall bm gs data p sort_axes m M,
  good_axes gs -> length p = length gs -> length data = count (map (@length R) gs) ->
  sorts_axes sort_axes -> (forall d, In d data -> m <= d <= M) ->
  exists v, interp_simplex bm gs data p sort_axes = Ok v /\ m <= v <= M.
Proof. exact simplex_range_lemma. Qed.
Print Assumptions C34_simplex_range.

Theorem C34_simplex_1d : forall bm g data x sort_axes,
  good_axis g -> length data = length g -> sorts_axes sort_axes ->
  interp_simplex bm [g] data [x] sort_axes = interp_ml bm [g] data [x].
Proof. exact simplex_1d_lemma. Qed.
Print Assumptions C34_simplex_1d.

(** The hypothesis on the sort is met by insertion sort; 2 + x + y on the example grid. *)
Example C34_example : interp_simplex Debug exg [2; 4; 3; 5; 5; 7] [2; 1] isort = Ok 5.
Proof.
  destruct (C34_simplex_affine Debug exg [2; 4; 3; 5; 5; 7] [2; 1] isort [1; 1] 2 exg_good eq_refl eq_refl
    isort_sorts eq_refl) as [_ H].
  - intros idx H. inversion H as [|? i ? is Hi H1]; subst. inversion H1 as [|? j ? js Hj H2]; subst. inversion H2; subst.
    destruct i as [|[|[|i]]]; destruct j as [|[|j]]; simpl in Hi, Hj; try lia; unfold element, affine; simpl; lra.
  - rewrite H; [f_equal; unfold affine; simpl; lra|].
    intros (k & Hk & Ho). destruct k as [|[|k]]; simpl in Hk, Ho; try lia; lra.
Qed.

(** C85: AddVar compares only the number of elements: an array of another
    shape with as many elements is accepted and re-read in C order with the
    extents of the grid. *)
Theorem C85_grid_shape_not_checked : forall bm gs a idx,
  good_axes gs -> length (nd_flat a) = count (map (@length R) gs) ->
  in_extents (map (@length R) gs) idx ->
  exists o, rgi_make gs a = Ok o /\
    rgi_interp bm o (node_at gs idx) false = Ok (element (map (@length R) gs) (nd_flat a) idx).
Proof. exact grid_shape_lemma. Qed.
Print Assumptions C85_grid_shape_not_checked.

(** C85, intended claim "Interp at a node agrees with EvalAtIndice whenever
    AddVar accepted the array", refuted with a transposed array. *)
Theorem C85_interp_agrees_with_eval_at_indice_refuted : exists gs a o idx v w,
  good_axes gs /\ length (nd_flat a) = count (nd_shape a) /\ rgi_make gs a = Ok o /\
  rgi_interp Debug o (node_at gs idx) true = Ok v /\ rgi_at Debug o idx = Ok w /\ v <> w.
Proof. exact C85_interp_agrees_with_eval_at_indice_refuted_pf. Qed.
Print Assumptions C85_interp_agrees_with_eval_at_indice_refuted.

(** C86: for every scalar type (no law assumed: NaN included) and every build
    mode, Interp on a constructed grid returns a value; with bound check it
    returns or throws runtime_error. *)
Theorem C86_grid_interp_total : forall (T : Type) (NT : Num T) bm gs (a : ndarray T) o p bc,
  rgi_make gs a = Ok o -> length p = length gs ->
  (exists v, rgi_interp bm o p false = Ok v) /\
  ((exists v, rgi_interp bm o p bc = Ok v) \/ rgi_interp bm o p bc = Throw RuntimeError).
Proof. exact grid_total_lemma. Qed.
Print Assumptions C86_grid_interp_total.

Example C86_example : exists o, rgi_make (NT := ZNum) [[0; 4]; [0; 2]]%Z (mkND [2; 2]%nat [0; 10; 20; 30]%Z) = Ok o /\
  rgi_interp (NT := ZNum) Debug o [4; 2]%Z false = Ok 30%Z.
Proof. eexists. split; reflexivity. Qed.
