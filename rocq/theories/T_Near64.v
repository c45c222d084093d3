(** Theorems on the nearest and the surrounding grid nodes in binary64. *)
From Coq Require Import List Arith ZArith Reals Bool Lia Lra.
From Flocq Require Import Core.Core IEEE754.BinarySingleNaN.
From Verif Require Import Outcome Num NumFun F64 M_Grid S_Interp1d S_Grid S_Angles S_Double S_Grid64 S_Near64 L_F64 L_Interp64 L_Grid64 L_Near64.
Import ListNotations.
Local Open Scope R_scope.

(** C118: [Nearest] in double, in any number of dimensions and for every query
    without NaN: along each axis the answer is the nearest node (ties to the
    larger), unless the query is the rounded middle of a cell and that middle
    was rounded down. *)
Theorem C118_nearest_double : forall (D : Type) bm gs (a : ndarray D) p d,
  good_axes64 gs -> Forall doubling_ok gs -> nd_shape a = map (@length f64) gs -> length (nd_flat a) = count (nd_shape a) ->
  length p = length gs -> Forall (fun x : f64 => is_nan x = false) p ->
  exists o idx, rgn_make gs a = Ok o /\
    rgn_nearest bm o p = Ok (mkGN idx (coords64 gs idx) (nth (pos (nd_shape a) idx) (nd_flat a) d)) /\
    in_extents (nd_shape a) idx /\
    (forall k, (k < length gs)%nat -> nearest64 (nth k gs []) (nth k p B754_nan) (nth k idx 0%nat)).
Proof. exact near_double_lemma. Qed.
Print Assumptions C118_nearest_double.

(** C118: the answer is never farther than the nearest node by more than two
    roundings. *)
Theorem C118_nearest_excess_double : forall g x i M, good_axis64 g -> is_finite x = true -> nearest64 g x i -> magnitude_le M g ->
  forall k, (k < length g)%nat ->
  Rabs (dvalue x - nth i (dvalues g) 0) <= Rabs (dvalue x - nth k (dvalues g) 0) + 2 * (uround * M + uflow).
Proof. exact near_excess_lemma. Qed.
Print Assumptions C118_nearest_excess_double.

(** C118, the claim "[Nearest] at a grid node returns that node", refuted: on
    the axis {2^53, 2^53 + 2} the node 2^53 gives the other one. *)
Theorem C118_nearest_at_node_refuted : exists (gs : list (list f64)) (a : ndarray nat) p o n,
  good_axes64 gs /\ Forall doubling_ok gs /\ nd_shape a = map (@length f64) gs /\ length (nd_flat a) = count (nd_shape a) /\
  p = coords64 gs [0%nat] /\ rgn_make gs a = Ok o /\ rgn_nearest Release o p = Ok n /\ gn_indices n = [1%nat] /\ gn_val n <> nth 0 (nd_flat a) 0%nat.
Proof. exact node_refuted_pf. Qed.
Print Assumptions C118_nearest_at_node_refuted.

(** C118, without the condition on the size of the coordinates, refuted: the
    sum of two neighbours overflows and the far end is returned. *)
Theorem C118_nearest_overflow_refuted : exists (gs : list (list f64)) (a : ndarray nat) x o n,
  good_axes64 gs /\ nd_shape a = map (@length f64) gs /\ length (nd_flat a) = count (nd_shape a) /\ is_finite x = true /\
  rgn_make gs a = Ok o /\ rgn_nearest Release o [x] = Ok n /\ gn_indices n = [0%nat] /\
  Rabs (dvalue x - nth 1 (dvalues (nth 0 gs [])) 0) * 1000000 < Rabs (dvalue x - nth 0 (dvalues (nth 0 gs [])) 0).
Proof. exact overflow_refuted_pf. Qed.
Print Assumptions C118_nearest_overflow_refuted.

(** C118: [Nearest] reads past the end of an axis exactly when a coordinate of
    the query is NaN, in both builds. *)
Theorem C118_nearest_nan_undefined : forall (D : Type) bm gs (a : ndarray D) p,
  good_axes64 gs -> nd_shape a = map (@length f64) gs -> length (nd_flat a) = count (nd_shape a) -> length p = length gs ->
  exists o, rgn_make gs a = Ok o /\ (rgn_nearest bm o p = UB <-> Exists (fun x : f64 => is_nan x = true) p).
Proof. exact near_nan_lemma. Qed.
Print Assumptions C118_nearest_nan_undefined.

(** C118: [GetSurroundingGridNodes] in double finds the exact cell. *)
Theorem C118_surrounding_inside_double : forall (D : Type) bm gs (a : ndarray D) cell p d,
  good_axes64 gs -> Forall small (map dvalues gs) -> nd_shape a = map (@length f64) gs ->
  length (nd_flat a) = count (nd_shape a) -> all_finite p -> in_cell_ho (map dvalues gs) cell (dvalues p) ->
  exists o, rgn_make gs a = Ok o /\
    rgn_around bm o p =
      Ok (map (fun v => let idx := map2 Nat.add cell v in
                        mkGN idx (coords64 gs idx) (nth (pos (nd_shape a) idx) (nd_flat a) d))
              (corners (length gs))).
Proof. exact around_inside_f. Qed.
Print Assumptions C118_surrounding_inside_double.

(** C118: a coordinate outside its axis, on its last node, infinite or NaN
    gives the last index of that axis, whichever side it is on. *)
Theorem C118_surrounding_outside_double : forall (D : Type) bm gs (a : ndarray D) p k,
  good_axes64 gs -> Forall small (map dvalues gs) -> nd_shape a = map (@length f64) gs ->
  length (nd_flat a) = count (nd_shape a) -> length p = length gs -> (k < length gs)%nat ->
  let g := nth k gs [] in let x := nth k p B754_nan in
  is_finite x = false \/ dvalue x < nth 0 (dvalues g) 0 \/ nth (length g - 1) (dvalues g) 0 <= dvalue x ->
  exists o nodes, rgn_make gs a = Ok o /\ rgn_around bm o p = Ok nodes /\
    length nodes = (2 ^ length gs)%nat /\
    forall n, In n nodes -> nth k (gn_indices n) 0%nat = (length g - 1)%nat /\
      nth k (gn_coords n) B754_nan = nth (length g - 1) g B754_nan.
Proof. exact around_outside_f. Qed.
Print Assumptions C118_surrounding_outside_double.

(** Two axes {1, 3} and {1, 3}, data 10 20 30 40, queried at (2, -oo): the
    hypotheses hold and the answer is node (1, 0). *)
Definition ex_axes : list (list f64) := [[f64_ofZ 1; f64_ofZ 3]; [f64_ofZ 1; f64_ofZ 3]].
Definition ex_data : ndarray nat := mkND [2%nat; 2%nat] [10%nat; 20%nat; 30%nat; 40%nat].
Example C118_axes_ok : good_axes64 ex_axes /\ Forall doubling_ok ex_axes /\ Forall small (map dvalues ex_axes).
Proof.
  assert (V1 : dvalue (f64_ofZ 1) = 1) by exact (proj2 (ofZ_ok 1 ltac:(reflexivity))).
  assert (V3 : dvalue (f64_ofZ 3) = 3) by exact (proj2 (ofZ_ok 3 ltac:(reflexivity))).
  assert (G : good_axis64 [f64_ofZ 1; f64_ofZ 3]).
  { assert (H := good2 (f64_ofZ 1) (f64_ofZ 3) (eq_refl _) (eq_refl _)). change (val (f64_ofZ 1)) with (dvalue (f64_ofZ 1)) in H. change (val (f64_ofZ 3)) with (dvalue (f64_ofZ 3)) in H.
    rewrite V1, V3 in H. specialize (H ltac:(lra)). inversion H; assumption. }
  assert (D : doubling_ok [f64_ofZ 1; f64_ofZ 3]).
  { assert (6 <= dmax).
    { rewrite dmax_fmax. assert (B := bpow_le radix2 3 1000 ltac:(lia)). assert (B1 := big64). change (bpow radix2 3) with 8 in B. lra. }
    constructor; [|constructor; [|constructor]]; rewrite ?V1, ?V3, Rabs_pos_eq; lra. }
  split; [|split].
  - constructor; [exact G|]. constructor; [exact G|constructor].
  - constructor; [exact D|]. constructor; [exact D|constructor].
  - constructor; [|constructor; [|constructor]]; unfold small; simpl; lia.
Qed.
Example C118_query : let n := nof (rgn_nearest Debug (mkRN ex_axes ex_data) [f64_ofZ 2; B754_infinity true]) 0%nat in
  gn_indices n = [1%nat; 0%nat] /\ gn_val n = 30%nat.
Proof. vm_compute. split; reflexivity. Qed.
