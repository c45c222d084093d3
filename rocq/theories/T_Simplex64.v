(** Property C130: simplex interpolation of the bundled linterp in IEEE double,
    every dimension, any query (infinities and NaN included), any order
    [std::sort] may leave. *)
From Coq Require Import List Arith ZArith Reals Bool Lia Lra.
From Flocq Require Import IEEE754.BinarySingleNaN.
From Verif Require Import Outcome Num NumFun F64 S_Interp1d M_Grid S_Grid S_Angles S_Double S_Grid64 S_Simplex64 L_Simplex64.
Import ListNotations.
Local Open Scope R_scope.

(** The value never leaves the range of the data by more than 8 roundings of the
    largest value per axis. *)
Theorem C130_simplex_double_range : forall bm gs data p s m M K, good_axes64 gs -> (length gs <= 1000)%nat ->
  Forall (fun g => nth (length g - 1) (dvalues g) 0 - nth 0 (dvalues g) 0 <= dmax) gs -> length p = length gs ->
  length data = count (map (@length f64) gs) -> all_finite data -> magnitude_le K data -> K <= 2 ^ 1000 -> sorts_axes64 s ->
  (forall d, In d data -> m <= dvalue d <= M) ->
  exists v, interp_simplex bm gs data p s = Ok v /\ is_finite v = true /\
    let err := INR (length gs) * (8 * uround * K + 2 * uflow) in m - err <= dvalue v <= M + err.
Proof. exact simplex_double_range_lemma. Qed.
Print Assumptions C130_simplex_double_range.

(** Data within [tol] of an affine function give the affine function at the point
    of the grid nearest to the query, within [tol] and 16 roundings per axis. *)
Theorem C130_simplex_double_affine : forall bm gs data p s K a b tol, good_axes64 gs -> (length gs <= 1000)%nat ->
  Forall (fun g => nth (length g - 1) (dvalues g) 0 - nth 0 (dvalues g) 0 <= dmax) gs -> length p = length gs ->
  length data = count (map (@length f64) gs) -> all_finite data -> magnitude_le K data -> K <= 2 ^ 1000 -> sorts_axes64 s ->
  length a = length gs ->
  (forall idx, in_extents (map (@length f64) gs) idx -> Rabs (element (map (@length f64) gs) (dvalues data) idx - affine a b (node_at (map dvalues gs) idx)) <= tol) ->
  exists v, interp_simplex bm gs data p s = Ok v /\ is_finite v = true /\
    Rabs (dvalue v - affine a b (map2 saturated gs p)) <= tol + INR (length gs) * (16 * uround * (K + tol) + 2 * uflow).
Proof. exact simplex_double_affine_lemma. Qed.
Print Assumptions C130_simplex_double_affine.

(** Node data are reproduced up to 8 roundings of the largest value per axis. *)
Theorem C130_simplex_double_nodes : forall bm gs data idx p s K, good_axes64 gs -> (length gs <= 1000)%nat ->
  length data = count (map (@length f64) gs) -> all_finite data -> magnitude_le K data -> K <= 2 ^ 1000 -> sorts_axes64 s ->
  in_extents (map (@length f64) gs) idx -> all_finite p -> dvalues p = node_at (map dvalues gs) idx ->
  exists v, interp_simplex bm gs data p s = Ok v /\ is_finite v = true /\
    Rabs (dvalue v - element (map (@length f64) gs) (dvalues data) idx) <= INR (length gs) * (8 * uround * K + 2 * uflow).
Proof. exact simplex_double_nodes_lemma. Qed.
Print Assumptions C130_simplex_double_nodes.

(** Constant data of any magnitude give exactly that constant everywhere. *)
Theorem C130_simplex_double_constant : forall bm gs data p s c, good_axes64 gs ->
  Forall (fun g => nth (length g - 1) (dvalues g) 0 - nth 0 (dvalues g) 0 <= dmax) gs -> length p = length gs ->
  length data = count (map (@length f64) gs) -> Forall (fun x => is_finite x = true /\ dvalue x = c) data -> sorts_axes64 s ->
  exists v, interp_simplex bm gs data p s = Ok v /\ is_finite v = true /\ dvalue v = c.
Proof. exact simplex_double_constant_lemma. Qed.
Print Assumptions C130_simplex_double_constant.

(** C130, exact reproduction of node data, refuted (it holds for the multilinear
    interpolation, C111): next to the value 2^60 the value 1 is returned as 0. *)
Theorem C130_simplex_double_exact_nodes_refuted : forall s, sorts_axes64 s -> exists gs data p v,
  good_axes64 gs /\ length data = count (map (@length f64) gs) /\ all_finite data /\ dvalues p = node_at (map dvalues gs) [0%nat] /\
  interp_simplex Release gs data p s = Ok v /\ dvalue v = 0 /\ element (map (@length f64) gs) (dvalues data) [0%nat] = 1.
Proof. exact simplex_node_refuted_pf. Qed.
Print Assumptions C130_simplex_double_exact_nodes_refuted.

(** Non-vacuity: the sort exists; 2 + x + y on a 2 x 2 grid at (2, 1). *)
Example C130_sort_exists : sorts_axes64 isort64.
Proof. exact isort64_sorts. Qed.
Example C130_example : exists v, interp_simplex Debug [map f64_ofZ [1; 3]%Z; map f64_ofZ [0; 2]%Z] (map f64_ofZ [3; 5; 5; 7]%Z) (map f64_ofZ [2; 1]%Z) isort64 = Ok v /\
  Rabs (dvalue v - 5) <= / 100000000000.
Proof. exact ex_simplex. Qed.
