(** Property C111: RegularGridInterpolator in IEEE double, every dimension.
    [saturated g x] is the coordinate of the grid nearest to the query [x]
    (the last node for NaN). *)
From Coq Require Import List Arith ZArith Reals Bool Lia Lra.
From Flocq Require Import IEEE754.BinarySingleNaN.
From Verif Require Import Outcome Num NumFun F64 S_Interp1d M_Grid S_Grid S_Angles S_Double S_Grid64 L_F64 L_Grid64.
Import ListNotations.
Local Open Scope R_scope.

(** Error of the interpolated value, for any query whatsoever: 14 roundings of
    the largest value per axis. *)
Theorem C111_grid_double : forall bm gs a M,
  good_axes64 gs -> (length gs <= 1000)%nat ->
  Forall (fun g => nth (length g - 1) (dvalues g) 0 - nth 0 (dvalues g) 0 <= dmax) gs ->
  length (nd_flat a) = count (map (@length f64) gs) -> all_finite (nd_flat a) -> magnitude_le M (nd_flat a) -> M <= 2 ^ 1000 ->
  exists o, rgi_make gs a = Ok o /\
    forall p, length p = length gs ->
    exists v, rgi_interp bm o p false = Ok v /\ is_finite v = true /\
      forall cell, in_cell (map dvalues gs) cell (map2 saturated gs p) ->
        Rabs (dvalue v - blend (map dvalues gs) (dvalues (nd_flat a)) cell (map2 saturated gs p))
          <= INR (length gs) * (14 * uround * M + 2 * uflow).
Proof. exact grid_double_lemma. Qed.
Print Assumptions C111_grid_double.

(** Node data are reproduced exactly, unless differences of data overflow. *)
Theorem C111_grid_double_nodes : forall bm gs a idx p bc M,
  good_axes64 gs -> length (nd_flat a) = count (map (@length f64) gs) -> all_finite (nd_flat a) ->
  magnitude_le M (nd_flat a) -> 2 * M <= dmax ->
  in_extents (map (@length f64) gs) idx -> all_finite p -> dvalues p = node_at (map dvalues gs) idx ->
  exists o v, rgi_make gs a = Ok o /\ rgi_interp bm o p bc = Ok v /\ is_finite v = true /\
    dvalue v = element (map (@length f64) gs) (dvalues (nd_flat a)) idx.
Proof. exact grid_double_node_lemma. Qed.
Print Assumptions C111_grid_double_nodes.

(** Constant data of any magnitude give exactly that constant everywhere. *)
Theorem C111_grid_double_constant : forall bm gs a c,
  good_axes64 gs -> Forall (fun g => nth (length g - 1) (dvalues g) 0 - nth 0 (dvalues g) 0 <= dmax) gs ->
  length (nd_flat a) = count (map (@length f64) gs) ->
  Forall (fun x => is_finite x = true /\ dvalue x = c) (nd_flat a) ->
  exists o, rgi_make gs a = Ok o /\
    forall p, length p = length gs -> exists v, rgi_interp bm o p false = Ok v /\ is_finite v = true /\ dvalue v = c.
Proof. exact grid_double_constant_lemma. Qed.
Print Assumptions C111_grid_double_constant.

(** The bound check rejects what is off the grid, infinities included, but not
    NaN, which is silently taken for the last node. *)
Theorem C111_grid_double_bound_check : forall bm gs a,
  good_axes64 gs -> length (nd_flat a) = count (map (@length f64) gs) ->
  exists o, rgi_make gs a = Ok o /\ forall p, length p = length gs ->
    (outside64 gs p -> rgi_interp bm o p true = Throw RuntimeError) /\
    (~ outside64 gs p -> rgi_interp bm o p true = rgi_interp bm o p false).
Proof. exact grid_double_bound_check_lemma. Qed.
Print Assumptions C111_grid_double_bound_check.

Theorem C111_grid_double_nan : forall bm gs a,
  good_axes64 gs -> length (nd_flat a) = count (map (@length f64) gs) ->
  exists o, rgi_make gs a = Ok o /\ forall p bc, length p = length gs ->
    rgi_interp bm o p bc = rgi_interp bm o (map2 nan_to_last gs p) bc.
Proof. exact grid_double_nan_lemma. Qed.
Print Assumptions C111_grid_double_nan.

(** "A NaN query is rejected or answered NaN". *)
Theorem C111_nan_query_refuted : exists (gs : list (list f64)) (a : ndarray f64) p o v,
  good_axes64 gs /\ all_finite (nd_flat a) /\ Forall (fun x => is_nan x = true) p /\
  rgi_make gs a = Ok o /\ rgi_interp Release o p true = Ok v /\ dvalue v = 7.
Proof. exact nan_query_refuted_pf. Qed.
Print Assumptions C111_nan_query_refuted.

(** "The value never exceeds the largest datum". *)
Theorem C111_range_refuted : exists (gs : list (list f64)) (a : ndarray f64) p o v M,
  good_axes64 gs /\ all_finite (nd_flat a) /\ magnitude_le M (nd_flat a) /\ all_finite p /\
  rgi_make gs a = Ok o /\ rgi_interp Release o p true = Ok v /\ is_finite v = true /\ M < dvalue v.
Proof. exact range_refuted_pf. Qed.
Print Assumptions C111_range_refuted.

(** "Finite node data are reproduced": data 2^1023 and -2^1023. *)
Theorem C111_node_overflow_refuted : exists (gs : list (list f64)) (a : ndarray f64) p o v,
  good_axes64 gs /\ all_finite (nd_flat a) /\ dvalues p = node_at (map dvalues gs) [0%nat] /\
  rgi_make gs a = Ok o /\ rgi_interp Release o p true = Ok v /\ is_nan v = true.
Proof. exact node_nan_refuted_pf. Qed.
Print Assumptions C111_node_overflow_refuted.

(** Two axes, data 3 x + y, query (1/2, 3): the second coordinate is
    clamped to 2, so the exact value is 7/2. *)
Definition ex_axes : list (list f64) := [[f64_ofZ 0; f64_ofZ 1]; [f64_ofZ 0; f64_ofZ 2]].
Definition ex_data : ndarray f64 := mkND [2; 2]%nat [f64_ofZ 0; f64_ofZ 2; f64_ofZ 3; f64_ofZ 5].
Definition ex_query : list f64 := [ndiv (f64_ofZ 1) (f64_ofZ 2); f64_ofZ 3].

Lemma ex_good : good_axes64 ex_axes.
Proof.
  constructor; [|constructor; [|constructor]]; (split; [repeat constructor|]; split; [|discriminate]);
    intros i j Hij; cbn [dvalues map length] in Hij; destruct i as [|i]; destruct j as [|[|j]]; try lia; cbn [dvalues map nth];
    unfold dvalue; rewrite ?(proj2 (ofZ_ok 0 ltac:(reflexivity))), ?(proj2 (ofZ_ok 1 ltac:(reflexivity))), ?(proj2 (ofZ_ok 2 ltac:(reflexivity))); lra.
Qed.

Example C111_example : exists o v, rgi_make ex_axes ex_data = Ok o /\ rgi_interp Debug o ex_query false = Ok v /\
  Rabs (dvalue v - 7 / 2) <= 2 * (14 * uround * 5 + 2 * uflow).
Proof.
  assert (V : forall n, (Z.abs n < 2 ^ 53)%Z -> dvalue (f64_ofZ n) = IZR n) by (intros n Hn; exact (proj2 (ofZ_ok n Hn))).
  assert (V0 := V 0%Z eq_refl). assert (V1 := V 1%Z eq_refl). assert (V2 := V 2%Z eq_refl). assert (V3 := V 3%Z eq_refl).
  assert (V5 := V 5%Z eq_refl).
  assert (DM : 2 <= dmax).
  { assert (A := abs_val_fmax (f64_ofZ 2)). rewrite <- L_Interp64.dmax_fmax in A. unfold dvalue in V2. rewrite V2, Rabs_pos_eq in A; lra. }
  destruct (C111_grid_double Debug ex_axes ex_data 5 ex_good) as (o & Ho & H).
  - simpl. lia.
  - constructor; [|constructor; [|constructor]]; cbn [length Nat.sub dvalues map nth]; rewrite ?V0, ?V1, ?V2; lra.
  - reflexivity.
  - repeat constructor.
  - constructor; [|constructor; [|constructor; [|constructor; [|constructor]]]]; rewrite ?V0, ?V2, ?V3, ?V5; rewrite Rabs_pos_eq; lra.
  - apply Rle_trans with (2 ^ 3); [simpl; lra|]. apply Rle_pow; [lra|lia].
  - destruct (H ex_query eq_refl) as (v & Hv & _ & K). exists o, v. split; [exact Ho|]. split; [exact Hv|].
    assert (Q : dvalue (ndiv (f64_ofZ 1) (f64_ofZ 2)) = / 2).
    { replace (dvalue (ndiv (f64_ofZ 1) (f64_ofZ 2))) with (SF2R Zaux.radix2 (B2SF (ndiv (f64_ofZ 1) (f64_ofZ 2)))) by apply SF2R_B2SF.
      replace (B2SF (ndiv (f64_ofZ 1) (f64_ofZ 2))) with (SpecFloat.S754_finite false 4503599627370496 (-53)) by (vm_compute; reflexivity).
      unfold SF2R, Defs.F2R. simpl. lra. }
    assert (S1 : saturated [f64_ofZ 0; f64_ofZ 1] (ndiv (f64_ofZ 1) (f64_ofZ 2)) = / 2).
    { transitivity (clamp 0 1 (dvalue (ndiv (f64_ofZ 1) (f64_ofZ 2)))).
      - rewrite <- V0, <- V1 at 1. reflexivity.
      - rewrite Q. unfold clamp. rewrite Rmin_right, Rmax_right; lra. }
    assert (S2 : saturated [f64_ofZ 0; f64_ofZ 2] (f64_ofZ 3) = 2).
    { transitivity (clamp 0 2 3).
      - rewrite <- V0, <- V2, <- V3 at 1. reflexivity.
      - unfold clamp. rewrite Rmin_left, Rmax_right; lra. }
    specialize (K [0; 0]%nat). unfold ex_axes, ex_query in K. cbn [map2] in K. rewrite S1, S2 in K.
    cbn [map dvalues in_cell length nth] in K. rewrite ?V0, ?V1, ?V2 in K.
    replace (7 / 2) with (blend [[0; 1]; [0; 2]] (dvalues (nd_flat ex_data)) [0; 0]%nat [/ 2; 2]).
    + apply K. repeat split; try lia; lra.
    + unfold blend, ex_data, element. cbn [nd_flat dvalues map]. rewrite V0, V2, V3, V5. simpl. lra.
Qed.
