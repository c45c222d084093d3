(** Specification vocabulary: slabs of an array. *)
From Coq Require Import List Arith Reals.
From Verif Require Import M_Grid S_Grid.
Import ListNotations.

(** The i-th slab along the first axis of an array in C order whose other
    extents are [sizes]. *)
Definition slab (sizes : list nat) (a : ndarray R) (i : nat) : ndarray R :=
  mkND sizes (firstn (count sizes) (skipn (i * count sizes) (nd_flat a))).
