(** C153: grid interpolation one axis at a time. *)
From Coq Require Import List Arith ZArith Reals Lra Lia Bool.
From Verif Require Import Outcome Num StdAlgo S_Interp1d M_Grid S_Grid L_Grid L_GridExamples S_Slab L_Slab.
Import ListNotations.
Local Open Scope R_scope.

(** The value in N + 1 dimensions is on the chord between the values given by
    the two neighbouring slabs in N dimensions. *)
Theorem C153_axis_by_axis : forall bm g gs a o o0 o1 i cell x p,
  good_axes (g :: gs) -> length (nd_flat a) = count (map (@length R) (g :: gs)) ->
  in_cell (g :: gs) (i :: cell) (x :: p) ->
  rgi_make (g :: gs) a = Ok o ->
  rgi_make gs (slab (map (@length R) gs) a i) = Ok o0 -> rgi_make gs (slab (map (@length R) gs) a (S i)) = Ok o1 ->
  exists v v0 v1, rgi_interp bm o (x :: p) false = Ok v /\ rgi_interp bm o0 p false = Ok v0 /\ rgi_interp bm o1 p false = Ok v1 /\
    on_line (nth i g 0) v0 (nth (S i) g 0) v1 x v.
Proof. exact axis_by_axis. Qed.
Print Assumptions C153_axis_by_axis.
(** On a slab of the grid it is the value given by that slab alone. *)
Theorem C153_on_a_slab : forall bm g gs a o o0 i cell p,
  good_axes (g :: gs) -> length (nd_flat a) = count (map (@length R) (g :: gs)) -> (2 <= length g)%nat -> (i < length g)%nat ->
  in_cell gs cell p -> rgi_make (g :: gs) a = Ok o -> rgi_make gs (slab (map (@length R) gs) a i) = Ok o0 ->
  rgi_interp bm o (nth i g 0 :: p) false = rgi_interp bm o0 p false.
Proof. exact at_slab. Qed.
Print Assumptions C153_on_a_slab.
(** An axis along which the data do not vary can be left out. *)
Theorem C153_constant_axis : forall bm g gs a o o0 i cell x p,
  good_axes (g :: gs) -> length (nd_flat a) = count (map (@length R) (g :: gs)) ->
  in_cell (g :: gs) (i :: cell) (x :: p) ->
  (forall k, (k < length g)%nat -> slab (map (@length R) gs) a k = slab (map (@length R) gs) a 0) ->
  rgi_make (g :: gs) a = Ok o -> rgi_make gs (slab (map (@length R) gs) a 0) = Ok o0 ->
  rgi_interp bm o (x :: p) false = rgi_interp bm o0 p false.
Proof. exact constant_axis. Qed.
Print Assumptions C153_constant_axis.

(** The table 1 2 / 3 5 / 8 13 at 0, 1, 3 and 0, 2: at (2, 1) the value is
    halfway between those of the rows 3 5 and 8 13 at 1. *)
Example C153_example : exists o o0 o1, rgi_make exg exa = Ok o /\
  rgi_make [[0; 2]] (mkND [2%nat] [3; 5]) = Ok o0 /\ rgi_make [[0; 2]] (mkND [2%nat] [8; 13]) = Ok o1 /\
  exists v v0 v1, rgi_interp Debug o [2; 1] false = Ok v /\ rgi_interp Debug o0 [1] false = Ok v0 /\
    rgi_interp Debug o1 [1] false = Ok v1 /\ v = (v0 + v1) / 2.
Proof.
  assert (C : in_cell exg [1; 0]%nat [2; 1]) by (simpl; repeat split; try lia; lra).
  assert (G1 : good_axes [[0; 2]]) by exact (Forall_inv_tail exg_good).
  assert (C1 : in_cell [[0; 2]] [0%nat] [1]) by (simpl; repeat split; try lia; lra).
  destruct (grid_blend_lemma Debug exg exa [1; 0]%nat [2; 1] exg_good eq_refl C) as (o & Ho & _).
  destruct (grid_blend_lemma Debug [[0; 2]] (mkND [2%nat] [3; 5]) [0%nat] [1] G1 eq_refl C1) as (o0 & H0 & _).
  destruct (grid_blend_lemma Debug [[0; 2]] (mkND [2%nat] [8; 13]) [0%nat] [1] G1 eq_refl C1) as (o1 & H1 & _).
  exists o, o0, o1. split; [exact Ho|]. split; [exact H0|]. split; [exact H1|].
  destruct (C153_axis_by_axis Debug [0; 1; 3] [[0; 2]] exa o o0 o1 1 [0%nat] 2 [1] exg_good eq_refl C Ho H0 H1)
    as (v & v0 & v1 & E & E0 & E1 & L).
  exists v, v0, v1. repeat split; auto. unfold on_line in L. simpl in L. lra.
Qed.
Example C153_constant_example : exists o o0, rgi_make exg (mkND [3%nat; 2%nat] [4; 6; 4; 6; 4; 6]) = Ok o /\
  rgi_make [[0; 2]] (mkND [2%nat] [4; 6]) = Ok o0 /\
  rgi_interp Release o [2; 1] false = rgi_interp Release o0 [1] false /\
  rgi_interp Release o [3; 1] false = rgi_interp Release o0 [1] false.
Proof.
  set (a := mkND [3%nat; 2%nat] [4; 6; 4; 6; 4; 6]).
  assert (C : in_cell exg [1; 0]%nat [2; 1]) by (simpl; repeat split; try lia; lra).
  assert (G1 : good_axes [[0; 2]]) by exact (Forall_inv_tail exg_good).
  assert (C1 : in_cell [[0; 2]] [0%nat] [1]) by (simpl; repeat split; try lia; lra).
  destruct (grid_blend_lemma Release exg a [1; 0]%nat [2; 1] exg_good eq_refl C) as (o & Ho & _).
  destruct (grid_blend_lemma Release [[0; 2]] (mkND [2%nat] [4; 6]) [0%nat] [1] G1 eq_refl C1) as (o0 & H0 & _).
  exists o, o0. split; [exact Ho|]. split; [exact H0|]. split.
  - apply (C153_constant_axis Release [0; 1; 3] [[0; 2]] a o o0 1 [0%nat] 2 [1] exg_good eq_refl C); auto.
    intros [|[|[|k]]] Hk; try reflexivity. simpl in Hk. lia.
  - apply (C153_on_a_slab Release [0; 1; 3] [[0; 2]] a o o0 2 [0%nat] [1] exg_good eq_refl); auto; simpl; lia.
Qed.
