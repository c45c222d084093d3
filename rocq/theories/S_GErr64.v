(** Specification vocabulary: double data on a grid close to a real function. *)
From Coq Require Import List Arith Reals.
From Verif Require Import F64 S_Grid S_Angles S_Double.
Import ListNotations.
Open Scope R_scope.

(** Each value of the array is within [delta] of [F] at its node. *)
Definition near_table (delta : R) (gs : list (list f64)) (data : list f64) (F : list R -> R) : Prop :=
  forall idx, in_extents (map (@length f64) gs) idx ->
    Rabs (element (map (@length f64) gs) (dvalues data) idx - F (node_at (map dvalues gs) idx)) <= delta.
(** The difference of the ends of each axis is representable. *)
Definition moderate_axes (gs : list (list f64)) : Prop :=
  Forall (fun g => nth (length g - 1) (dvalues g) 0 - nth 0 (dvalues g) 0 <= dmax) gs.
