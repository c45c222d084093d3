(** Specification vocabulary for the accuracy of the nearest node in double. *)
From Coq Require Import List Reals.
From Verif Require Import S_Grid S_Double.
Import ListNotations.
Open Scope R_scope.

(** Axis by axis, half the spacing and two roundings of the coordinates, which are at most M. *)
Definition node_excess (hs Ms : list R) : list R := map2 (fun h M => h / 2 + 2 * (uround * M + uflow)) hs Ms.
