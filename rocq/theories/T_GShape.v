(** Property C142: the interpolants on a grid, multilinear or simplex, have along
    each axis slopes between the smallest and the largest slope of the data: they
    preserve monotonicity and Lipschitz constants.  [put k x p]: the point [p] with
    its k-th coordinate replaced; [onto g x]: the coordinate brought back to the axis. *)
From Coq Require Import List Arith ZArith Reals Lra Lia Bool.
From Verif Require Import Outcome Num S_Interp1d M_Grid S_Grid S_Integ S_Err S_GShape L_GridSimplex L_GridExamples L_GShape3 L_GShape4.
Import ListNotations.
Local Open Scope R_scope.

Theorem C142_grid_slopes : forall bm gs a k m M p x x', good_axes gs -> length (nd_flat a) = count (map (@length R) gs) -> length p = length gs ->
  (k < length gs)%nat -> slopes gs (nd_flat a) k m M -> x <= x' ->
  let g := nth k gs [] in
  exists o v v', rgi_make gs a = Ok o /\ rgi_interp bm o (put k x p) false = Ok v /\ rgi_interp bm o (put k x' p) false = Ok v' /\
    m * (onto g x' - onto g x) <= v' - v <= M * (onto g x' - onto g x).
Proof. exact grid_slope. Qed.
Print Assumptions C142_grid_slopes.
Theorem C142_simplex_slopes : forall bm gs data s k m M p x x', good_axes gs -> length data = count (map (@length R) gs) -> length p = length gs -> sorts_axes s ->
  (k < length gs)%nat -> slopes gs data k m M -> x <= x' ->
  let g := nth k gs [] in
  exists v v', interp_simplex bm gs data (put k x p) s = Ok v /\ interp_simplex bm gs data (put k x' p) s = Ok v' /\
    m * (onto g x' - onto g x) <= v' - v <= M * (onto g x' - onto g x).
Proof. exact simplex_slope. Qed.
Print Assumptions C142_simplex_slopes.
(** Two arbitrary points. *)
Theorem C142_grid_lipschitz : forall bm gs a Ks p p', good_axes gs -> length (nd_flat a) = count (map (@length R) gs) -> length Ks = length gs -> length p = length gs -> length p' = length gs ->
  List.Forall (fun K => 0 <= K) Ks -> (forall k, (k < length gs)%nat -> slopes gs (nd_flat a) k (- nth k Ks 0) (nth k Ks 0)) ->
  exists o v v', rgi_make gs a = Ok o /\ rgi_interp bm o p false = Ok v /\ rgi_interp bm o p' false = Ok v' /\ Rabs (v - v') <= total (fun K d => K * d) Ks (apart p p').
Proof. exact grid_lipschitz. Qed.
Print Assumptions C142_grid_lipschitz.
Theorem C142_simplex_lipschitz : forall bm gs data s Ks p p', good_axes gs -> length data = count (map (@length R) gs) -> sorts_axes s -> length Ks = length gs -> length p = length gs -> length p' = length gs ->
  List.Forall (fun K => 0 <= K) Ks -> (forall k, (k < length gs)%nat -> slopes gs data k (- nth k Ks 0) (nth k Ks 0)) ->
  exists v v', interp_simplex bm gs data p s = Ok v /\ interp_simplex bm gs data p' s = Ok v' /\ Rabs (v - v') <= total (fun K d => K * d) Ks (apart p p').
Proof. exact simplex_lipschitz. Qed.
Print Assumptions C142_simplex_lipschitz.

(** *** Concrete cases *)
(** x*y on the axes 0, 1, 3 and 0, 2: slopes in [0, 2] and [0, 3]; from (1, 1) to (4, 1) the value grows by at most 4. *)
Example C142_example : slopes exg exxy 0 0 2 /\ slopes exg exxy 1 0 3 /\
  exists v v', interp_simplex Debug exg exxy [1; 1] isort = Ok v /\ interp_simplex Debug exg exxy [4; 1] isort = Ok v' /\ 0 <= v' - v <= 4.
Proof. exact (conj (proj1 ex_slopes) (conj (proj2 ex_slopes) ex_slope)). Qed.
