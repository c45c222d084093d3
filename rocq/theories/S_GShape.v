(** Specification vocabulary for the shape of interpolants on a grid. *)
From Coq Require Import List Arith Reals.
From Verif Require Import S_Interp1d S_Grid S_Integ S_Err.
Import ListNotations.
Open Scope R_scope.

(** The list with its k-th element replaced. *)
Definition put {A} (k : nat) (x : A) (l : list A) : list A := firstn k l ++ x :: skipn (S k) l.

(** Between neighbouring nodes along the k-th axis, the slope of the data is in [[m, M]]. *)
Definition slopes (gs : list (list R)) (data : list R) (k : nat) (m M : R) : Prop :=
  let g := nth k gs [] in let value := element (map (@length R) gs) data in
  forall idx i, in_extents (map (@length R) gs) idx -> (S i < length g)%nat ->
    m * (nth (S i) g 0 - nth i g 0) <= value (put k (S i) idx) - value (put k i idx) <= M * (nth (S i) g 0 - nth i g 0).

(** The coordinate brought back to the axis. *)
Definition onto (g : list R) (x : R) : R := clamp (first g) (final g) x.

(** Coordinate by coordinate distances. *)
Definition apart (p q : list R) : list R := map2 (fun x y => Rabs (x - y)) p q.

(** Around [q], [F] is an affine function up to the sum of M_k (x_k - q_k)^2 / 2, in the box of the grid. *)
Definition osculates (gs : list (list R)) (Ms : list R) (F : list R -> R) (q : list R) : Prop :=
  exists a b, length a = length gs /\ affine a b q = F q /\
    forall x, in_box gs x -> Rabs (F x - affine a b x) <= total (fun M d => M / 2 * d ^ 2) Ms (apart x q).

(** The point a fraction [t] of the way from [q] to [x]. *)
Definition towards (q x : list R) (t : R) : list R := map2 (fun u v => u + t * (v - u)) q x.
(** Along each segment of the box starting at [q], [F] is twice derivable, its
    slope at [q] is given by the gradient [a], and its second derivative is at
    most the sum of M_k (x_k - q_k)^2. *)
Definition smooth_from (gs : list (list R)) (Ms a : list R) (F : list R -> R) (q : list R) : Prop :=
  forall x, in_box gs x -> exists f1 f2, f1 0 = dot a (map2 Rminus x q) /\
    twice_derivable (fun t => F (towards q x t)) f1 f2 0 1 (total (fun M d => M * d ^ 2) Ms (apart x q)).
