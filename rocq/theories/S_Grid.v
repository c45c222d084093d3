(** Specification vocabulary for data on N-dimensional rectangular grids. *)
From Coq Require Import List Arith ZArith Reals Permutation.
From Verif Require Import S_Interp1d.
Import ListNotations.
Open Scope R_scope.

(** Axes: strictly increasing, not empty. *)
Definition good_axis (g : list R) : Prop := increasing g /\ g <> [].
Definition good_axes (gs : list (list R)) : Prop := Forall good_axis gs.

(** Index tuples of an array with the given extents. *)
Definition in_extents (sizes idx : list nat) : Prop := Forall2 (fun s i => (i < s)%nat) sizes idx.

(** Number of elements, and position of an index tuple, in C order. *)
Fixpoint count (sizes : list nat) : nat :=
  match sizes with [] => 1%nat | s :: ss => (s * count ss)%nat end.
Fixpoint pos (sizes idx : list nat) : nat :=
  match sizes, idx with
  | s :: ss, i :: is => (i * count ss + pos ss is)%nat
  | _, _ => 0%nat
  end.
Definition element (sizes : list nat) (data : list R) (idx : list nat) : R :=
  nth (pos sizes idx) data 0.

Fixpoint map2 {A B C} (f : A -> B -> C) (l : list A) (m : list B) : list C :=
  match l, m with a :: l', b :: m' => f a b :: map2 f l' m' | _, _ => [] end.

(** Coordinates of a node. *)
Definition node_at (gs : list (list R)) (idx : list nat) : list R := map2 (fun g i => nth i g 0) gs idx.

(** The closed cell [cell] contains the point [p]. *)
Fixpoint in_cell (gs : list (list R)) (cell : list nat) (p : list R) : Prop :=
  match gs, cell, p with
  | [], [], [] => True
  | g :: gs', i :: cell', x :: p' =>
      (S i < length g)%nat /\ nth i g 0 <= x <= nth (S i) g 0 /\ in_cell gs' cell' p'
  | _, _, _ => False
  end.

(** The half-open cell [cell] contains the point [p]. *)
Fixpoint in_cell_ho (gs : list (list R)) (cell : list nat) (p : list R) : Prop :=
  match gs, cell, p with
  | [], [], [] => True
  | g :: gs', i :: cell', x :: p' =>
      (S i < length g)%nat /\ nth i g 0 <= x < nth (S i) g 0 /\ in_cell_ho gs' cell' p'
  | _, _, _ => False
  end.

(** Corners of the unit cube, first axis most significant. *)
Fixpoint corners (n : nat) : list (list nat) :=
  match n with
  | O => [[]]
  | S n' => map (cons 0%nat) (corners n') ++ map (cons 1%nat) (corners n')
  end.

(** Weight of corner [v] of the cell [cell]: product over the axes of the
    relative distance to the opposite face. *)
Fixpoint weight (gs : list (list R)) (cell : list nat) (p : list R) (v : list nat) : R :=
  match gs, cell, p, v with
  | g :: gs', i :: cell', x :: p', b :: v' =>
      let a := nth i g 0 in let c := nth (S i) g 0 in
      (match b with O => (c - x) / (c - a) | _ => (x - a) / (c - a) end) * weight gs' cell' p' v'
  | _, _, _, _ => 1
  end.

Definition sum (l : list R) : R := fold_right Rplus 0 l.

(** Tensor-product blend of the 2^N corners of a cell. *)
Definition blend (gs : list (list R)) (data : list R) (cell : list nat) (p : list R) : R :=
  sum (map (fun v => weight gs cell p v * element (map (@length R) gs) data (map2 Nat.add cell v))
           (corners (length gs))).

(** Clamping to the box covered by the grid. *)
Definition clamp_point (gs : list (list R)) (p : list R) : list R :=
  map2 (fun g x => clamp (nth 0 g 0) (nth (length g - 1) g 0) x) gs p.

(** Some coordinate lies outside its axis. *)
Definition outside (gs : list (list R)) (p : list R) : Prop :=
  exists k, (k < length gs)%nat /\
    let g := nth k gs [] in let x := nth k p 0 in
    x < nth 0 g 0 \/ nth (length g - 1) g 0 < x.

(** Affine in each of the [n] variables separately. *)
Definition multi_affine (n : nat) (F : list R -> R) : Prop :=
  forall pre x y t post, (length pre + S (length post) = n)%nat ->
    F (pre ++ ((1 - t) * x + t * y) :: post) = (1 - t) * F (pre ++ x :: post) + t * F (pre ++ y :: post).

(** The array samples [F] on the nodes. *)
Definition samples (gs : list (list R)) (data : list R) (F : list R -> R) : Prop :=
  forall idx, in_extents (map (@length R) gs) idx ->
    element (map (@length R) gs) data idx = F (node_at gs idx).

(** Affine functions of the point. *)
Fixpoint dot (a p : list R) : R :=
  match a, p with x :: a', y :: p' => x * y + dot a' p' | _, _ => 0 end.
Definition affine (a : list R) (b : R) (p : list R) : R := b + dot a p.

(** Squared Euclidean distance. *)
Fixpoint dist2 (p q : list R) : R :=
  match p, q with x :: p', y :: q' => Rsqr (x - y) + dist2 p' q' | _, _ => 0 end.

(** Nearest index of an axis; ties go to the larger coordinate. *)
Definition nearest_on (g : list R) (x : R) (i : nat) : Prop :=
  (i < length g)%nat /\
  forall j, (j < length g)%nat ->
    Rabs (x - nth i g 0) <= Rabs (x - nth j g 0) /\
    (Rabs (x - nth i g 0) = Rabs (x - nth j g 0) -> (j <= i)%nat).

(** A permutation of the axes [0..n-1] listing local coordinates in
    non-decreasing order: what [std::sort] guarantees. *)
Definition sorts_axes (sort_axes : list R -> list nat) : Prop :=
  forall ys, Permutation (sort_axes ys) (seq 0 (length ys)) /\
    forall i j, (i < j < length ys)%nat ->
      nth (nth i (sort_axes ys) 0%nat) ys 0 <= nth (nth j (sort_axes ys) 0%nat) ys 0.

(** At most 2^32 values ([unsigned int] cell numbers). *)
Definition small (g : list R) : Prop := (Z.of_nat (length g) <= 4294967296)%Z.
