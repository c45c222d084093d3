(** Specification vocabulary for the accuracy of interpolation: how far the
    interpolated value is from the function that was sampled. *)
From Coq Require Import List Arith ZArith Reals.
From Verif Require Import M_Series S_Series S_Interp1d S_Grid S_Integ S_Cheb.
Import ListNotations.
Open Scope R_scope.

(** Consecutive abscissae are at most [h] apart. *)
Definition spacing (h : R) (g : list R) : Prop :=
  forall i, (S i < length g)%nat -> nth (S i) g 0 - nth i g 0 <= h.

(** [f] is [K]-Lipschitz on [[a, b]]. *)
Definition lipschitz (f : R -> R) (a b K : R) : Prop :=
  forall x y, a <= x <= b -> a <= y <= b -> Rabs (f x - f y) <= K * Rabs (x - y).

(** The first and last abscissae of an axis. *)
Definition first (g : list R) : R := nth 0 g 0.
Definition final (g : list R) : R := nth (length g - 1) g 0.

(** The point is in the box covered by the grid. *)
Definition in_box (gs : list (list R)) (p : list R) : Prop :=
  Forall2 (fun g x => first g <= x <= final g) gs p.

(** The restriction of [F] to any line of the box parallel to the k-th axis
    has the property [P g c], [g] being the axis and [c] its constant in [Cs]. *)
Definition along_axes (P : (R -> R) -> list R -> R -> Prop) (gs : list (list R)) (Cs : list R) (F : list R -> R) : Prop :=
  forall pre post, (length pre < length gs)%nat ->
    in_box (firstn (length pre) gs) pre -> in_box (skipn (S (length pre)) gs) post ->
    P (fun x => F (pre ++ x :: post)) (nth (length pre) gs []) (nth (length pre) Cs 0).

(** Second derivative bounded by [M], respectively Lipschitz constant [K], along an axis. *)
Definition curved (f : R -> R) (g : list R) (M : R) : Prop :=
  exists f1 f2, twice_derivable f f1 f2 (first g) (final g) M.
Definition sloped (f : R -> R) (g : list R) (K : R) : Prop := lipschitz f (first g) (final g) K.

(** Spacings of the axes, one by one. *)
Definition spacings (hs : list R) (gs : list (list R)) : Prop := Forall2 spacing hs gs.

(** Sum over the axes. *)
Definition total (c : R -> R -> R) (Cs hs : list R) : R := sum (map2 c Cs hs).

(** Two variables: the same along both axes; a table stored row by row (x is the slow index). *)
Definition along2 (P : (R -> R) -> list R -> R -> Prop) (xs ys : list R) (f : R -> R -> R) (Cx Cy : R) : Prop :=
  (forall y, first ys <= y <= final ys -> P (fun x => f x y) xs Cx) /\ (forall x, first xs <= x <= final xs -> P (f x) ys Cy).
Definition samples2 (xs ys data : list R) (f : R -> R -> R) : Prop :=
  forall i j, (i < length xs)%nat -> (j < length ys)%nat -> nth (length ys * i + j) data 0 = f (nth i xs 0) (nth j ys 0).
