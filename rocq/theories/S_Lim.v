(** Specification vocabulary for convergence under refinement. *)
From Coq Require Import List Arith Reals.
From Verif Require Import M_Series S_Interp1d S_Grid S_Err S_ErrC.
Import ListNotations.
Open Scope R_scope.

(** On [[a, b]], arguments at most [h] apart have values at most [w] apart. *)
Definition modulus (f : R -> R) (a b h w : R) : Prop :=
  forall s t, a <= s <= b -> a <= t <= b -> Rabs (s - t) <= h -> Rabs (f s - f t) <= w.

(** [f] restricted to [[a, b]] is continuous. *)
Definition continuous_on (f : R -> R) (a b : R) : Prop :=
  forall x, a <= x <= b -> forall eps, 0 < eps -> exists d, 0 < d /\
    forall y, a <= y <= b -> Rabs (y - x) < d -> Rabs (f y - f x) <= eps.

(** A box: the bounds of each coordinate. *)
Definition box := list (R * R).
Definition between (b : box) (p : list R) : Prop := Forall2 (fun c x => fst c <= x <= snd c) b p.
(** Coordinate by coordinate, less than [d] apart. *)
Definition close (d : R) (p q : list R) : Prop := Forall2 (fun x y => Rabs (x - y) < d) p q.
(** [F] restricted to the box is continuous. *)
Definition continuous_box (b : box) (F : list R -> R) : Prop :=
  forall p, between b p -> forall eps, 0 < eps -> exists d, 0 < d /\
    forall q, between b q -> close d q p -> Rabs (F q - F p) <= eps.

(** The axes span the sides of the box, with consecutive abscissae at most [h] apart. *)
Definition refines (h : R) (b : box) (gs : list (list R)) : Prop :=
  Forall2 (fun c g => good_axis g /\ first g = fst c /\ final g = snd c /\ spacing h g) b gs.

(** As a function of the unit coordinate of the axis, [f] has derivatives of
    every order, the k-th bounded by C r^k k!. *)
Definition analytic_on (a : axis R) (f : R -> R) (C r : R) : Prop :=
  forall k, smooth_on a k f (C * r ^ k * INR (fact k)).
