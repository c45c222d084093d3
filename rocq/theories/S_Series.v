(** Specification vocabulary for polynomials and series: finite sums,
    derivatives (Stdlib [derivable_pt_lim]), coordinate maps. *)
From Coq Require Import List Arith ZArith Reals.
From Verif Require Import Outcome M_Series.
Import ListNotations.
Open Scope R_scope.

(** f 0 + ... + f (n-1). *)
Fixpoint bsum (n : nat) (f : nat -> R) : R :=
  match n with O => 0 | S k => bsum k f + f k end.

(** [d] is the derivative of [f] on the set [D]. *)
Definition derivative_on (D : R -> Prop) (f d : R -> R) : Prop :=
  forall x, D x -> derivable_pt_lim f x (d x).

(** The point of [-1, 1] standing for [x] on the segment [[lo, hi]]. *)
Definition segment_unit (lo hi x : R) : R := (2 * x - (lo + hi)) / (hi - lo).
(** The point of [-1, 1[ standing for [x] on the half-line [[lo, +inf[]. *)
Definition halfline_unit (lo x : R) : R := 1 - 2 * lo / x.

Definition everywhere (x : R) : Prop := True.
Definition nonzero (x : R) : Prop := x <> 0.

(** One-variable series: [ev] and [dx] always return, [ev] is the sum of
    [b i * u(x)^i], [dx] its derivative on [D]. *)
Definition power_series1 (n : nat) (b : nat -> R) (u : R -> R) (D : R -> Prop)
    (ev dx : R -> outcome R) : Prop :=
  exists f fx,
    (forall x, D x -> ev x = Ok (f x)) /\ (forall x, D x -> dx x = Ok (fx x)) /\
    (forall x, D x -> f x = bsum n (fun i => b i * u x ^ i)) /\
    derivative_on D f fx.

Definition power_series2 (m n : nat) (b : nat -> nat -> R) (u v : R -> R) (Dx Dy : R -> Prop)
    (ev dx dy : R -> R -> outcome R) : Prop :=
  exists f fx fy,
    (forall x y, Dx x -> Dy y -> ev x y = Ok (f x y)) /\
    (forall x y, Dx x -> Dy y -> dx x y = Ok (fx x y)) /\
    (forall x y, Dx x -> Dy y -> dy x y = Ok (fy x y)) /\
    (forall x y, Dx x -> Dy y ->
       f x y = bsum m (fun i => bsum n (fun j => b i j * u x ^ i * v y ^ j))) /\
    (forall y, Dy y -> derivative_on Dx (fun x => f x y) (fun x => fx x y)) /\
    (forall x, Dx x -> derivative_on Dy (fun y => f x y) (fun y => fy x y)).

Definition power_series3 (m n p : nat) (b : nat -> nat -> nat -> R) (u v w : R -> R) (Dx Dy Dz : R -> Prop)
    (ev dx dy dz : R -> R -> R -> outcome R) : Prop :=
  exists f fx fy fz,
    (forall x y z, Dx x -> Dy y -> Dz z ->
       ev x y z = Ok (f x y z) /\ dx x y z = Ok (fx x y z) /\
       dy x y z = Ok (fy x y z) /\ dz x y z = Ok (fz x y z) /\
       f x y z = bsum m (fun i => bsum n (fun j => bsum p (fun k => b i j k * u x ^ i * v y ^ j * w z ^ k)))) /\
    (forall y z, Dy y -> Dz z -> derivative_on Dx (fun x => f x y z) (fun x => fx x y z)) /\
    (forall x z, Dx x -> Dz z -> derivative_on Dy (fun y => f x y z) (fun y => fy x y z)) /\
    (forall x y, Dx x -> Dy y -> derivative_on Dz (fun z => f x y z) (fun z => fz x y z)).

(** [f z] tends to [l] as [z] tends to +inf. *)
Definition tends_to_at_infinity (f : R -> R) (l : R) : Prop :=
  forall eps, 0 < eps -> exists M, forall z, M < z -> Rabs (f z - l) < eps.

(** The coordinate map of an axis is differentiable at [x]. *)
Definition regular (a : axis R) (x : R) : Prop :=
  match a with Closed lo hi => lo < hi | Opened lo => x <> 0 end.

(** All the coefficient matrices of a three-variable series have [m] > 0 rows
    and [n] > 0 columns, and there is at least one. *)
Definition shaped (b : list (mat R)) (m n : nat) : Prop :=
  (0 < m)%nat /\ (0 < n)%nat /\ b <> [] /\ Forall (fun A => m_rows A = m /\ m_cols A = n) b.

(** Coefficient (i, j) of the k-th matrix. *)
Definition coef3 (b : list (mat R)) (i j k : nat) : R :=
  m_at (nth k b (mkMat 0 0 (fun _ _ => 0))) i j.
