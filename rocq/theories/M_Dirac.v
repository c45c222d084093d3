(** Model of [Dirac], src/MathUtils/Functions.h:60-75, and of Spline.h. *)
From Coq Require Import List Arith ZArith Bool.
From Verif Require Import Outcome Num NumFun.
Import ListNotations.

(** The unqualified [abs] of line 68 is the floating-point function only if a
    header that brings [std::abs] into the global namespace (<stdlib.h>,
    <math.h>) was included; with <cmath> alone it is C's [abs(int)], and the
    argument is truncated. *)
Inductive abs_overload := AbsReal | AbsInt.

Section Dirac.
Context {T : Type} `{NT : Num T} `{FT : NumFm T}.

Definition dirac_abs (o : abs_overload) (x : T) : outcome T :=
  match o with
  | AbsReal => Ok (nfabs x)
  | AbsInt => match ntoZ x with
              | Some z => if ((-2147483648 <? z) && (z <=? 2147483647))%Z then Ok (nofZ (Z.abs z)) else UB
              | None => UB
              end
  end.

Definition Dirac (o : abs_overload) (x : list T) (x_impulse height : T) : outcome (list T) :=
  let* x1 := vidx x 1 in
  let* x0 := vidx x 0 in
  let dx_2 := (nlit 1 2 * (x1 - x0))%num in
  mapM (fun xi => let* a := dirac_abs o (xi - x_impulse)%num in
                  Ok (if (a <? dx_2)%num then height else nofZ 0)) x.
End Dirac.

(** ** Spline.h.  [fit pts degree par] is the spline returned by Eigen's
    SplineFitting::Interpolate(pts, degree, par), as a function of the
    parameter (component 0).  Dim is 1: the fitted type is fixed to
    Spline<Real, 1>.  minCoeff and maxCoeff of an empty vector fail Eigen's
    assertion in debug builds and are undefined otherwise.  The degree is
    min(rows - 1, Deg). *)
Section Spline.
Context {T : Type} `{NT : Num T}.
Variable fit : list T -> nat -> list T -> T -> T.

Record spline := mkSpline { sp_min : T; sp_max : T; sp_fun : T -> T }.

Fixpoint min_coeff (m : T) (l : list T) : T :=
  match l with [] => m | x :: l' => min_coeff (if (x <? m)%num then x else m) l' end.
Fixpoint max_coeff (m : T) (l : list T) : T :=
  match l with [] => m | x :: l' => max_coeff (if (m <? x)%num then x else m) l' end.

(** Spline.h:61-67. *)
Definition scaled_value (lo hi x : T) : T := ((x - lo) / (hi - lo))%num.

(** Spline.h:25-38. *)
Definition make_spline (bm : build) (deg : nat) (xs ys : list T) : outcome spline :=
  match xs with
  | [] => match bm with Debug => Abort | Release => UB end
  | x :: l =>
      let lo := min_coeff x l in
      let hi := max_coeff x l in
      Ok (mkSpline lo hi (fit ys (Nat.min (length xs - 1) deg) (map (scaled_value lo hi) xs)))
  end.

(** Spline.h:40-52: the fields are copied from a temporary object. *)
Definition make_spline_vector (bm : build) (deg : nat) (xs ys : list T) : outcome spline :=
  let* s := make_spline bm deg xs ys in
  Ok (mkSpline (sp_min s) (sp_max s) (sp_fun s)).

(** Spline.h:54-57. *)
Definition spline_eval (s : spline) (x : T) : T := sp_fun s (scaled_value (sp_min s) (sp_max s) x).
End Spline.
Arguments spline : clear implicits.
