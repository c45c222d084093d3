(** Vocabulary for grid interpolation in binary64. *)
From Coq Require Import List Arith Reals.
From Flocq Require Import IEEE754.BinarySingleNaN.
From Verif Require Import F64 S_Interp1d S_Grid S_Angles S_Double.
Import ListNotations.
Local Open Scope R_scope.

(** Finite, strictly increasing, non-empty axes. *)
Definition good_axis64 (g : list f64) : Prop := all_finite g /\ good_axis (dvalues g).
Definition good_axes64 (gs : list (list f64)) : Prop := Forall good_axis64 gs.

(** No value exceeds [M] in magnitude. *)
Definition magnitude_le (M : R) (l : list f64) : Prop := Forall (fun x => Rabs (dvalue x) <= M) l.

(** The coordinate nearest to a query on an axis; infinities go to the ends and
    NaN to the last node. *)
Definition saturated (g : list f64) (x : f64) : R :=
  let lo := nth 0 (dvalues g) 0 in
  let hi := nth (length g - 1) (dvalues g) 0 in
  match x with
  | B754_nan | B754_infinity false => hi
  | B754_infinity true => lo
  | _ => clamp lo hi (dvalue x)
  end.

(** The query with every NaN replaced by the last node of its axis. *)
Definition nan_to_last (g : list f64) (x : f64) : f64 := if is_nan x then last g x else x.

(** A coordinate that the bound check is meant to reject. *)
Definition off_axis (g : list f64) (x : f64) : Prop :=
  match x with
  | B754_nan => False
  | B754_infinity _ => True
  | _ => dvalue x < nth 0 (dvalues g) 0 \/ nth (length g - 1) (dvalues g) 0 < dvalue x
  end.
Definition outside64 (gs : list (list f64)) (p : list f64) : Prop :=
  exists k, (k < length gs)%nat /\ off_axis (nth k gs []) (nth k p B754_nan).
