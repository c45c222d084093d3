(** Vocabulary for the nearest node in binary64. *)
From Coq Require Import List Arith Reals.
From Flocq Require Import IEEE754.BinarySingleNaN.
From Verif Require Import F64 M_Grid S_Interp1d S_Grid S_Angles S_Double S_Grid64.
Import ListNotations.
Local Open Scope R_scope.

(** Middle of the cell between nodes [j] and [j+1]. *)
Definition middle (g : list R) (j : nat) : R := (nth j g 0 + nth (S j) g 0) / 2.

(** The answer along one axis: the nearest node (ties to the larger), except
    when the query is the rounded middle of a cell and the rounding went down:
    then the upper end, although the lower one is nearer. *)
Definition nearest64 (g : list f64) (x : f64) (i : nat) : Prop :=
  match x with
  | B754_nan => False
  | B754_infinity s => i = if s then 0%nat else (length g - 1)%nat
  | _ => nearest_on (dvalues g) (dvalue x) i \/
         exists j, i = S j /\ (S j < length g)%nat /\ nearest_on (dvalues g) (dvalue x) j /\
           dvalue x = dround (middle (dvalues g) j) /\ dvalue x < middle (dvalues g) j
  end.

(** Twice every coordinate is representable. *)
Definition doubling_ok (g : list f64) : Prop := Forall (fun c => 2 * Rabs (dvalue c) <= dmax) g.

(** Coordinates of the node with the given indices. *)
Definition coords64 (gs : list (list f64)) (idx : list nat) : list f64 := map2 (fun g i => nth i g B754_nan) gs idx.
