(** Specification of the construction protocol of RegularGridInterpolator,
    over histories of calls. *)
From Coq Require Import List Arith Reals.
From Verif Require Import S_Interp1d M_Grid S_Grid.
Import ListNotations.

(** The axes a history has registered: the strictly increasing vectors passed
    to AddCoord, in order. *)
Inductive registered : list (rgi_op R) -> list (list R) -> Prop :=
| reg_nil : registered [] []
| reg_yes v h l : increasing v -> registered h l -> registered (RAddCoord v :: h) (v :: l)
| reg_no v h l : ~ increasing v -> registered h l -> registered (RAddCoord v :: h) l
| reg_var a h l : registered h l -> registered (RAddVar a :: h) l.

(** The array has as many elements as the grid has nodes. *)
Definition fits (axes : list (list R)) (a : ndarray R) : Prop :=
  length (nd_flat a) = count (map (@length R) axes).

(** The array of the last AddVar of a history. *)
Definition last_var (h : list (rgi_op R)) (a : ndarray R) : Prop :=
  exists pre post, h = pre ++ RAddVar a :: post /\ forall b, ~ In (RAddVar b) post.
