(** Model of src/MathUtils/LookupTable1D.h and src/MathUtils/LookupTable2D.h. *)
From Coq Require Import List Arith ZArith Bool.
From Coq Require String.
Notation string := String.string (only parsing).
From Verif Require Import Outcome Num StdAlgo M_Interp1d M_Interp2d.
Import ListNotations.

(** [std::unordered_map<std::string, unsigned long>] restricted to the
    operations used: an association list without duplicate keys, in insertion
    order (the iteration order of the C++ container is left open, see
    [eval_all]). *)
Definition smap := list (string * nat).

(** [find] / [at]. *)
Fixpoint sfind (m : smap) (k : string) : option nat :=
  match m with
  | [] => None
  | (k', i) :: m' => if String.eqb k k' then Some i else sfind m' k
  end.

(** [insert]: no effect and [false] when the key is present. *)
Definition sinsert (m : smap) (k : string) (i : nat) : smap * bool :=
  match sfind m k with
  | Some _ => (m, false)
  | None => (m ++ [(k, i)], true)
  end.

(** [at]: out_of_range when absent. *)
Definition sat (m : smap) (k : string) : outcome nat :=
  match sfind m k with Some i => Ok i | None => Throw OutOfRange end.

(** ** LookupTable1D *)

(** LookupTable1D.h:18-25.  [l_method = None]: indeterminate (left so by the
    move constructor, 54-58).  The shared vectors are never written after
    having been shared, so they are kept by value. *)
Record lut1 (T V : Type) : Type := mkL1 {
  l_method : option interp_method;
  l_x : option (list T);
  l_assoc : smap;
  l_y : list (list V);
  l_interps : list (interp1d T V)
}.
Arguments mkL1 {T V}. Arguments l_method {T V}. Arguments l_x {T V}. Arguments l_assoc {T V}.
Arguments l_y {T V}. Arguments l_interps {T V}.

Section Lut1.
Context {T V : Type} `{NT : Num T} `{VT : VNum T V}.

(** LookupTable1D.h:93-97, constructor. *)
Definition lut1_new (m : interp_method) : lut1 T V := mkL1 (Some m) None [] [] [].

(** LookupTable1D.h:99-102, [SetX]. *)
Definition lut1_set_x (t : lut1 T V) (xs : list T) : lut1 T V :=
  mkL1 (l_method t) (Some xs) (l_assoc t) (l_y t) (l_interps t).

(** LookupTable1D.h:69-70, [GetNbSeries]. *)
Definition lut1_nb_series (t : lut1 T V) : nat := length (l_y t).

(** LookupTable1D.h:63, [GetX]; 73, [GetNbSample] (null pointer: undefined). *)
Definition lut1_get_x (t : lut1 T V) : outcome (list T) :=
  match l_x t with Some xs => Ok xs | None => UB end.
Definition lut1_nb_sample (t : lut1 T V) : outcome nat :=
  match l_x t with Some xs => Ok (length xs) | None => UB end.

(** LookupTable1D.h:104-136, [AddY], effects in program order: the name is
    inserted and the ordinates are pushed before the interpolator is made and
    initialised, so they stay if that fails. *)
Definition lut1_add_y (bm : build) (t : lut1 T V) (name : string) (ys : list V)
  : lut1 T V * outcome bool :=
  let '(assoc', inserted) := sinsert (l_assoc t) name (lut1_nb_series t) in
  if inserted then
    let t1 := mkL1 (l_method t) (l_x t) assoc' (l_y t ++ [ys]) (l_interps t) in
    match l_method t with
    | None => (t1, UB)
    | Some m =>
        match make1d m with
        | Ok o =>
            match init1d bm o (l_x t) (Some ys) with
            | (o', Ok _) =>
                (mkL1 (l_method t) (l_x t) assoc' (l_y t ++ [ys]) (l_interps t ++ [o']), Ok true)
            | (_, r) => (t1, omap (fun _ => true) r)
            end
        | r => (t1, omap (fun _ => true) r)
        end
    end
  else (t, Ok false).

(** LookupTable1D.h:170-173, [GetIndex], and [interpolators.at(...)]. *)
Definition lut1_interp (t : lut1 T V) (name : string) : outcome (interp1d T V) :=
  let* i := sat (l_assoc t) name in vat (l_interps t) i.

(** LookupTable1D.h:138-141, [Eval(name, x)]. *)
Definition lut1_eval (t : lut1 T V) (name : string) (x : T) : outcome V :=
  let* o := lut1_interp t name in eval1d o x.

(** LookupTable1D.h:143-147, [Eval(name, vector)]. *)
Definition lut1_eval_vec (t : lut1 T V) (name : string) (xv : list T) : outcome (list V) :=
  let* o := lut1_interp t name in eval1d_vec o xv.

(** LookupTable1D.h:65-67, [GetXmin], [GetXmax]. *)
Definition lut1_xmin (t : lut1 T V) (name : string) : outcome T :=
  let* o := lut1_interp t name in get_xmin o.
Definition lut1_xmax (t : lut1 T V) (name : string) : outcome T :=
  let* o := lut1_interp t name in get_xmax o.

(** LookupTable1D.h:149-168, [Eval(x)] over all series; [order] is the order
    in which the container [assoc] is traversed (any permutation of it).
    [interpolators[idx]] is unchecked.  The result map is the list of its
    entries in the order they are assigned (keys are distinct). *)
Definition lut1_eval_all (t : lut1 T V) (order : smap) (x : T) : outcome (list (string * V)) :=
  mapM (fun e => let* o := vidx (l_interps t) (snd e) in
                 let* v := eval1d o x in Ok (fst e, v)) order.

(** LookupTable1D.h:43-51, move assignment from a distinct table: state of the
    destination.  (The moved-from table is not modelled.) *)
Definition lut1_move_assign (dst src : lut1 T V) : lut1 T V :=
  mkL1 (l_method dst) (l_x src) (l_assoc src) (l_y src) (l_interps src).

(** LookupTable1D.h:54-58, move constructor. *)
Definition lut1_move_ctor (src : lut1 T V) : lut1 T V :=
  mkL1 None (l_x src) (l_assoc src) (l_y src) (l_interps src).

(** A client calling the two mutators in any order, stopping at the first
    failing call. *)
Inductive op1 : Type :=
| SetX1 (xs : list T)
| AddY1 (name : string) (ys : list V).

Definition lut1_step (bm : build) (t : lut1 T V) (op : op1) : outcome (lut1 T V) :=
  match op with
  | SetX1 xs => Ok (lut1_set_x t xs)
  | AddY1 name ys => let (t', r) := lut1_add_y bm t name ys in omap (fun _ => t') r
  end.

Fixpoint lut1_run (bm : build) (t : lut1 T V) (ops : list op1) : outcome (lut1 T V) :=
  match ops with
  | [] => Ok t
  | op :: ops' => let* t' := lut1_step bm t op in lut1_run bm t' ops'
  end.

End Lut1.
Arguments op1 : clear implicits.

(** ** LookupTable2d *)

(** LookupTable2D.h:24-31. *)
Record lut2 (T : Type) : Type := mkL2 {
  k_method : interp_method;
  k_x : option (list T);
  k_y : option (list T);
  k_data : list (list T);
  k_assoc : smap;
  k_interps : list (interp2d T)
}.
Arguments mkL2 {T}. Arguments k_method {T}. Arguments k_x {T}. Arguments k_y {T}.
Arguments k_data {T}. Arguments k_assoc {T}. Arguments k_interps {T}.

Section Lut2.
Context {T : Type} `{NT : Num T}.

(** LookupTable2D.h:25, 35: default constructor, method LINEAR. *)
Definition lut2_new : lut2 T := mkL2 LINEAR None None [] [] [].

(** LookupTable2D.h:82-89, [SetInterpolationMethod] (existing series keep
    their interpolator). *)
Definition lut2_set_method (t : lut2 T) (m : interp_method) : lut2 T :=
  mkL2 m (k_x t) (k_y t) (k_data t) (k_assoc t) (k_interps t).

(** LookupTable2D.h:96-104, [SetX], [SetY]. *)
Definition lut2_set_x (t : lut2 T) (xs : list T) : lut2 T :=
  mkL2 (k_method t) (Some xs) (k_y t) (k_data t) (k_assoc t) (k_interps t).
Definition lut2_set_y (t : lut2 T) (ys : list T) : lut2 T :=
  mkL2 (k_method t) (k_x t) (Some ys) (k_data t) (k_assoc t) (k_interps t).

(** LookupTable2D.h:58, [GetNbSeries]; 91-94, [GetNbSample]. *)
Definition lut2_nb_series (t : lut2 T) : nat := length (k_data t).
Definition lut2_nb_sample (t : lut2 T) : outcome nat :=
  match k_x t, k_y t with Some xs, Some ys => Ok (length xs * length ys) | _, _ => UB end.

(** LookupTable2D.h:106-130, [AddData], effects in program order. *)
Definition lut2_add (bm : build) (t : lut2 T) (name : string) (data : list T)
  : lut2 T * outcome bool :=
  let '(assoc', inserted) := sinsert (k_assoc t) name (lut2_nb_series t) in
  if inserted then
    let t1 := mkL2 (k_method t) (k_x t) (k_y t) (k_data t ++ [data]) assoc' (k_interps t) in
    match make2d (k_method t) with
    | Ok o =>
        match init2d bm o (k_x t) (k_y t) (Some data) with
        | (o', Ok _) =>
            (mkL2 (k_method t) (k_x t) (k_y t) (k_data t ++ [data]) assoc' (k_interps t ++ [o']), Ok true)
        | (_, r) => (t1, omap (fun _ => true) r)
        end
    | r => (t1, omap (fun _ => true) r)
    end
  else (t, Ok false).

(** LookupTable2D.h:157-160, [GetIndex], and [interpolators.at(...)]. *)
Definition lut2_interp (t : lut2 T) (name : string) : outcome (interp2d T) :=
  let* i := sat (k_assoc t) name in vat (k_interps t) i.

(** LookupTable2D.h:132-135, [Eval(name, x, y)]; 142-145, [Eval(name, vector)].
    ([Eval(name, coord)], 137-140, does not compile when instantiated and is
    not modelled.) *)
Definition lut2_eval (bm : build) (t : lut2 T) (name : string) (x y : T) : outcome T :=
  let* o := lut2_interp t name in eval2d bm o x y.
Definition lut2_eval_vec (bm : build) (t : lut2 T) (name : string) (vc : list (list T))
  : outcome (list T) :=
  let* o := lut2_interp t name in eval2d_vec bm o vc.

(** LookupTable2D.h:147-155, [HasSerie]. *)
Definition lut2_has (t : lut2 T) (name : string) : bool :=
  match sfind (k_assoc t) name with Some _ => true | None => false end.

Inductive op2 : Type :=
| SetX2 (xs : list T)
| SetY2 (ys : list T)
| SetMethod2 (m : interp_method)
| AddData2 (name : string) (data : list T).

Definition lut2_step (bm : build) (t : lut2 T) (op : op2) : outcome (lut2 T) :=
  match op with
  | SetX2 xs => Ok (lut2_set_x t xs)
  | SetY2 ys => Ok (lut2_set_y t ys)
  | SetMethod2 m => Ok (lut2_set_method t m)
  | AddData2 name data => let (t', r) := lut2_add bm t name data in omap (fun _ => t') r
  end.

Fixpoint lut2_run (bm : build) (t : lut2 T) (ops : list op2) : outcome (lut2 T) :=
  match ops with
  | [] => Ok t
  | op :: ops' => let* t' := lut2_step bm t op in lut2_run bm t' ops'
  end.

End Lut2.
Arguments op2 : clear implicits.
