(** Reference semantics of the lookup tables as maps from names to data;
    depends on the type of client calls only. *)
From Coq Require Import List Arith Bool.
From Coq Require String.
From Verif Require Import M_Interp1d M_Lookup.
Import ListNotations.

(** What a sequence of calls registers under [name], [cur] being the abscissae
    in force: the ordinates of the first AddY with that name, with the
    abscissae of the last SetX before it. *)
Fixpoint registered1 {T V} (cur : option (list T)) (ops : list (op1 T V)) (name : String.string)
  : option (option (list T) * list V) :=
  match ops with
  | [] => None
  | SetX1 xs :: ops' => registered1 (Some xs) ops' name
  | AddY1 n ys :: ops' =>
      if String.string_dec name n then Some (cur, ys) else registered1 cur ops' name
  end.

Definition names1 {T V} (ops : list (op1 T V)) : list String.string :=
  flat_map (fun op => match op with AddY1 n _ => [n] | _ => [] end) ops.

(** 2D: method, abscissae and ordinates in force, and the data. *)
Fixpoint registered2 {T} (m : interp_method) (cx cy : option (list T)) (ops : list (op2 T))
    (name : String.string) : option (interp_method * option (list T) * option (list T) * list T) :=
  match ops with
  | [] => None
  | SetX2 xs :: ops' => registered2 m (Some xs) cy ops' name
  | SetY2 ys :: ops' => registered2 m cx (Some ys) ops' name
  | SetMethod2 m' :: ops' => registered2 m' cx cy ops' name
  | AddData2 n d :: ops' =>
      if String.string_dec name n then Some (m, cx, cy, d) else registered2 m cx cy ops' name
  end.

Definition names2 {T} (ops : list (op2 T)) : list String.string :=
  flat_map (fun op => match op with AddData2 n _ => [n] | _ => [] end) ops.
