(** Model of src/MathUtils/Interp2d.h. *)
From Coq Require Import List Arith ZArith Bool.
From Verif Require Import Outcome Num StdAlgo M_Interp1d.
Import ListNotations.

(** Coefficients of one cell (one entry of each of a1, a2, a3, a4). *)
Record coef2 (T : Type) : Type := mkC2 { c_1 : T; c_2 : T; c_3 : T; c_4 : T }.
Arguments mkC2 {T}. Arguments c_1 {T}. Arguments c_2 {T}. Arguments c_3 {T}. Arguments c_4 {T}.

(** Object of class Interp2dLinear (Interp2d.h:18-27, 92-95).  The four
    vectors a1..a4 are always pushed together (Interp2d.h:150-159, nothing can
    throw in between), so they are kept as one list of quadruples.  [None]: null pointer /
    indeterminate value. *)
Record interp2d (T : Type) : Type := mkI2 {
  j_x : option (list T);
  j_y : option (list T);
  j_data : option (list T);
  j_nx : nat;
  j_ny : nat;
  j_xmin : option T;
  j_xmax : option T;
  j_ymin : option T;
  j_ymax : option T;
  j_coefs : list (coef2 T)
}.
Arguments mkI2 {T}.
Arguments j_x {T}. Arguments j_y {T}. Arguments j_data {T}. Arguments j_nx {T}. Arguments j_ny {T}.
Arguments j_xmin {T}. Arguments j_xmax {T}. Arguments j_ymin {T}. Arguments j_ymax {T}.
Arguments j_coefs {T}.

Section Model.
Context {T : Type} `{NT : Num T}.

Definition blank2d : interp2d T := mkI2 None None None 0 0 None None None None [].

(** Interp2d.h:212-220, [MakeInterp2d]: throws a string literal unless LINEAR. *)
Definition make2d (m : interp_method) : outcome (interp2d T) :=
  match m with
  | LINEAR => Ok blank2d
  | _ => Throw CString
  end.

(** Interp2d.h:62-86, [Interp2d::Initialize]; field updates in program order.
    Null pointers: x and y are dereferenced at once (undefined behaviour); a
    null [data] is stored here and only dereferenced by the coefficient loop. *)
Definition init_base2 (bm : build) (o : interp2d T)
    (x y data : option (list T)) : interp2d T * outcome unit :=
  match x, y with
  | Some xs, Some ys =>
      match (let* _ := cassert bm (is_sorted xs) in cassert bm (is_sorted ys)) with
      | Ok _ =>
          let o1 := mkI2 (j_x o) (j_y o) (j_data o) (length xs) (j_ny o)
                         (j_xmin o) (j_xmax o) (j_ymin o) (j_ymax o) (j_coefs o) in
          match (let* a := vat xs 0 in let* b := vat xs (length xs - 1) in Ok (a, b)) with
          | Ok (xm, xM) =>
              let o2 := mkI2 (j_x o) (j_y o) (j_data o) (length xs) (length ys)
                             (Some xm) (Some xM) (j_ymin o) (j_ymax o) (j_coefs o) in
              match (let* a := vat ys 0 in let* b := vat ys (length ys - 1) in Ok (a, b)) with
              | Ok (ym, yM) =>
                  (mkI2 (Some xs) (Some ys) data (length xs) (length ys)
                        (Some xm) (Some xM) (Some ym) (Some yM) (j_coefs o), Ok tt)
              | r => (o2, omap (fun _ => tt) r)
              end
          | r => (o1, omap (fun _ => tt) r)
          end
      | r => (o, r)
      end
  | _, _ => (o, UB)
  end.

(** Interp2d.h:130-159: the coefficients pushed for loop indices [i], [j]. *)
Definition cell_coefs (xs ys data : list T) (ny i j : nat) : outcome (coef2 T) :=
  let* x1 := vat xs (i - 1) in
  let* x2 := vat xs i in
  let inv_dx := ndiv (nofZ 1) (nsub x2 x1) in
  let* y1 := vat ys (j - 1) in
  let* y2 := vat ys j in
  let inv_dy := ndiv (nofZ 1) (nsub y2 y1) in
  let* d11 := vat data (ny * (i - 1) + (j - 1)) in
  let* d12 := vat data (ny * (i - 1) + j) in
  let* d21 := vat data (ny * i + (j - 1)) in
  let* d22 := vat data (ny * i + j) in
  Ok (mkC2
    (((((d11 * x2 * y2) - (d12 * x2 * y1)) - (d21 * x1 * y2)) + (d22 * x1 * y1)) * inv_dx * inv_dy)%num
    (((((nneg d11 * y2) + (d12 * y1)) + (d21 * y2)) - (d22 * y1)) * inv_dx * inv_dy)%num
    (((((nneg d11 * x2) + (d12 * x2)) + (d21 * x1)) - (d22 * x1)) * inv_dx * inv_dy)%num
    (((d11 - d12 - d21) + d22) * inv_dx * inv_dy)%num).

(** Interp2d.h:128-162: the double loop, as the list of its (i, j) pairs in
    execution order (indices are [unsigned int]: sizes assumed below 2^32). *)
Fixpoint coef2_loop (xs ys data : list T) (ny : nat) (ijs : list (nat * nat))
    (acc : list (coef2 T)) : list (coef2 T) * outcome unit :=
  match ijs with
  | [] => (acc, Ok tt)
  | (i, j) :: ijs' =>
      match cell_coefs xs ys data ny i j with
      | Ok c => coef2_loop xs ys data ny ijs' (acc ++ [c])
      | r => (acc, omap (fun _ => tt) r)
      end
  end.

Definition loop_indices (nx ny : nat) : list (nat * nat) :=
  flat_map (fun i => map (fun j => (i, j)) (seq 1 (ny - 1))) (seq 1 (nx - 1)).

(** Interp2d.h:110-164, [Interp2dLinear::Initialize]; a1..a4 are appended to,
    never cleared.  A null [data] is dereferenced by the first iteration. *)
Definition init2d (bm : build) (o : interp2d T)
    (x y data : option (list T)) : interp2d T * outcome unit :=
  match init_base2 bm o x y data with
  | (o1, Ok _) =>
      match j_x o1, j_y o1 with
      | Some xs, Some ys =>
          match data with
          | Some ds =>
              let '(cs, r) := coef2_loop xs ys ds (j_ny o1) (loop_indices (j_nx o1) (j_ny o1)) (j_coefs o1) in
              (mkI2 (j_x o1) (j_y o1) (j_data o1) (j_nx o1) (j_ny o1)
                    (j_xmin o1) (j_xmax o1) (j_ymin o1) (j_ymax o1) cs, r)
          | None =>
              match loop_indices (j_nx o1) (j_ny o1) with
              | [] => (o1, Ok tt)
              | _ => (o1, UB)
              end
          end
      | _, _ => (o1, UB)
      end
  | (o1, r) => (o1, r)
  end.

(** Interp2d.h:166-189, [Interp2dLinear::Eval].  The asserts read
    xmin/xmax/ymin/ymax (indeterminate before Initialize: undefined).  The
    index is computed in unsigned long: a y axis of size 0, left by a refused
    Initialize, makes [ny - 1] wrap around, and the index is [iy - ix] modulo
    2^64, past the end of any vector when it is negative. *)
Definition cell_index (o : interp2d T) (ix iy : nat) : nat :=
  if j_ny o =? 0 then (if ix <=? iy then iy - ix else length (j_coefs o))
  else iy + (ix - 1) * (j_ny o - 1) - 1.
(** Interp2d.h:51-57, the accessors of the limits. *)
Definition get_limits2 (o : interp2d T) : option T * option T * option T * option T :=
  (j_xmin o, j_xmax o, j_ymin o, j_ymax o).
Definition eval2d (bm : build) (o : interp2d T) (x y : T) : outcome T :=
  match j_x o, j_y o, j_xmin o, j_xmax o, j_ymin o, j_ymax o with
  | Some xs, Some ys, Some xm, Some xM, Some ym, Some yM =>
      let* _ := cassert bm (nle xm x && nle x xM) in
      let* _ := cassert bm (nle ym y && nle y yM) in
      let ix := lower_bound xs x in
      let iy := lower_bound ys y in
      let ix := if ix =? 0 then 1 else ix in
      let iy := if iy =? 0 then 1 else iy in
      let* c := vat (j_coefs o) (cell_index o ix iy) in
      Ok (((c_1 c + c_2 c * x) + c_3 c * y) + c_4 c * x * y)%num
  | _, _, _, _, _, _ => UB
  end.

(** Interp2d.h:196-209, [Eval(vector<vector>)]; inner vectors are indexed with
    [operator[]]. *)
Definition eval2d_vec (bm : build) (o : interp2d T) (vc : list (list T)) : outcome (list T) :=
  mapM (fun c => let* x := vidx c 0 in let* y := vidx c 1 in eval2d bm o x y) vc.

(** Client sequence: factory then Initialize. *)
Definition new2d (bm : build) (m : interp_method) (xs ys data : list T) : outcome (interp2d T) :=
  let* o := make2d m in
  match init2d bm o (Some xs) (Some ys) (Some data) with
  | (o', Ok _) => Ok o'
  | (_, r) => omap (fun _ => o) r
  end.

End Model.
