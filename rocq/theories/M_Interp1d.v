(** Model of src/MathUtils/Interp.h and src/MathUtils/Interp1d.h. *)
From Coq Require Import List Arith ZArith Bool.
From Verif Require Import Outcome Num StdAlgo.
Import ListNotations.

(** Interp.h:15-20, [enum INTERP_METHOD].  [OTHER_METHOD] is any value of the
    enum's underlying type that is not an enumerator (the [default:] case). *)
Inductive interp_method :=
| LINEAR | LINEAR_EXTRAPOLATE | LINEAR_SATURATE | BSPLINE | OTHER_METHOD.

(** The three methods for which an interpolator exists. *)
Definition is_linear (m : interp_method) : Prop :=
  m = LINEAR \/ m = LINEAR_EXTRAPOLATE \/ m = LINEAR_SATURATE.

(** Dynamic class of an interpolator: which [PrivEval] override it has
    (Interp1d.h:105-132). *)
Inductive lin_kind := KLinear | KExtrapolate | KSaturate.

(** An object of class Interp1dLinear / ...Extrapolate / ...Saturate: fields of
    Interp1d (Interp1d.h:19-23) and of Interp1dLinearBase (Interp1d.h:89-90).
    [None] is a null shared_ptr, resp. an indeterminate xmin/xmax. *)
Record interp1d (T V : Type) : Type := mkI1 {
  i_kind : lin_kind;
  i_x : option (list T);
  i_y : option (list V);
  i_ndata : nat;
  i_xmin : option T;
  i_xmax : option T;
  i_a : list V;
  i_b : list V
}.
Arguments mkI1 {T V}.
Arguments i_kind {T V}. Arguments i_x {T V}. Arguments i_y {T V}.
Arguments i_ndata {T V}. Arguments i_xmin {T V}. Arguments i_xmax {T V}.
Arguments i_a {T V}. Arguments i_b {T V}.

Section Model.
Context {T V : Type} `{NT : Num T} `{VT : VNum T V}.

(** Default-constructed object of the given class (Interp1d.h:19-23, 89-90). *)
Definition blank1d (k : lin_kind) : interp1d T V :=
  mkI1 k None None 0 None None [] [].

(** Interp1d.h:220-243, [Interp1d::MakeInterp1d]. *)
Definition make1d (m : interp_method) : outcome (interp1d T V) :=
  match m with
  | LINEAR => Ok (blank1d KLinear)
  | LINEAR_EXTRAPOLATE => Ok (blank1d KExtrapolate)
  | LINEAR_SATURATE => Ok (blank1d KSaturate)
  | BSPLINE => Exit 1
  | OTHER_METHOD => Exit 1
  end.

(** Interp1d.h:68-82, [Interp1d::Initialize].  Asserts, then the field
    updates in program order, so that the fields set before a throw stay set.
    A null pointer argument is dereferenced: undefined behaviour. *)
Definition init_base (bm : build) (o : interp1d T V)
    (x : option (list T)) (y : option (list V)) : interp1d T V * outcome unit :=
  match x, y with
  | Some xs, Some ys =>
      match (let* _ := cassert bm (length xs =? length ys) in
             cassert bm (is_sorted xs)) with
      | Ok _ =>
          let o1 := mkI1 (i_kind o) (i_x o) (i_y o) (length xs) (i_xmin o) (i_xmax o) (i_a o) (i_b o) in
          match vat xs 0 with
          | Ok xm =>
              let o2 := mkI1 (i_kind o) (i_x o) (i_y o) (length xs) (Some xm) (i_xmax o) (i_a o) (i_b o) in
              match vat xs (length xs - 1) with
              | Ok xM =>
                  (mkI1 (i_kind o) (Some xs) (Some ys) (length xs) (Some xm) (Some xM) (i_a o) (i_b o), Ok tt)
              | r => (o2, omap (fun _ => tt) r)
              end
          | r => (o1, omap (fun _ => tt) r)
          end
      | r => (o, r)
      end
  | _, _ => (o, UB)
  end.

(** Interp1d.h:156-169, the coefficient loop of
    [Interp1dLinearBase::Initialize] for the remaining loop indices [is]
    (the loop counter is an [unsigned int]: sizes are assumed below 2^32).
    Pushes onto [a] and [b]; on an exception what was pushed stays. *)
Fixpoint coef_loop (xs : list T) (ys : list V) (is : list nat) (a b : list V)
  : (list V * list V) * outcome unit :=
  match is with
  | [] => ((a, b), Ok tt)
  | i :: is' =>
      match (let* xi := vat xs (i - 1) in
             let* xii := vat xs i in
             let* yi := vat ys (i - 1) in
             let* yii := vat ys i in
             let xii_m_xi := nsub xii xi in
             Ok (vdivr (vsub yii yi) xii_m_xi,
                 vdivr (vsub (vmulr yi xii) (vmull xi yii)) xii_m_xi)) with
      | Ok (ca, cb) => coef_loop xs ys is' (a ++ [ca]) (b ++ [cb])
      | r => ((a, b), omap (fun _ => tt) r)
      end
  end.

(** Interp1d.h:145-170, [Interp1dLinearBase::Initialize].  [a] and [b] are
    appended to, never cleared. *)
Definition init1d (bm : build) (o : interp1d T V)
    (x : option (list T)) (y : option (list V)) : interp1d T V * outcome unit :=
  match init_base bm o x y with
  | (o1, Ok _) =>
      match i_x o1, i_y o1 with
      | Some xs, Some ys =>
          match coef_loop xs ys (seq 1 (i_ndata o1 - 1)) (i_a o1) (i_b o1) with
          | ((a, b), r) =>
              (mkI1 (i_kind o1) (i_x o1) (i_y o1) (i_ndata o1) (i_xmin o1) (i_xmax o1) a b, r)
          end
      | _, _ => (o1, UB)
      end
  | (o1, r) => (o1, r)
  end.

(** Interp1d.h:172-186, [Interp1dLinearBase::PrivEval]. *)
Definition eval_base (o : interp1d T V) (x : T) : outcome V :=
  match i_x o with
  | None => UB
  | Some xs =>
      let index := lower_bound xs x in
      let index := if index =? 0 then 1 else index in
      let* a_ := vat (i_a o) (index - 1) in
      let* b_ := vat (i_b o) (index - 1) in
      Ok (vadd (vmulr a_ x) b_)
  end.

(** Interp1d.h:188-199 (Linear), 201-204 (Extrapolate), 206-215 (Saturate):
    the [PrivEval] overrides; Interp1d.h:31, 52-54: [Eval], [operator()].
    Reading an indeterminate xmin/xmax is undefined behaviour. *)
Definition eval1d (o : interp1d T V) (x : T) : outcome V :=
  match i_kind o with
  | KLinear =>
      match i_xmin o, i_xmax o with
      | Some xm, Some xM => if nlt x xm || nlt xM x then Exit 1 else eval_base o x
      | _, _ => UB
      end
  | KExtrapolate => eval_base o x
  | KSaturate =>
      match i_xmin o, i_xmax o with
      | Some xm, Some xM =>
          let x_tmp := if nlt x xm || nlt xM x then (if nlt x xm then xm else xM) else x in
          eval_base o x_tmp
      | _, _ => UB
      end
  end.

(** Interp1d.h:33-44 and 56-58, [Eval(const std::vector&)] (loop counter is
    [int]: sizes are assumed below 2^31). *)
Definition eval1d_vec (o : interp1d T V) (xv : list T) : outcome (list V) :=
  mapM (eval1d o) xv.

(** Interp1d.h:62-64, [GetXmin], [GetXmax]. *)
Definition get_xmin (o : interp1d T V) : outcome T :=
  match i_xmin o with Some x => Ok x | None => UB end.
Definition get_xmax (o : interp1d T V) : outcome T :=
  match i_xmax o with Some x => Ok x | None => UB end.

(** Client sequence: factory then [Initialize] on the fresh object. *)
Definition new1d (bm : build) (m : interp_method) (xs : list T) (ys : list V)
  : outcome (interp1d T V) :=
  let* o := make1d m in
  match init1d bm o (Some xs) (Some ys) with
  | (o', Ok _) => Ok o'
  | (_, r) => omap (fun _ => o) r
  end.

End Model.
