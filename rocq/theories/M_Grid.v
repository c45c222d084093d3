(** Model of src/MathUtils/thirdparty/linterp.h (the parts used),
    src/MathUtils/RegularGridInterpolator.h and src/MathUtils/RegularGridNearest.h.

    The dimension [_dim] is a template argument; here it is the argument [dim]
    and [std::array]s of that size are lists.  Lengths and element counts are
    assumed to fit in [int] (they are stored in [int]s by the code). *)
From Coq Require Import List Arith ZArith Bool.
From Verif Require Import Outcome Num StdAlgo.
Import ListNotations.

(** [boost::multi_array<D, N>] in C order: extents and elements. *)
Record ndarray (D : Type) : Type := mkND { nd_shape : list nat; nd_flat : list D }.
Arguments mkND {D}. Arguments nd_shape {D}. Arguments nd_flat {D}.

Definition prodn (l : list nat) : nat := fold_right Nat.mul 1 l.

(** Position of an index tuple in C order; [None] when out of the extents. *)
Fixpoint offset (shape idx : list nat) : option nat :=
  match shape, idx with
  | [], [] => Some 0
  | s :: ss, i :: is =>
      if i <? s then
        match offset ss is with Some o => Some (i * prodn ss + o) | None => None end
      else None
  | _, _ => None
  end.

(** [a(idx)]: Boost checks the extents with BOOST_ASSERT (active unless NDEBUG). *)
Definition ndget {D} (bm : build) (a : ndarray D) (idx : list nat) : outcome D :=
  match offset (nd_shape a) idx with
  | Some o => vidx (nd_flat a) o
  | None => match bm with Debug => Abort | Release => UB end
  end.

(** Bits of vertex number [v], first axis most significant
    (linterp.h:218-221, RegularGridNearest.h:275-278). *)
Definition vbits (n v : nat) : list nat :=
  map (fun d => Nat.land (Nat.shiftr v (n - d - 1)) 1) (seq 0 n).

Section Linterp.
Context {T : Type} `{NT : Num T}.

(** linterp.h:177-189, [find_cell]: -1 before the first grid point, size-1 at
    or after the last one. *)
Definition find_cell (grid : list T) (x : T) : outcome Z :=
  match grid with
  | [] => UB
  | g0 :: _ =>
      if nlt x g0 then Ok (-1)%Z
      else if nle (last grid g0) x then Ok (Z.of_nat (length grid) - 1)%Z
      else Ok (Z.of_nat (upper_bound grid x) - 1)%Z
  end.

(** linterp.h:354-368 (and 263-279 for the simplex method): cell and local
    coordinate along one axis. *)
Definition cell_frac (grid : list T) (x : T) : outcome (Z * T) :=
  let* c := find_cell grid x in
  if (c =? -1)%Z then Ok (c, nofZ 1)
  else if (c =? Z.of_nat (length grid) - 1)%Z then Ok (c, nofZ 0)
  else
    let* g0 := vidx grid (Z.to_nat c) in
    let* g1 := vidx grid (Z.to_nat (c + 1)) in
    let y := ((x - g0) / (g1 - g0))%num in
    Ok (c, if nlt y (nofZ 0) then nofZ 0 else if nlt (nofZ 1) y then nofZ 1 else y).

(** linterp.h:192-202: index along one axis of vertex bit [v] of cell [c]. *)
Definition node_index (grid : list T) (c : Z) (v : nat) : nat :=
  if (c <? 0)%Z then 0
  else if (Z.of_nat (length grid) - 1 <=? c)%Z then length grid - 1
  else Z.to_nat c + v.

Fixpoint node_indices (grids : list (list T)) (cs : list Z) (vs : list nat) : list nat :=
  match grids, cs, vs with
  | g :: gs, c :: cs', v :: vs' => node_index g c v :: node_indices gs cs' vs'
  | _, _, _ => []
  end.

(** linterp.h:192-225, [get_f_val] (continuous variant); the array has the
    extents of the grids (set_f_array, 148-173). *)
Definition get_f_val (bm : build) (grids : list (list T)) (f : list T) (cs : list Z) (vs : list nat)
  : outcome T :=
  ndget bm (mkND (map (@length T) grids) f) (node_indices grids cs vs).

(** linterp.h:316-331, [linterp_nd_unitcube]: [f] always has 2^n entries for n
    local coordinates (n >= 1), so the indexing cannot fail. *)
Fixpoint unitcube (xi : list T) (f : list T) : T :=
  match xi with
  | [] => nth 0 f (nofZ 0)
  | x :: xi' =>
      let '(lower, upper) :=
        match xi' with
        | [] => (nth 0 f (nofZ 0), nth 1 f (nofZ 0))
        | _ => (unitcube xi' (firstn (length f / 2) f), unitcube xi' (skipn (length f / 2) f))
        end in
      (lower + x * (upper - lower))%num
  end.

(** linterp.h:344-376, [InterpMultilinear::interp_vec] for one point (333-342). *)
Definition interp_ml (bm : build) (grids : list (list T)) (f : list T) (p : list T) : outcome T :=
  let n := length grids in
  let* cy := mapM (fun gx => cell_frac (fst gx) (snd gx)) (combine grids p) in
  let* fv := mapM (fun v => get_f_val bm grids f (map fst cy) (vbits n v)) (seq 0 (2 ^ n)) in
  Ok (unitcube (map snd cy) fv).

(** linterp.h:253-299, [InterpSimplex::interp_vec] for one point.  [order] is
    the axis order left by [std::sort] on the local coordinates (any
    permutation sorting them: std::sort is not stable). *)
Fixpoint simplex_walk (bm : build) (grids : list (list T)) (f : list T) (cs : list Z) (ys : list T)
    (order : list nat) (vs : list nat) (y v0 : T) : outcome T :=
  match order with
  | [] => Ok y
  | d :: order' =>
      let vs' := firstn d vs ++ [nth d vs 0 - 1] ++ skipn (S d) vs in
      let* v1 := get_f_val bm grids f cs vs' in
      simplex_walk bm grids f cs ys order' vs'
        (y + (nofZ 1 - nth d ys (nofZ 0)) * (v1 - v0))%num v1
  end.

Definition interp_simplex (bm : build) (grids : list (list T)) (f : list T) (p : list T)
    (sort_axes : list T -> list nat) : outcome T :=
  let* cy := mapM (fun gx => cell_frac (fst gx) (snd gx)) (combine grids p) in
  let vs := map (fun _ => 1) grids in
  let* v0 := get_f_val bm grids f (map fst cy) vs in
  simplex_walk bm grids f (map fst cy) (map snd cy) (sort_axes (map snd cy)) vs v0 v0.

(** ** RegularGridInterpolator *)

(** What [c_interpolator] is: null, pointing to the current grids and data, or
    holding a pointer to an array released by [m_data.resize] (the
    interpolator is instantiated with CopyData = false). *)
Inductive ip_state := IpNull | IpLive | IpDangling.

(** RegularGridInterpolator.h:85-90; [r_limits = None]: not yet written. *)
Record rgi : Type := mkRG {
  r_grids : list (list T);
  r_data : ndarray T;
  r_ip : ip_state;
  r_limits : option (list (T * T))
}.

(** RegularGridInterpolator.h:99-102 (an empty multi_array has zero extents). *)
Definition rgi_new (dim : nat) : rgi := mkRG [] (mkND (repeat 0 dim) []) IpNull None.

(** RegularGridInterpolator.h:133-137. *)
Fixpoint strictly_increasing_check (l : list T) : bool :=
  match l with
  | a :: (b :: _) as t => if nle b a then false else strictly_increasing_check t
  | _ => true
  end.

(** RegularGridInterpolator.h:125-140, [AddCoord]. *)
Definition rgi_add_coord (dim : nat) (o : rgi) (v : list T) : rgi * outcome unit :=
  if length (r_grids o) =? dim then (o, Exit 1)
  else if strictly_increasing_check v
  then (mkRG (r_grids o ++ [v]) (r_data o) (r_ip o) (r_limits o), Ok tt)
  else (o, Throw RuntimeError).

(** RegularGridInterpolator.h:162-184, [_BuildInterpolator]; called when the
    previous array has just been replaced, so an existing interpolator is
    dangling if the construction of the new one throws (linterp.h:157-160). *)
Definition rgi_build (dim : nat) (o : rgi) : rgi * outcome unit :=
  let gs := firstn dim (r_grids o) in
  let stale := match r_ip o with IpNull => IpNull | _ => IpDangling end in
  if (length gs =? dim) && forallb (fun g => negb (length g =? 0)) gs then
    let lim := Some (map (fun g => (nth 0 g (nofZ 0), nth (length g - 1) g (nofZ 0))) gs) in
    if length (nd_flat (r_data o)) =? prodn (map (@length T) gs)
    then (mkRG (r_grids o) (r_data o) IpLive lim, Ok tt)
    else (mkRG (r_grids o) (r_data o) stale lim, Throw InvalidArgument)
  else (mkRG (r_grids o) (r_data o) stale (r_limits o), UB).

(** RegularGridInterpolator.h:142-160, [AddVar]. *)
Definition rgi_add_var (dim : nat) (o : rgi) (a : ndarray T) : rgi * outcome unit :=
  if length (r_grids o) =? dim
  then rgi_build dim (mkRG (r_grids o) a (r_ip o) (r_limits o))
  else (o, Exit 1).

(** RegularGridInterpolator.h:109-123, [operator=] (from another object);
    104-107, copy constructor: assignment to a blank object. *)
Definition rgi_assign (dim : nat) (o other : rgi) : rgi * outcome unit :=
  rgi_build dim (mkRG (r_grids other) (r_data other) (r_ip o) (r_limits o)).
Definition rgi_copy (dim : nat) (other : rgi) : rgi * outcome unit :=
  rgi_assign dim (rgi_new dim) other.

(** RegularGridInterpolator.h:186-199, [Interp].  Unset limits or a null or
    dangling interpolator: undefined behaviour. *)
Definition rgi_interp (bm : build) (o : rgi) (p : list T) (bound_check : bool) : outcome T :=
  let* _ :=
    if bound_check then
      match r_limits o with
      | None => UB
      | Some lim =>
          if existsb (fun lx => nlt (snd lx) (fst (fst lx)) || nlt (snd (fst lx)) (snd lx)) (combine lim p)
          then Throw RuntimeError else Ok tt
      end
    else Ok tt in
  match r_ip o with
  | IpLive => interp_ml bm (r_grids o) (nd_flat (r_data o)) p
  | _ => UB
  end.

(** RegularGridInterpolator.h:201-204, [EvalAtIndice]. *)
Definition rgi_at (bm : build) (o : rgi) (idx : list nat) : outcome T := ndget bm (r_data o) idx.

(** RegularGridInterpolator.h:211-214, [IsValid]. *)
Definition rgi_is_valid (o : rgi) : bool := match r_ip o with IpNull => false | _ => true end.

(** RegularGridInterpolator.h:216-241, [GetCoord], [GetCoordMaxVal], [GetCoordMinVal]. *)
Definition rgi_coord (dim : nat) (o : rgi) (i : nat) : outcome (list T) :=
  if dim <=? i then Exit 1 else vidx (r_grids o) i.
Definition rgi_coord_max (dim : nat) (o : rgi) (i : nat) : outcome T :=
  if dim <=? i then Exit 1
  else match r_limits o with Some lim => let* l := vidx lim i in Ok (snd l) | None => UB end.
Definition rgi_coord_min (dim : nat) (o : rgi) (i : nat) : outcome T :=
  if dim <=? i then Exit 1
  else match r_limits o with Some lim => let* l := vidx lim i in Ok (fst l) | None => UB end.

(** A client: any sequence of mutating calls, until one exits, aborts or is
    undefined; exceptions are caught and the client goes on. *)
Inductive rgi_op : Type :=
| RAddCoord (v : list T)
| RAddVar (a : ndarray T).

Definition rgi_step (dim : nat) (o : rgi) (op : rgi_op) : rgi * outcome unit :=
  match op with
  | RAddCoord v => rgi_add_coord dim o v
  | RAddVar a => rgi_add_var dim o a
  end.

Fixpoint rgi_run (dim : nat) (o : rgi) (ops : list rgi_op) : outcome rgi :=
  match ops with
  | [] => Ok o
  | op :: ops' =>
      match rgi_step dim o op with
      | (o', Ok _) => rgi_run dim o' ops'
      | (o', Throw _) => rgi_run dim o' ops'
      | (o', r) => omap (fun _ => o') r
      end
  end.

(** The usual construction: all axes, then the data; stops at the first failure. *)
Definition rgi_make (grids : list (list T)) (a : ndarray T) : outcome rgi :=
  let dim := length grids in
  let* o := foldM (fun o v => let (o', r) := rgi_add_coord dim o v in omap (fun _ => o') r)
                  (rgi_new dim) grids in
  let (o', r) := rgi_add_var dim o a in omap (fun _ => o') r.

End Linterp.
Arguments rgi T : clear implicits.
Arguments rgi_op T : clear implicits.

(** ** RegularGridNearest *)
Section Nearest.
Context {T : Type} `{NT : Num T} {D : Type}.

(** RegularGridNearest.h:22-43, [GridNode]. *)
Record grid_node : Type := mkGN { gn_indices : list nat; gn_coords : list T; gn_val : D }.

(** RegularGridNearest.h:89-91. *)
Record rgn : Type := mkRN { n_grids : list (list T); n_data : ndarray D }.

(** RegularGridNearest.h:95-98. *)
Definition rgn_new (dim : nat) : rgn := mkRN [] (mkND (repeat 0 dim) []).

(** RegularGridNearest.h:119-126, [AddCoord] (no monotonicity check). *)
Definition rgn_add_coord (dim : nat) (o : rgn) (v : list T) : rgn * outcome unit :=
  if length (n_grids o) =? dim then (o, Exit 1)
  else (mkRN (n_grids o ++ [v]) (n_data o), Ok tt).

(** RegularGridNearest.h:128-142, [AddVar] (no shape check). *)
Definition rgn_add_var (dim : nat) (o : rgn) (a : ndarray D) : rgn * outcome unit :=
  if length (n_grids o) =? dim then (mkRN (n_grids o) a, Ok tt) else (o, Exit 1).

(** RegularGridNearest.h:154-172, [GetCoordMinVal], [GetCoordMaxVal]
    (dereferencing the end of an empty range is undefined). *)
Definition rgn_coord_min (dim : nat) (o : rgn) (i : nat) : outcome T :=
  if dim <=? i then Exit 1 else
  let* g := vidx (n_grids o) i in
  match g with [] => UB | m :: g' => Ok (min_element m g') end.
Definition rgn_coord_max (dim : nat) (o : rgn) (i : nat) : outcome T :=
  if dim <=? i then Exit 1 else
  let* g := vidx (n_grids o) i in
  match g with [] => UB | m :: g' => Ok (max_element m g') end.

(** RegularGridNearest.h:198-217: nearest index along one axis ([int icell]). *)
Definition nearest_axis (coord : list T) (xi : T) : outcome nat :=
  match coord with
  | [] => UB
  | c0 :: _ =>
      if nlt xi c0 then Ok 0
      else if nle (last coord c0) xi then Ok (length coord - 1)
      else
        match upper_bound coord xi with
        | 0 => UB  (* icell = -1: out of bounds access; only with unordered values *)
        | S icell =>
            let* a := vidx coord (icell + 1) in
            let* b := vidx coord icell in
            Ok (if nle (nlit 1 2 * (a + b))%num xi then icell + 1 else icell)
        end
  end.

(** RegularGridNearest.h:187-227, [Nearest]. *)
Definition rgn_nearest (bm : build) (o : rgn) (p : list T) : outcome grid_node :=
  let* ic := mapM (fun gx => let* i := nearest_axis (fst gx) (snd gx) in
                             let* c := vidx (fst gx) i in Ok (i, c)) (combine (n_grids o) p) in
  let* v := ndget bm (n_data o) (map fst ic) in
  Ok (mkGN (map fst ic) (map snd ic) v).

(** RegularGridNearest.h:239-256: the cell along one axis; [unsigned int icell = -1]
    is 2^32 - 1. *)
Definition around_axis (coord : list T) (xi : T) : outcome Z :=
  match coord with
  | [] => UB
  | c0 :: _ =>
      if nlt xi c0 then Ok 4294967295%Z
      else if nle (last coord c0) xi then Ok (Z.of_nat (length coord) - 1)%Z
      else Ok ((Z.of_nat (upper_bound coord xi) - 1) mod 4294967296)%Z
  end.

(** RegularGridNearest.h:290-303: one axis of [GetNode]; [cell_index] is
    unsigned, so the test [cell_index[i] < 0] never succeeds. *)
Definition around_index (coord : list T) (c : Z) (v : nat) : nat :=
  if (c <? 0)%Z then 0
  else if (Z.of_nat (length coord) - 1 <=? c)%Z then length coord - 1
  else Z.to_nat c + v.

Fixpoint around_indices (grids : list (list T)) (cs : list Z) (vs : list nat) : list nat :=
  match grids, cs, vs with
  | g :: gs, c :: cs', v :: vs' => around_index g c v :: around_indices gs cs' vs'
  | _, _, _ => []
  end.

(** RegularGridNearest.h:272-307, [GetNode] (both overloads). *)
Definition rgn_node (bm : build) (o : rgn) (cs : list Z) (v : nat) : outcome grid_node :=
  let idx := around_indices (n_grids o) cs (vbits (length (n_grids o)) v) in
  let* coords := mapM (fun gi => vidx (fst gi) (snd gi)) (combine (n_grids o) idx) in
  let* d := ndget bm (n_data o) idx in
  Ok (mkGN idx coords d).

(** RegularGridNearest.h:229-265, [GetSurroundingGridNodes]. *)
Definition rgn_around (bm : build) (o : rgn) (p : list T) : outcome (list grid_node) :=
  let* cs := mapM (fun gx => around_axis (fst gx) (snd gx)) (combine (n_grids o) p) in
  mapM (rgn_node bm o cs) (seq 0 (2 ^ length (n_grids o))).

(** All axes, then the data. *)
Definition rgn_make (grids : list (list T)) (a : ndarray D) : outcome rgn :=
  let dim := length grids in
  let* o := foldM (fun o v => let (o', r) := rgn_add_coord dim o v in omap (fun _ => o') r)
                  (rgn_new dim) grids in
  let (o', r) := rgn_add_var dim o a in omap (fun _ => o') r.

End Nearest.
Arguments rgn T D : clear implicits.
Arguments grid_node T D : clear implicits.
