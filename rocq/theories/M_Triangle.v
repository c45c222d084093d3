(** Model of Integration2dTriangle.h, with the parts of Integration2d.h and
    QuadratureTables.h it uses. *)
From Coq Require Import List Arith ZArith.
From Verif Require Import Outcome Num NumFun.
Import ListNotations.

(** Literals of the tables: numerator and denominator of the decimal written in
    the source. *)
Local Open Scope Z_scope.
Definition e14 : Z := 100000000000000.
Definition e15 : Z := 1000000000000000.
(** Integration2dTriangle.h:27-29: order 1, 1 points. *)
Definition alpha_1 : list (Z * Z) :=
  [(1, 3)].
Definition beta_1 : list (Z * Z) :=
  [(1, 3)].
Definition weight_1 : list (Z * Z) :=
  [(1, 1)].
(** Integration2dTriangle.h:33-35: order 2, 3 points. *)
Definition alpha_2 : list (Z * Z) :=
  [(166666666666670, e15); (166666666666670, e15); (666666666666670, e15)].
Definition beta_2 : list (Z * Z) :=
  [(166666666666670, e15); (666666666666670, e15); (166666666666670, e15)].
Definition weight_2 : list (Z * Z) :=
  [(333333333333330, e15); (333333333333330, e15); (333333333333330, e15)].
(** Integration2dTriangle.h:39-41: order 3, 4 points. *)
Definition alpha_3 : list (Z * Z) :=
  [(333333333333330, e15); (200000000000000, e15); (200000000000000, e15); (600000000000000, e15)].
Definition beta_3 : list (Z * Z) :=
  [(333333333333330, e15); (200000000000000, e15); (600000000000000, e15); (200000000000000, e15)].
Definition weight_3 : list (Z * Z) :=
  [(-56250000000000, e14); (520833333333330, e15); (520833333333330, e15); (520833333333330, e15)].
(** Integration2dTriangle.h:45-50: order 4, 6 points. *)
Definition alpha_4 : list (Z * Z) :=
  [(445948490915970, e15); (445948490915970, e15); (108103018168070, e15); (91576213509770, e15);
   (91576213509770, e15); (816847572980460, e15)].
Definition beta_4 : list (Z * Z) :=
  [(445948490915970, e15); (108103018168070, e15); (445948490915970, e15); (91576213509770, e15);
   (816847572980460, e15); (91576213509770, e15)].
Definition weight_4 : list (Z * Z) :=
  [(223381589678010, e15); (223381589678010, e15); (223381589678010, e15); (109951743655320, e15);
   (109951743655320, e15); (109951743655320, e15)].
(** Integration2dTriangle.h:54-59: order 5, 7 points. *)
Definition alpha_5 : list (Z * Z) :=
  [(333333333333330, e15); (470142064105110, e15); (470142064105110, e15); (59715871789770, e15);
   (101286507323460, e15); (101286507323460, e15); (797426985353090, e15)].
Definition beta_5 : list (Z * Z) :=
  [(333333333333330, e15); (470142064105110, e15); (59715871789770, e15); (470142064105110, e15);
   (101286507323460, e15); (797426985353090, e15); (101286507323460, e15)].
Definition weight_5 : list (Z * Z) :=
  [(225000000000000, e15); (132394152788510, e15); (132394152788510, e15); (132394152788510, e15);
   (125939180544830, e15); (125939180544830, e15); (125939180544830, e15)].
(** Integration2dTriangle.h:63-71: order 6, 12 points. *)
Definition alpha_6 : list (Z * Z) :=
  [(24928674517091, e14); (24928674517091, e14); (50142650965818, e14); (6308901449150, e14);
   (6308901449150, e14); (87382197101700, e14); (31035245103378, e14); (63650249912140, e14);
   (5314504984482, e14); (63650249912140, e14); (31035245103378, e14); (5314504984482, e14)].
Definition beta_6 : list (Z * Z) :=
  [(24928674517091, e14); (50142650965818, e14); (24928674517091, e14); (6308901449150, e14);
   (87382197101700, e14); (6308901449150, e14); (63650249912140, e14); (5314504984482, e14);
   (31035245103378, e14); (31035245103378, e14); (5314504984482, e14); (63650249912140, e14)].
Definition weight_6 : list (Z * Z) :=
  [(11678627572638, e14); (11678627572638, e14); (11678627572638, e14); (5084490637021, e14);
   (5084490637021, e14); (5084490637021, e14); (8285107561837, e14); (8285107561837, e14);
   (8285107561837, e14); (8285107561837, e14); (8285107561837, e14); (8285107561837, e14)].
(** Integration2dTriangle.h:75-86: order 7, 13 points. *)
Definition alpha_7 : list (Z * Z) :=
  [(33333333333333, e14); (26034596607904, e14); (26034596607904, e14); (47930806784192, e14);
   (6513010290222, e14); (6513010290222, e14); (86973979419557, e14); (31286549600487, e14);
   (63844418856981, e14); (4869031542532, e14); (63844418856981, e14); (31286549600487, e14);
   (4869031542532, e14)].
Definition beta_7 : list (Z * Z) :=
  [(33333333333333, e14); (26034596607904, e14); (47930806784192, e14); (26034596607904, e14);
   (6513010290222, e14); (86973979419557, e14); (6513010290222, e14); (63844418856981, e14);
   (4869031542532, e14); (31286549600487, e14); (31286549600487, e14); (4869031542532, e14);
   (63844418856981, e14)].
Definition weight_7 : list (Z * Z) :=
  [(-14957004446768, e14); (17561525743321, e14); (17561525743321, e14); (17561525743321, e14);
   (5334723560884, e14); (5334723560884, e14); (5334723560884, e14); (7711376089026, e14);
   (7711376089026, e14); (7711376089026, e14); (7711376089026, e14); (7711376089026, e14);
   (7711376089026, e14)].
(** Integration2dTriangle.h:90-101: order 8, 16 points. *)
Definition alpha_8 : list (Z * Z) :=
  [(33333333333333, e14); (45929258829272, e14); (45929258829272, e14); (8141482341455, e14);
   (17056930775176, e14); (17056930775176, e14); (65886138449648, e14); (5054722831703, e14);
   (5054722831703, e14); (89890554336594, e14); (26311282963464, e14); (72849239295540, e14);
   (839477740996, e14); (72849239295540, e14); (26311282963464, e14); (839477740996, e14)].
Definition beta_8 : list (Z * Z) :=
  [(33333333333333, e14); (45929258829272, e14); (8141482341455, e14); (45929258829272, e14);
   (17056930775176, e14); (65886138449648, e14); (17056930775176, e14); (5054722831703, e14);
   (89890554336594, e14); (5054722831703, e14); (72849239295540, e14); (839477740996, e14);
   (26311282963464, e14); (26311282963464, e14); (839477740996, e14); (72849239295540, e14)].
Definition weight_8 : list (Z * Z) :=
  [(14431560767779, e14); (9509163426728, e14); (9509163426728, e14); (9509163426728, e14);
   (10321737053472, e14); (10321737053472, e14); (10321737053472, e14); (3245849762320, e14);
   (3245849762320, e14); (3245849762320, e14); (2723031417443, e14); (2723031417443, e14);
   (2723031417443, e14); (2723031417443, e14); (2723031417443, e14); (2723031417443, e14)].
Definition tri_tables : list (list (Z * Z) * list (Z * Z) * list (Z * Z)) :=
  [(alpha_1, beta_1, weight_1);
   (alpha_2, beta_2, weight_2);
   (alpha_3, beta_3, weight_3);
   (alpha_4, beta_4, weight_4);
   (alpha_5, beta_5, weight_5);
   (alpha_6, beta_6, weight_6);
   (alpha_7, beta_7, weight_7);
   (alpha_8, beta_8, weight_8)].
Local Close Scope Z_scope.

(** Vector3d<double>, the operations used here. *)
Record vec3 (T : Type) := mkV3 { vx : T; vy : T; vz : T }.
Arguments mkV3 {T}. Arguments vx {T}. Arguments vy {T}. Arguments vz {T}.

Section Triangle.
Context {T V : Type} `{NT : Num T} `{TT : NumTr T} `{VN : VNum T V}.

Definition v3_sub (p q : vec3 T) : vec3 T := mkV3 (vx p - vx q)%num (vy p - vy q)%num (vz p - vz q)%num.
Definition v3_add (p q : vec3 T) : vec3 T := mkV3 (vx p + vx q)%num (vy p + vy q)%num (vz p + vz q)%num.
Definition v3_scal (a : T) (p : vec3 T) : vec3 T := mkV3 (a * vx p)%num (a * vy p)%num (a * vz p)%num.
Definition v3_cross (p q : vec3 T) : vec3 T :=
  mkV3 (vy p * vz q - vz p * vy q)%num (vz p * vx q - vx p * vz q)%num (vx p * vy q - vy p * vx q)%num.
Definition v3_norm (p : vec3 T) : T := nsqrt (vx p * vx p + vy p * vy p + vz p * vz p)%num.

(** The object: the order and the integrand (Integration2d.h:31-38). *)
Record tri2d := mkTri { t_order : Z; t_f : vec3 T -> V }.

(** Integration2dTriangle.h:22-115: the constructor fills the tables, then checks
    the order. *)
Definition tri_new (f : vec3 T -> V) (order : Z) : outcome tri2d :=
  if (Z.of_nat (length tri_tables) <? order)%Z then Exit 0
  else if (order <? 1)%Z then Exit 0
  else Ok (mkTri order f).

(** QuadratureTables.h:28-40: [m_alpha[order - 1]], unchecked. *)
Definition tri_table (order : Z) : outcome (list T * list T * list T) :=
  let lits := map (fun p => nlit (fst p) (snd p)) in
  if (order <? 1)%Z then UB
  else let* t := vidx tri_tables (Z.to_nat order - 1) in
  let '(a, b, w) := t in Ok (lits a, lits b, lits w).

(** Integration2dTriangle.h:139-172, [ComputeOverStandardTriangle].  The
    uninitialised [T result; result *= 0] of lines 149-150 is the value None: it
    is overwritten at i = 0 and never read afterwards. *)
Definition tri_standard (t : tri2d) (v1 v2 v3 : vec3 T) : outcome V :=
  let* tab := tri_table (t_order t) in
  let '(alpha, beta, weight) := tab in
  let* r := foldM (fun res i =>
      let* a := vat alpha i in
      let* b := vat beta i in
      let x := v3_add (v3_add (v3_scal (nofZ 1 - a - b)%num v1) (v3_scal a v2)) (v3_scal b v3) in
      let* w := vat weight i in
      match i with
      | O => Ok (Some (vmull w (t_f t x)))
      | S _ => match res with
               | None => UB
               | Some r => Ok (Some (vadd r (vmulr (t_f t x) w)))
               end
      end) None (seq 0 (length weight)) in
  match r with None => UB | Some r => Ok (vmulr r (nlit 1 2)) end.

(** Integration2dTriangle.h:118-134, [Compute]. *)
Definition tri_compute (t : tri2d) (v1 v2 v3 : vec3 T) : outcome V :=
  let e1 := v3_sub v1 v3 in
  let e2 := v3_sub v2 v3 in
  let area := (nlit 1 2 * v3_norm (v3_cross e1 e2))%num in
  let* integral := tri_standard t v1 v2 v3 in
  Ok (vmulr integral (nofZ 2 * area)%num).
End Triangle.
Arguments tri2d : clear implicits.
