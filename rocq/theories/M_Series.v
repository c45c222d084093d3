(** Model of src/MathUtils/Polynomial.h, PowerSeries1d.h, PowerSeries2d.h and
    PowerSeries3d.h.

    The series classes are templates over a scalar type T but store the
    coefficients in [std::vector<double>] and [Eigen::VectorXd], so only
    T = double is meaningful; one scalar type is modelled.  Sizes are assumed
    to fit in [int]. *)
From Coq Require Import List Arith ZArith Bool.
From Verif Require Import Outcome Num.
Import ListNotations.

(** A dense matrix (Matrix.h:30-60, [MatrixMN<T>], an Eigen dynamic matrix):
    dimensions and coefficients; only those inside the dimensions matter. *)
Record mat (T : Type) : Type := mkMat { m_rows : nat; m_cols : nat; m_at : nat -> nat -> T }.
Arguments mkMat {T}. Arguments m_rows {T}. Arguments m_cols {T}. Arguments m_at {T}.

(** Eigen index check: [eigen_assert] in debug builds, none in release. *)
Definition eigen_check (bm : build) (b : bool) : outcome unit :=
  if b then Ok tt else match bm with Debug => Abort | Release => UB end.

(** Eigen [A.row(i)] copied into a vector. *)
Definition mrow {T} (bm : build) (A : mat T) (i : nat) : outcome (list T) :=
  let* _ := eigen_check bm (i <? m_rows A) in
  Ok (map (m_at A i) (seq 0 (m_cols A))).
(** Eigen [A(i,j)]. *)
Definition mcoef {T} (bm : build) (A : mat T) (i j : nat) : outcome T :=
  let* _ := eigen_check bm ((i <? m_rows A) && (j <? m_cols A)) in Ok (m_at A i j).

Section Polynomial.
Context {T : Type} `{NT : Num T}.

(** Polynomial.h:19-24: the loop of [Horner]; [k] iterations remain, the next
    index is [k-1]. *)
Fixpoint horner_loop (c : list T) (x0 : T) (k : nat) (result : T) : outcome T :=
  match k with
  | 0 => Ok result
  | S i => let* ci := vat c i in horner_loop c x0 i (result * x0 + ci)%num
  end.

(** Polynomial.h:10-27, [Horner] with T = double. *)
Definition horner (c : list T) (x0 : T) : outcome T :=
  let size := length c in
  let* result := vat c (size - 1) in
  horner_loop c x0 (size - 1) result.

(** Polynomial.h:38-43: the loop of [Horner_derivative]; the next index is [k]. *)
Fixpoint horner_deriv_loop (c : list T) (x0 : T) (k : nat) (result : T) : outcome T :=
  match k with
  | 0 => Ok result
  | S k' =>
      let* ci := vat c k in
      horner_deriv_loop c x0 k' (result * x0 + nofZ (Z.of_nat k) * ci)%num
  end.

(** Polynomial.h:29-46, [Horner_derivative]. *)
Definition horner_derivative (c : list T) (x0 : T) : outcome T :=
  let size := length c in
  let* cl := vat c (size - 1) in
  horner_deriv_loop c x0 (size - 2) (nofZ (Z.of_nat (size - 1)) * cl)%num.
End Polynomial.

Section Series.
Context {T : Type} `{NT : Num T}.

(** The two coordinate maps used by the series classes:
    closed segment [xmin, xmax] (PowerSeries1d.h:107-110, 113-115) and
    half-line [xmin, +inf[ (PowerSeries1d.h:138-141, 144-146); the 2D and 3D
    classes repeat the same formulas (PowerSeries2d.h:164-181, 205-222,
    242-259; PowerSeries3d.h:535-562, 604-631, 665-692). *)
Inductive axis := Closed (xmin xmax : T) | Opened (xmin : T).

(** [AffineTransformationSegmentToUnit]. *)
Definition to_unit (a : axis) (x : T) : T :=
  match a with
  | Closed xmin xmax => ((nofZ 2 / (xmax - xmin)) * (x - nlit 1 2 * (xmax + xmin)))%num
  | Opened xmin => (nofZ 1 - nofZ 2 * (xmin / x))%num
  end.
(** [CoefficientDerivative]. *)
Definition coef_deriv (a : axis) (x : T) : T :=
  match a with
  | Closed xmin xmax => (nofZ 2 / (xmax - xmin))%num
  | Opened xmin => (nofZ 2 * xmin / (x * x))%num
  end.

(** *** 1D (PowerSeries1d.h:16-97) *)
Record ps1 := mkPS1 { p1_b : list T; p1_x : axis }.
(** PowerSeries1d.h:103-122 and 133-148: the two classes. *)
Definition ps1_closed (b : list T) (xmin xmax : T) : ps1 := mkPS1 b (Closed xmin xmax).
Definition ps1_opened (b : list T) (xmin : T) : ps1 := mkPS1 b (Opened xmin).

(** PowerSeries1d.h:28-50. *)
Definition ps1_evaluate (s : ps1) (x : T) : outcome T := horner (p1_b s) (to_unit (p1_x s) x).
(** PowerSeries1d.h:53-75. *)
Definition ps1_derivative_x (s : ps1) (x : T) : outcome T :=
  let xunit := to_unit (p1_x s) x in
  let* h := horner_derivative (p1_b s) xunit in Ok (coef_deriv (p1_x s) x * h)%num.

(** *** 2D (PowerSeries2d.h:18-141) *)
Record ps2 := mkPS2 { p2_b : mat T; p2_x : axis; p2_y : axis }.
(** PowerSeries2d.h:147-187, 193-224, 230-263. *)
Definition ps2_closed (b : mat T) (xmin xmax ymin ymax : T) : ps2 := mkPS2 b (Closed xmin xmax) (Closed ymin ymax).
Definition ps2_opened (b : mat T) (xmin ymin : T) : ps2 := mkPS2 b (Opened xmin) (Opened ymin).
Definition ps2_mixed (b : mat T) (xmin xmax ymin : T) : ps2 := mkPS2 b (Closed xmin xmax) (Opened ymin).

(** The loop building the partial sums [qi] (PowerSeries2d.h:33-39, 60-67,
    88-95): [n] rows of [A] passed through [h]. *)
Definition partial_sums (bm : build) (h : list T -> T -> outcome T) (A : mat T) (n : nat) (yunit : T)
  : outcome (list T) :=
  mapM (fun i => let* pj := mrow bm A i in h pj yunit) (seq 0 n).

(** PowerSeries2d.h:30-44, 47-55; [m_order_x + 1] is the number of rows. *)
Definition unit2 (bm : build) (A : mat T) (n : nat) (xunit yunit : T) : outcome T :=
  let* qi := partial_sums bm horner A n yunit in horner qi xunit.
Definition ps2_evaluate (bm : build) (s : ps2) (x y : T) : outcome T :=
  unit2 bm (p2_b s) (m_rows (p2_b s)) (to_unit (p2_x s) x) (to_unit (p2_y s) y).
(** PowerSeries2d.h:58-83. *)
Definition ps2_derivative_x (bm : build) (s : ps2) (x y : T) : outcome T :=
  let* qi := partial_sums bm horner (p2_b s) (m_rows (p2_b s)) (to_unit (p2_y s) y) in
  let* h := horner_derivative qi (to_unit (p2_x s) x) in
  Ok (coef_deriv (p2_x s) x * h)%num.
(** PowerSeries2d.h:86-111. *)
Definition ps2_derivative_y (bm : build) (s : ps2) (x y : T) : outcome T :=
  let* qi := partial_sums bm horner_derivative (p2_b s) (m_rows (p2_b s)) (to_unit (p2_y s) y) in
  let* h := horner qi (to_unit (p2_x s) x) in
  Ok (coef_deriv (p2_y s) y * h)%num.

(** *** 3D (PowerSeries3d.h:18-500): [p3_nx], [p3_ny] are m_order_x + 1 and
    m_order_y + 1. *)
Record ps3 := mkPS3 { p3_b : list (mat T); p3_nx : nat; p3_ny : nat; p3_x : axis; p3_y : axis; p3_z : axis }.
(** PowerSeries3d.h:23-30, the base constructor. *)
Definition ps3_make (b : list (mat T)) (ax ay az : axis) : outcome ps3 :=
  let* b0 := vat b 0 in Ok (mkPS3 b (m_rows b0) (m_cols b0) ax ay az).
(** PowerSeries3d.h:506-575, 581-634, 640-701. *)
Definition ps3_closed b xmin xmax ymin ymax zmin zmax : outcome ps3 :=
  ps3_make b (Closed xmin xmax) (Closed ymin ymax) (Closed zmin zmax).
Definition ps3_yz_opened b xmin xmax ymin zmin : outcome ps3 :=
  ps3_make b (Closed xmin xmax) (Opened ymin) (Opened zmin).
Definition ps3_z_opened b xmin xmax ymin ymax zmin : outcome ps3 :=
  ps3_make b (Closed xmin xmax) (Closed ymin ymax) (Opened zmin).

(** The loop building the [rk] (PowerSeries3d.h:77-88 and its variants): for
    each k the rows through [hy], the result through [hx]. *)
Definition partial_sums3 (bm : build) (hx hy : list T -> T -> outcome T) (s : ps3) (xunit yunit : T)
  : outcome (list T) :=
  mapM (fun k =>
          let* A := vat (p3_b s) k in
          let* qi := partial_sums bm hy A (p3_nx s) yunit in
          hx qi xunit) (seq 0 (length (p3_b s))).

(** PowerSeries3d.h:74-93. *)
Definition ps3_evaluate_unit (bm : build) (s : ps3) (xunit yunit zunit : T) : outcome T :=
  let* rk := partial_sums3 bm horner horner s xunit yunit in horner rk zunit.
(** PowerSeries3d.h:96-115. *)
Definition ps3_derivative_x_unit (bm : build) (s : ps3) (x xunit yunit zunit : T) : outcome T :=
  let* rk := partial_sums3 bm horner_derivative horner s xunit yunit in
  let* h := horner rk zunit in Ok (coef_deriv (p3_x s) x * h)%num.
(** PowerSeries3d.h:118-137. *)
Definition ps3_derivative_y_unit (bm : build) (s : ps3) (y xunit yunit zunit : T) : outcome T :=
  let* rk := partial_sums3 bm horner horner_derivative s xunit yunit in
  let* h := horner rk zunit in Ok (coef_deriv (p3_y s) y * h)%num.
(** PowerSeries3d.h:140-159. *)
Definition ps3_derivative_z_unit (bm : build) (s : ps3) (z xunit yunit zunit : T) : outcome T :=
  let* rk := partial_sums3 bm horner horner s xunit yunit in
  let* h := horner_derivative rk zunit in Ok (coef_deriv (p3_z s) z * h)%num.
(** PowerSeries3d.h:162-193: the three vectors are filled in one loop. *)
Definition ps3_f_dfdx_dfdy_unit (bm : build) (s : ps3) (x y xunit yunit zunit : T) : outcome (T * T * T) :=
  let* r := mapM (fun k =>
              let* A := vat (p3_b s) k in
              let* q := mapM (fun i =>
                          let* pj := mrow bm A i in
                          let* a := horner pj yunit in
                          let* b := horner_derivative pj yunit in Ok (a, b)) (seq 0 (p3_nx s)) in
              let qi := map fst q in
              let qi_derivative := map snd q in
              let* a := horner qi xunit in
              let* b := horner_derivative qi xunit in
              let* c := horner qi_derivative xunit in
              Ok (a, b, c)) (seq 0 (length (p3_b s))) in
  let* f := horner (map (fun t => fst (fst t)) r) zunit in
  let* dx := horner (map (fun t => snd (fst t)) r) zunit in
  let* dy := horner (map snd r) zunit in
  Ok (f, (coef_deriv (p3_x s) x * dx)%num, (coef_deriv (p3_y s) y * dy)%num).
(** PowerSeries3d.h:196-214. *)
Definition ps3_compute_cij_unit (bm : build) (s : ps3) (zunit : T) : outcome (mat T) :=
  let* rows := mapM (fun i =>
                 mapM (fun j =>
                   let* rk := mapM (fun k => let* A := vat (p3_b s) k in mcoef bm A i j) (seq 0 (length (p3_b s))) in
                   horner rk zunit) (seq 0 (p3_ny s))) (seq 0 (p3_nx s)) in
  Ok (mkMat (p3_nx s) (p3_ny s) (fun i j => nth j (nth i rows []) (nofZ 0))).
(** PowerSeries3d.h:297-318. *)
Definition ps3_evaluate bm s x y z :=
  ps3_evaluate_unit bm s (to_unit (p3_x s) x) (to_unit (p3_y s) y) (to_unit (p3_z s) z).
Definition ps3_evaluate_zinf bm s x y :=
  ps3_evaluate_unit bm s (to_unit (p3_x s) x) (to_unit (p3_y s) y) (nofZ 1).
(** PowerSeries3d.h:321-342. *)
Definition ps3_derivative_x bm s x y z :=
  ps3_derivative_x_unit bm s x (to_unit (p3_x s) x) (to_unit (p3_y s) y) (to_unit (p3_z s) z).
Definition ps3_derivative_x_zinf bm s x y :=
  ps3_derivative_x_unit bm s x (to_unit (p3_x s) x) (to_unit (p3_y s) y) (nofZ 1).
(** PowerSeries3d.h:345-366. *)
Definition ps3_derivative_y bm s x y z :=
  ps3_derivative_y_unit bm s y (to_unit (p3_x s) x) (to_unit (p3_y s) y) (to_unit (p3_z s) z).
Definition ps3_derivative_y_zinf bm s x y :=
  ps3_derivative_y_unit bm s y (to_unit (p3_x s) x) (to_unit (p3_y s) y) (nofZ 1).
(** PowerSeries3d.h:369-378. *)
Definition ps3_derivative_z bm s x y z :=
  ps3_derivative_z_unit bm s z (to_unit (p3_x s) x) (to_unit (p3_y s) y) (to_unit (p3_z s) z).
(** PowerSeries3d.h:381-390. *)
Definition ps3_f_dfdx_dfdy bm s x y z :=
  ps3_f_dfdx_dfdy_unit bm s x y (to_unit (p3_x s) x) (to_unit (p3_y s) y) (to_unit (p3_z s) z).
(** PowerSeries3d.h:393-408. *)
Definition ps3_compute_cij bm s z := ps3_compute_cij_unit bm s (to_unit (p3_z s) z).
Definition ps3_compute_cij_zinf bm s := ps3_compute_cij_unit bm s (nofZ 1).
(** PowerSeries3d.h:217-232, 411-419. *)
Definition ps3_evaluate_z_predefined bm s x y (cij : mat T) :=
  unit2 bm cij (p3_nx s) (to_unit (p3_x s) x) (to_unit (p3_y s) y).
(** PowerSeries3d.h:235-251, 422-430. *)
Definition ps3_derivative_x_z_predefined bm s x y (cij : mat T) :=
  let* qi := partial_sums bm horner cij (p3_nx s) (to_unit (p3_y s) y) in
  let* h := horner_derivative qi (to_unit (p3_x s) x) in
  Ok (coef_deriv (p3_x s) x * h)%num.
(** PowerSeries3d.h:254-270. *)
Definition ps3_derivative_y_unit_zunit_predefined bm s y xunit yunit (cij : mat T) :=
  let* qi := partial_sums bm horner_derivative cij (p3_nx s) yunit in
  let* h := horner qi xunit in
  Ok (coef_deriv (p3_y s) y * h)%num.
(** PowerSeries3d.h:433-441: passes [x] where [y] is expected. *)
Definition ps3_derivative_y_z_predefined bm s x y (cij : mat T) :=
  ps3_derivative_y_unit_zunit_predefined bm s x (to_unit (p3_x s) x) (to_unit (p3_y s) y) cij.
(** PowerSeries3d.h:273-298, 444-452. *)
Definition ps3_f_dfdx_dfdy_z_predefined bm s x y (cij : mat T) : outcome (T * T * T) :=
  let yunit := to_unit (p3_y s) y in
  let xunit := to_unit (p3_x s) x in
  let* q := mapM (fun i =>
              let* pj := mrow bm cij i in
              let* a := horner pj yunit in
              let* b := horner_derivative pj yunit in Ok (a, b)) (seq 0 (p3_nx s)) in
  let qi := map fst q in
  let qi_derivative := map snd q in
  let* f := horner qi xunit in
  let* dx := horner_derivative qi xunit in
  let* dy := horner qi_derivative xunit in
  Ok (f, (coef_deriv (p3_x s) x * dx)%num, (coef_deriv (p3_y s) y * dy)%num).
End Series.
Arguments axis : clear implicits. Arguments ps1 : clear implicits.
Arguments ps2 : clear implicits. Arguments ps3 : clear implicits.
