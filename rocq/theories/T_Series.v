(** C51-C58: polynomials and power series. *)
From Coq Require Import List Arith ZArith Reals Lra Lia.
From Verif Require Import Outcome Num M_Series S_Series L_Series.
Import ListNotations.
Local Open Scope R_scope.

(** C51. Horner evaluates sum_i c_i x^i; an empty vector throws. *)
Theorem C51_horner :
  (forall (c : list R) (x : R), c <> [] -> horner c x = Ok (bsum (length c) (fun i => nth i c 0 * x ^ i))) /\
  (forall x : R, horner [] x = Throw OutOfRange).
Proof. exact (conj horner_ok horner_empty). Qed.
Print Assumptions C51_horner.
Example C51_example : horner [1; 2; 3] 2 = Ok 17.
Proof. cbv [horner horner_loop vat nth_error length Nat.sub bind nadd nmul RNum RNum_at]. f_equal. lra. Qed.

(** C52. Horner_derivative returns the derivative of what Horner returns. *)
Theorem C52_horner_derivative :
  (forall c : list R, c <> [] ->
     exists f d : R -> R, (forall x, horner c x = Ok (f x)) /\ (forall x, horner_derivative c x = Ok (d x)) /\
       derivative_on everywhere f d) /\
  (forall x : R, horner_derivative [] x = Throw OutOfRange).
Proof. exact (conj horner_derivative_lemma horner_deriv_empty). Qed.
Print Assumptions C52_horner_derivative.
Example C52_example : horner_derivative [1; 2; 3] 2 = Ok 14 /\ horner_derivative [7] 2 = Ok 0.
Proof.
  split; cbv [horner_derivative horner_deriv_loop vat nth_error length Nat.sub bind nadd nmul nofZ RNum RNum_at];
  f_equal; simpl; lra.
Qed.

(** C53. One-variable power series on a segment and on a half-line. *)
Theorem C53_powerseries1d_closed : forall b lo hi, b <> [] -> lo < hi ->
  power_series1 (length b) (fun i => nth i b 0) (segment_unit lo hi) everywhere
    (ps1_evaluate (ps1_closed b lo hi)) (ps1_derivative_x (ps1_closed b lo hi)).
Proof. exact ps1_closed_lemma. Qed.
Print Assumptions C53_powerseries1d_closed.
Theorem C53_powerseries1d_opened : forall b lo, b <> [] ->
  power_series1 (length b) (fun i => nth i b 0) (halfline_unit lo) nonzero
    (ps1_evaluate (ps1_opened b lo)) (ps1_derivative_x (ps1_opened b lo)).
Proof. exact ps1_opened_lemma. Qed.
Print Assumptions C53_powerseries1d_opened.
(** The coordinates used are those of the domain. *)
Theorem C53_segment_coordinate : forall lo hi, lo < hi ->
  segment_unit lo hi lo = -1 /\ segment_unit lo hi hi = 1 /\
  (forall x, lo <= x <= hi <-> -1 <= segment_unit lo hi x <= 1).
Proof. exact unit_closed_lemma. Qed.
Print Assumptions C53_segment_coordinate.
Theorem C53_halfline_coordinate : forall lo, 0 < lo ->
  halfline_unit lo lo = -1 /\ tends_to_at_infinity (halfline_unit lo) 1 /\
  (forall x, lo <= x -> -1 <= halfline_unit lo x < 1).
Proof. exact unit_opened_lemma. Qed.
Print Assumptions C53_halfline_coordinate.
Example C53_example :
  ps1_evaluate (ps1_closed [1; 2; 3] 0 4) 3 = Ok (11 / 4) /\
  ps1_derivative_x (ps1_closed [1; 2; 3] 0 4) 3 = Ok (5 / 2) /\
  ps1_evaluate (ps1_opened [1; 2; 3] 1) 4 = Ok (11 / 4) /\
  ps1_derivative_x (ps1_opened [1; 2; 3] 1) 4 = Ok (5 / 8).
Proof.
  repeat split;
  cbv [ps1_evaluate ps1_derivative_x ps1_closed ps1_opened p1_b p1_x to_unit coef_deriv horner_derivative
       horner_deriv_loop horner horner_loop vat nth_error length Nat.sub bind nadd nsub nmul ndiv nofZ nlit RNum RNum_at];
  f_equal; simpl; lra.
Qed.

(** C54. Two-variable power series, three domains. *)
Theorem C54_powerseries2d_closed : forall bm b xlo xhi ylo yhi,
  (0 < m_rows b)%nat -> (0 < m_cols b)%nat -> xlo < xhi -> ylo < yhi ->
  let s := ps2_closed b xlo xhi ylo yhi in
  power_series2 (m_rows b) (m_cols b) (m_at b) (segment_unit xlo xhi) (segment_unit ylo yhi) everywhere everywhere
    (ps2_evaluate bm s) (ps2_derivative_x bm s) (ps2_derivative_y bm s).
Proof. exact ps2_closed_lemma. Qed.
Print Assumptions C54_powerseries2d_closed.
Theorem C54_powerseries2d_opened : forall bm b xlo ylo,
  (0 < m_rows b)%nat -> (0 < m_cols b)%nat ->
  let s := ps2_opened b xlo ylo in
  power_series2 (m_rows b) (m_cols b) (m_at b) (halfline_unit xlo) (halfline_unit ylo) nonzero nonzero
    (ps2_evaluate bm s) (ps2_derivative_x bm s) (ps2_derivative_y bm s).
Proof. exact ps2_opened_lemma. Qed.
Print Assumptions C54_powerseries2d_opened.
Theorem C54_powerseries2d_mixed : forall bm b xlo xhi ylo,
  (0 < m_rows b)%nat -> (0 < m_cols b)%nat -> xlo < xhi ->
  let s := ps2_mixed b xlo xhi ylo in
  power_series2 (m_rows b) (m_cols b) (m_at b) (segment_unit xlo xhi) (halfline_unit ylo) everywhere nonzero
    (ps2_evaluate bm s) (ps2_derivative_x bm s) (ps2_derivative_y bm s).
Proof. exact ps2_mixed_lemma. Qed.
Print Assumptions C54_powerseries2d_mixed.
Definition demo_bij : mat R := mkMat 2 3 (fun i j => INR (S i) + INR (j * j)).
Example C54_example :
  ps2_evaluate Debug (ps2_mixed demo_bij 0 4 1) 3 4 = Ok (23 / 4) /\
  ps2_derivative_y Debug (ps2_mixed demo_bij 0 4 1) 3 4 = Ok (23 / 16).
Proof.
  split;
  cbv [ps2_evaluate ps2_derivative_y partial_sums unit2 demo_bij ps2_mixed p2_b p2_x p2_y mrow eigen_check m_rows
       m_cols m_at mapM seq map Nat.ltb Nat.leb to_unit coef_deriv horner_derivative Nat.mul Nat.add INR
       horner_deriv_loop horner horner_loop vat nth_error length Nat.sub bind nadd nsub nmul ndiv nofZ nlit RNum RNum_at];
  f_equal; simpl; lra.
Qed.

(** C55. Three-variable power series, three domains. *)
Theorem C55_powerseries3d_closed : forall bm b m n xlo xhi ylo yhi zlo zhi,
  shaped b m n -> xlo < xhi -> ylo < yhi -> zlo < zhi ->
  exists s, ps3_closed b xlo xhi ylo yhi zlo zhi = Ok s /\
  power_series3 m n (length b) (coef3 b)
    (segment_unit xlo xhi) (segment_unit ylo yhi) (segment_unit zlo zhi) everywhere everywhere everywhere
    (ps3_evaluate bm s) (ps3_derivative_x bm s) (ps3_derivative_y bm s) (ps3_derivative_z bm s).
Proof. exact ps3_closed_lemma. Qed.
Print Assumptions C55_powerseries3d_closed.
Theorem C55_powerseries3d_yz_opened : forall bm b m n xlo xhi ylo zlo,
  shaped b m n -> xlo < xhi ->
  exists s, ps3_yz_opened b xlo xhi ylo zlo = Ok s /\
  power_series3 m n (length b) (coef3 b)
    (segment_unit xlo xhi) (halfline_unit ylo) (halfline_unit zlo) everywhere nonzero nonzero
    (ps3_evaluate bm s) (ps3_derivative_x bm s) (ps3_derivative_y bm s) (ps3_derivative_z bm s).
Proof. exact ps3_yz_opened_lemma. Qed.
Print Assumptions C55_powerseries3d_yz_opened.
Theorem C55_powerseries3d_z_opened : forall bm b m n xlo xhi ylo yhi zlo,
  shaped b m n -> xlo < xhi -> ylo < yhi ->
  exists s, ps3_z_opened b xlo xhi ylo yhi zlo = Ok s /\
  power_series3 m n (length b) (coef3 b)
    (segment_unit xlo xhi) (segment_unit ylo yhi) (halfline_unit zlo) everywhere everywhere nonzero
    (ps3_evaluate bm s) (ps3_derivative_x bm s) (ps3_derivative_y bm s) (ps3_derivative_z bm s).
Proof. exact ps3_z_opened_lemma. Qed.
Print Assumptions C55_powerseries3d_z_opened.
Definition demo_bijk : list (mat R) := [demo_bij; mkMat 2 3 (fun i j => INR i - INR j)].
Example C55_example : shaped demo_bijk 2 3.
Proof. unfold shaped, demo_bijk. repeat split; auto; try discriminate; repeat constructor. Qed.

(** C56. Fixing z first gives the same value and x-derivative; the combined
    call agrees with the separate calls. *)
Theorem C56_fixed_z : forall bm b m n ax ay az s x y z,
  shaped b m n -> ps3_make b ax ay az = Ok s -> regular ax x -> regular ay y -> regular az z ->
  exists c f dx dy, ps3_compute_cij bm s z = Ok c /\
    ps3_evaluate bm s x y z = Ok f /\ ps3_derivative_x bm s x y z = Ok dx /\ ps3_derivative_y bm s x y z = Ok dy /\
    ps3_evaluate_z_predefined bm s x y c = Ok f /\
    ps3_derivative_x_z_predefined bm s x y c = Ok dx /\
    ps3_f_dfdx_dfdy bm s x y z = Ok (f, dx, dy) /\
    ps3_f_dfdx_dfdy_z_predefined bm s x y c = Ok (f, dx, dy).
Proof. exact fixed_z_lemma. Qed.
Print Assumptions C56_fixed_z.
(** The same at z = +inf. *)
Theorem C56_fixed_z_infinite : forall bm b m n ax ay az s x y,
  shaped b m n -> ps3_make b ax ay az = Ok s -> regular ax x -> regular ay y ->
  exists c f dx dy, ps3_compute_cij_zinf bm s = Ok c /\
    ps3_evaluate_zinf bm s x y = Ok f /\ ps3_derivative_x_zinf bm s x y = Ok dx /\ ps3_derivative_y_zinf bm s x y = Ok dy /\
    ps3_evaluate_z_predefined bm s x y c = Ok f /\
    ps3_derivative_x_z_predefined bm s x y c = Ok dx /\
    ps3_f_dfdx_dfdy_z_predefined bm s x y c = Ok (f, dx, dy).
Proof. exact fixed_z_inf_lemma. Qed.
Print Assumptions C56_fixed_z_infinite.
Example C56_example :
  exists s, ps3_yz_opened demo_bijk 0 4 1 1 = Ok s /\
    regular (p3_x s) 3 /\ regular (p3_y s) 4 /\ regular (p3_z s) 5.
Proof. eexists. split; [reflexivity|]. simpl. lra. Qed.

(** C57 (defect). The y-derivative at a fixed z is right when the y axis is a
    segment, and off by the factor (y/x)^2 when it is a half-line. *)
Theorem C57_dy_fixed_z_closed : forall bm b m n xlo xhi ylo yhi zlo zhi s x y z,
  shaped b m n -> xlo < xhi -> ylo < yhi ->
  ps3_closed b xlo xhi ylo yhi zlo zhi = Ok s /\ zlo < zhi \/ ps3_z_opened b xlo xhi ylo yhi zlo = Ok s /\ z <> 0 ->
  exists c, ps3_compute_cij bm s z = Ok c /\
    exists d, ps3_derivative_y bm s x y z = Ok d /\ ps3_derivative_y_z_predefined bm s x y c = Ok d.
Proof. exact dy_fixed_z_closed. Qed.
Print Assumptions C57_dy_fixed_z_closed.
Theorem C57_dy_fixed_z_opened : forall bm b m n xlo xhi ylo zlo s x y z,
  shaped b m n -> ps3_yz_opened b xlo xhi ylo zlo = Ok s -> xlo < xhi -> x <> 0 -> y <> 0 -> z <> 0 ->
  exists c, ps3_compute_cij bm s z = Ok c /\
    exists d e, ps3_derivative_y bm s x y z = Ok d /\ ps3_derivative_y_z_predefined bm s x y c = Ok e /\
      e = d * (y / x) ^ 2 /\ (e = d <-> x ^ 2 = y ^ 2 \/ d = 0).
Proof. exact dy_fixed_z_opened. Qed.
Print Assumptions C57_dy_fixed_z_opened.
(** So the intended equality is false of the library. *)
Theorem C57_dy_fixed_z_refuted :
  exists b xlo xhi ylo zlo s x y z c d e, shaped b 1 2 /\ ps3_yz_opened b xlo xhi ylo zlo = Ok s /\
    xlo <= x <= xhi /\ ylo <= y /\ zlo <= z /\
    ps3_compute_cij Debug s z = Ok c /\ ps3_derivative_y Debug s x y z = Ok d /\
    ps3_derivative_y_z_predefined Debug s x y c = Ok e /\ d <> e.
Proof. exact dy_fixed_z_wrong. Qed.
Print Assumptions C57_dy_fixed_z_refuted.
Example C57_example : exists s, ps3_yz_opened demo_bijk 0 4 1 1 = Ok s.
Proof. eexists. reflexivity. Qed.

(** C58. The values at z = +inf are limits. *)
Theorem C58_zinf_is_limit : forall bm b m n xlo xhi ylo yhi zlo s x y,
  shaped b m n ->
  ps3_yz_opened b xlo xhi ylo zlo = Ok s /\ xlo < xhi /\ y <> 0 \/
  ps3_z_opened b xlo xhi ylo yhi zlo = Ok s /\ xlo < xhi /\ ylo < yhi ->
  exists f fx fy l lx ly,
    (forall z, z <> 0 -> ps3_evaluate bm s x y z = Ok (f z) /\
                         ps3_derivative_x bm s x y z = Ok (fx z) /\ ps3_derivative_y bm s x y z = Ok (fy z)) /\
    ps3_evaluate_zinf bm s x y = Ok l /\ ps3_derivative_x_zinf bm s x y = Ok lx /\
    ps3_derivative_y_zinf bm s x y = Ok ly /\
    tends_to_at_infinity f l /\ tends_to_at_infinity fx lx /\ tends_to_at_infinity fy ly.
Proof. exact zinf_is_limit. Qed.
Print Assumptions C58_zinf_is_limit.
Example C58_example : exists s, ps3_z_opened demo_bijk 0 4 1 2 1 = Ok s /\ 0 < 4 /\ 1 < 2.
Proof. eexists. split; [reflexivity|]. lra. Qed.
