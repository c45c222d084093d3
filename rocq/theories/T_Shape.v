(** C126: coefficient matrices of unequal shapes; C14, C92: vector evaluation
    and equal units. *)
From Coq Require Import List Arith ZArith Reals Lra Lia.
From Verif Require Import Outcome Num NumFun M_Basics M_Series M_Interp1d M_Interp2d M_Vec S_Series S_Shape L_Shape T_Interp2d.
Import ListNotations.
Local Open Scope R_scope.

(** No coefficient at all: the constructor throws; a first matrix without rows
    or columns: the evaluation throws. *)
Theorem C126_no_matrix : forall (T : Type) (NT : Num T) (ax ay az : axis T), ps3_make [] ax ay az = Throw OutOfRange.
Proof. exact @t_empty. Qed.
Print Assumptions C126_no_matrix.
Theorem C126_hollow_matrix : forall (T : Type) (NT : Num T) bm A b ax ay az (s : ps3 T) x y z,
  ps3_make (A :: b) ax ay az = Ok s -> m_rows A = 0%nat \/ m_cols A = 0%nat -> ps3_evaluate bm s x y z = Throw OutOfRange.
Proof. exact @t_hollow. Qed.
Print Assumptions C126_hollow_matrix.

(** The number of rows is that of the first matrix, the number of columns that
    of each matrix. *)
Theorem C126_ragged_value : forall bm b ax ay az (s : ps3 R) x y z, ps3_make b ax ay az = Ok s ->
  (0 < first_rows b)%nat -> Forall (tall (first_rows b)) b -> regular ax x -> regular ay y -> regular az z ->
  ps3_evaluate bm s x y z = Ok (ragged_sum (first_rows b) b (on_unit ax x) (on_unit ay y) (on_unit az z)).
Proof. exact t_value. Qed.
Print Assumptions C126_ragged_value.
Example C126_ragged_example : let b := [mkMat 1 1 (fun _ _ => 5); mkMat 3 2 (fun i j => INR i + INR j)] in
  (0 < first_rows b)%nat /\ Forall (tall (first_rows b)) b /\ ragged_sum (first_rows b) b 2 3 7 = 5 + 3 * 7.
Proof. split; [cbn; lia|]. split; [repeat constructor|]. unfold ragged_sum, coef3. cbn. lra. Qed.

(** A matrix with fewer rows than the first is read out of range. *)
Theorem C126_short_matrix : forall (T : Type) (NT : Num T) bm b ax ay az (s : ps3 T) x y z, ps3_make b ax ay az = Ok s -> rows_missing b ->
  ps3_evaluate bm s x y z = out_of_bounds bm /\ ps3_derivative_x bm s x y z = out_of_bounds bm /\ ps3_derivative_y bm s x y z = out_of_bounds bm /\
  ps3_derivative_z bm s x y z = out_of_bounds bm /\ ps3_f_dfdx_dfdy bm s x y z = out_of_bounds bm.
Proof. exact @t_short. Qed.
Print Assumptions C126_short_matrix.
Example C126_short_example : rows_missing [mkMat 2 1 (fun _ _ => 1); mkMat 2 3 (fun _ _ => 2); mkMat 1 2 (fun _ _ => 0)].
Proof. split; [cbn; lia|]. split; [repeat constructor|]. apply Exists_cons_tl, Exists_cons_hd. cbn. lia. Qed.

(** The coefficients at a given height, finite or not. *)
Theorem C126_cij_smaller : forall (T : Type) (NT : Num T) bm b ax ay az (s : ps3 T) z, ps3_make b ax ay az = Ok s -> smaller_than_first b ->
  ps3_compute_cij bm s z = out_of_bounds bm /\ ps3_compute_cij_zinf bm s = out_of_bounds bm.
Proof. exact @t_small. Qed.
Print Assumptions C126_cij_smaller.
Example C126_smaller_example : smaller_than_first [mkMat 1 2 (fun _ _ => 1); mkMat 3 1 (fun _ _ => 2)].
Proof. split; [cbn; lia|]. split; [cbn; lia|]. apply Exists_cons_hd. cbn. lia. Qed.

(** A caller's own precomputed matrix with too few rows. *)
Theorem C126_predefined_short : forall (T : Type) (NT : Num T) bm b ax ay az (s : ps3 T) (c : mat T) x y,
  ps3_make b ax ay az = Ok s -> (m_rows c < first_rows b)%nat -> (0 < m_cols c)%nat ->
  ps3_evaluate_z_predefined bm s x y c = out_of_bounds bm /\ ps3_derivative_x_z_predefined bm s x y c = out_of_bounds bm /\
  ps3_derivative_y_z_predefined bm s x y c = out_of_bounds bm /\ ps3_f_dfdx_dfdy_z_predefined bm s x y c = out_of_bounds bm.
Proof. exact @t_predefined. Qed.
Print Assumptions C126_predefined_short.
Example C126_predefined_example : exists s, ps3_make [mkMat 2 2 (fun _ _ => 1)] (Closed 0 1) (Opened 1) (Opened 1) = Ok s /\ (m_rows (mkMat 1 4 (fun _ _ => 0)) < first_rows [mkMat 2 2 (fun _ _ => 1%R)])%nat.
Proof. eexists. split; [reflexivity|cbn; lia]. Qed.

(** Fixing z first agrees with the direct evaluation on equal shapes (C56); with
    a wider second matrix both calls succeed and differ. *)
Theorem C126_agreement_refuted : exists b : list (mat R), (0 < first_rows b)%nat /\ Forall (tall (first_rows b)) b /\ forall bm, exists s c f g,
  ps3_closed b 0 2 0 2 0 2 = Ok s /\ ps3_compute_cij bm s 2 = Ok c /\ ps3_evaluate bm s 1 2 2 = Ok f /\ ps3_evaluate_z_predefined bm s 1 2 c = Ok g /\ f <> g.
Proof. exact t_agreement. Qed.
Print Assumptions C126_agreement_refuted.

(** C14. Evaluation at a list of points: the values in order; the first failure
    stops it; a point with fewer than two coordinates is read out of range. *)
Theorem C14_vector_eval : forall (T : Type) (NT : Num T) bm (o : interp2d T) vc vs,
  Forall2 (fun c v => exists x y r, c = x :: y :: r /\ eval2d bm o x y = Ok v) vc vs -> eval2d_vec bm o vc = Ok vs.
Proof. exact @vector_eval. Qed.
Print Assumptions C14_vector_eval.
Theorem C14_vector_eval_stops : forall (T : Type) (NT : Num T) bm (o : interp2d T) vc vs x y r vc' e,
  Forall2 (fun c v => exists x y r, c = x :: y :: r /\ eval2d bm o x y = Ok v) vc vs ->
  eval2d bm o x y = e -> (forall v, e <> Ok v) -> eval2d_vec bm o (vc ++ (x :: y :: r) :: vc') = omap (fun v => [v]) e.
Proof. exact @vector_eval_stop. Qed.
Print Assumptions C14_vector_eval_stops.
Theorem C14_vector_eval_short_point : forall (T : Type) (NT : Num T) bm (o : interp2d T) vc vs c vc',
  Forall2 (fun c v => exists x y r, c = x :: y :: r /\ eval2d bm o x y = Ok v) vc vs ->
  (length c < 2)%nat -> eval2d_vec bm o (vc ++ c :: vc') = UB.
Proof. exact @vector_eval_short. Qed.
Print Assumptions C14_vector_eval_short_point.
Example C14_vector_example : exists o, new2d Release LINEAR ex2_x ex2_y ex2_d = Ok o /\
  eval2d_vec Release o [[2; 1]; [2; 1; 9]] = Ok [29 / 4; 29 / 4] /\ eval2d_vec Release o [[2; 1]; [2]] = UB.
Proof.
  destruct C14_example as (o & H1 & H2). exists o. split; [exact H1|]. split.
  - apply C14_vector_eval. constructor; [exists 2, 1, []; split; [reflexivity|exact H2]|]. constructor; [exists 2, 1, [9]; split; [reflexivity|exact H2]|constructor].
  - apply (C14_vector_eval_short_point R _ Release o [[2; 1]] [29 / 4] [2] []); [|cbn; lia]. constructor; [exists 2, 1, []; split; [reflexivity|exact H2]|constructor].
Qed.

(** C92. With equal units no conversion is made, in any arithmetic. *)
Theorem C92_same_unit : forall (T : Type) (NT : Num T) (NF : NumFm T) (NR : NumTr T) (lon lat a : T) au u,
  GetNEDVelocityVector lon lat a au u u = ProjectLocalOnNED (mkV2 lon lat) a au.
Proof. exact @same_unit. Qed.
Print Assumptions C92_same_unit.
