(** Property C109: the tolerance comparisons IsEqual and IsIdentity. *)
From Coq Require Import List Arith ZArith Reals Bool Lia Lra.
From Flocq Require Import IEEE754.BinarySingleNaN.
From Verif Require Import Outcome Num NumFun F64 M_Approx S_Angles S_Approx S_Double L_Approx.
Import ListNotations.
Local Open Scope R_scope.

(** Two vectors of the same size are "equal" when their distance is at most
    |eps| times the smaller of their norms; sizes must agree. *)
Theorem C109_is_equal : forall bm (a b : list R) eps, length a = length b ->
  exists r, is_equal bm a b eps = Ok r /\
    (r = true <-> distance2 a b <= Rabs eps * Rmin (norm2 a) (norm2 b)).
Proof. exact is_equal_iff. Qed.
Print Assumptions C109_is_equal.

Theorem C109_is_equal_sizes : forall bm (a b : list R) eps, length a <> length b ->
  is_equal bm a b eps = match bm with Debug => Abort | Release => UB end.
Proof. exact is_equal_sizes. Qed.
Print Assumptions C109_is_equal_sizes.

Theorem C109_matrix_is_equal : forall bm (a b : cmatrix R) eps, cm_wf a -> cm_wf b ->
  (cm_rows a = cm_rows b /\ cm_cols a = cm_cols b ->
     exists r, mat_is_equal bm a b eps = Ok r /\
       (r = true <-> distance2 (cm_data a) (cm_data b) <= Rabs eps * Rmin (norm2 (cm_data a)) (norm2 (cm_data b)))) /\
  (cm_rows a <> cm_rows b \/ cm_cols a <> cm_cols b ->
     mat_is_equal bm a b eps = match bm with Debug => Abort | Release => UB end).
Proof. exact mat_is_equal_lemma. Qed.
Print Assumptions C109_matrix_is_equal.

(** Reflexive, symmetric, independent of scale and of the sign of eps. *)
Theorem C109_is_equal_invariance : forall bm bm' (a b : list R) eps c, length a = length b -> c <> 0 ->
  is_equal bm a a eps = Ok true /\ is_equal bm a b eps = is_equal bm' b a eps /\
  is_equal bm (map (Rmult c) a) (map (Rmult c) b) eps = is_equal bm' a b eps /\
  is_equal bm a b (- eps) = is_equal bm' a b eps.
Proof. exact is_equal_equivalences. Qed.
Print Assumptions C109_is_equal_invariance.

(** Only the zero vector equals the zero vector, whatever the tolerance. *)
Theorem C109_is_equal_zero : forall bm (a : list R) eps,
  is_equal bm a (zeros (length a)) eps = Ok true <-> a = zeros (length a).
Proof. exact is_equal_zero_lemma. Qed.
Print Assumptions C109_is_equal_zero.

(** "Vectors closer than epsilon are equal" and "equality is transitive". *)
Theorem C109_is_equal_absolute_refuted : exists (a b : list R) eps, 0 < eps /\ length a = length b /\ distance2 a b <= eps /\
  forall bm, is_equal bm a b eps = Ok false.
Proof. exact is_equal_absolute_refuted_pf. Qed.
Print Assumptions C109_is_equal_absolute_refuted.

Theorem C109_is_equal_transitive_refuted : exists (a b c : list R) eps, 0 < eps /\ forall bm,
  is_equal bm a b eps = Ok true /\ is_equal bm b c eps = Ok true /\ is_equal bm a c eps = Ok false.
Proof. exact is_equal_not_transitive_pf. Qed.
Print Assumptions C109_is_equal_transitive_refuted.

(** IsIdentity(eps) accepts only entries within eps of the identity, and
    accepts all matrices whose entries are within eps/(1+eps). *)
Theorem C109_is_identity : forall (m : cmatrix R) eps, 0 <= eps ->
  (is_identity m eps = true -> forall i j, (i < cm_rows m)%nat -> (j < cm_cols m)%nat ->
     Rabs (nth (j * cm_rows m + i) (cm_data m) 0 - kronecker i j) <= eps) /\
  ((forall i j, (i < cm_rows m)%nat -> (j < cm_cols m)%nat ->
     Rabs (nth (j * cm_rows m + i) (cm_data m) 0 - kronecker i j) <= eps / (1 + eps)) -> is_identity m eps = true).
Proof. exact is_identity_lemma. Qed.
Print Assumptions C109_is_identity.

(** "An identity matrix is square": a 2x3 matrix passes. *)
Theorem C109_identity_square_refuted : exists m : cmatrix R, cm_wf m /\ cm_is_square m = false /\
  forall eps, 0 <= eps -> is_identity m eps = true.
Proof. exact is_identity_rectangular_pf. Qed.
Print Assumptions C109_identity_square_refuted.

(** In doubles a finite vector equals itself, even when its squared norm
    overflows; a vector with a NaN or an infinity never does. *)
Theorem C109_is_equal_double : forall bm (a : list f64) eps, all_finite a -> is_finite eps = true ->
  / 2 ^ 500 <= dvalue eps <= 2 ^ 500 -> is_equal bm a a eps = Ok true.
Proof. exact is_equal_double_lemma. Qed.
Print Assumptions C109_is_equal_double.

Theorem C109_is_equal_nonfinite : forall bm (a : list f64) eps, ~ all_finite a -> is_equal bm a a eps = Ok false.
Proof. exact is_equal_nonfinite_lemma. Qed.
Print Assumptions C109_is_equal_nonfinite.

(** "With tolerance zero a vector equals itself": not a very long one. *)
Theorem C109_zero_tolerance_refuted : exists a : list f64, all_finite a /\
  forall bm, is_equal bm a a (f64_ofZ 0) = Ok false.
Proof. exact is_equal_zero_tolerance_pf. Qed.
Print Assumptions C109_zero_tolerance_refuted.

(** (3,4) and (6,8) are at distance 5, and 5 is the smaller norm: equal with
    eps = 1, different with eps = 0.9. *)
Example C109_example :
  is_equal Debug [3; 4] [6; 8] 1 = Ok true /\ is_equal Release [3; 4] [6; 8] (9 / 10) = Ok false /\
  is_equal Debug [3; 4] [6] 1 = Abort /\
  is_identity (mkCM 2 2 [1 + / 100; 0; / 100; 1]) (/ 10) = true.
Proof.
  assert (D : distance2 [3; 4] [6; 8] = 5).
  { unfold distance2. cbn [length S_Series.bsum nth]. replace (0 + (3 - 6) ^ 2 + (4 - 8) ^ 2) with (5²) by (unfold Rsqr; ring).
    apply sqrt_Rsqr; lra. }
  assert (A : norm2 [3; 4] = 5) by (apply norm2_pair; lra). assert (B : norm2 [6; 8] = 10) by (apply norm2_pair; lra).
  split; [|split; [|split; [reflexivity|]]].
  - destruct (C109_is_equal Debug [3; 4] [6; 8] 1 eq_refl) as (r & -> & I). f_equal. apply I.
    rewrite D, A, B, Rmin_left, Rabs_pos_eq; lra.
  - destruct (C109_is_equal Release [3; 4] [6; 8] (9 / 10) eq_refl) as (r & -> & I). f_equal. destruct r; auto.
    exfalso. assert (K := proj1 I eq_refl). rewrite D, A, B, Rmin_left, Rabs_pos_eq in K; lra.
  - apply (C109_is_identity _ (/ 10)); [lra|]. cbn [cm_rows cm_cols cm_data]. intros i j Hi Hj. apply Rabs_le.
    destruct i as [|[|i]]; [| |lia]; (destruct j as [|[|j]]; [| |lia]); unfold kronecker; simpl; lra.
Qed.
