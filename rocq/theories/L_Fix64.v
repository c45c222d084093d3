(** PowerSeries3d at a fixed z and at infinite z in binary64. *)
From Coq Require Import List Arith ZArith Reals Bool Lia Lra Psatz.
From Flocq Require Import Core.Core IEEE754.BinarySingleNaN.
From Verif Require Import Outcome Num NumFun F64 L_F64 L_Linspace64 L_F64Err M_Series S_Series L_Series S_Angles S_Double L_Series64
  L_Interp64 L_Special64 L_Apx S_Cheb S_Ser64 L_Ser64 S_Der64 L_Der64 S_Rot64 S_Fix64.
Import ListNotations.
Local Open Scope R_scope.

Lemma mapM_pick {B} (d : B) (P : nat -> B -> Prop) (F : nat -> outcome B) n : forall k, (forall i, (k <= i < k + n)%nat -> exists v, F i = Ok v /\ P i v) ->
  exists l, mapM F (seq k n) = Ok l /\ length l = n /\ forall i, (i < n)%nat -> P (k + i)%nat (nth i l d).
Proof.
  induction n as [|n IH]; intros k H; [exists []; split; [reflexivity|]; split; [reflexivity|]; intros; lia|].
  destruct (H k ltac:(lia)) as (v & E & Pv). destruct (IH (S k)) as (l & El & Ll & Pl); [intros i Hi; apply H; lia|].
  exists (v :: l). cbn [seq mapM]. rewrite E. cbn [bind]. rewrite El. split; [reflexivity|]. split; [cbn [length]; now rewrite Ll|].
  intros [|i] Hi; [rewrite Nat.add_0_r; exact Pv|]. cbn [nth]. replace (k + S i)%nat with (S k + i)%nat by lia. apply Pl. lia.
Qed.
Lemma mapM_seq {B} (F : nat -> outcome B) (g : nat -> B) n : (forall i, (i < n)%nat -> F i = Ok (g i)) -> mapM F (seq 0 n) = Ok (map g (seq 0 n)).
Proof.
  intros H. assert (G : forall k, (forall i, (k <= i < k + n)%nat -> F i = Ok (g i)) -> mapM F (seq k n) = Ok (map g (seq k n))).
  { clear H. induction n as [|n IH]; intros k H; [reflexivity|]. cbn [seq mapM map]. rewrite (H k) by lia. cbn [bind]. rewrite IH by (intros; apply H; lia). reflexivity. }
  apply G. intros i Hi. apply H. lia.
Qed.

Lemma cols_nonneg B i j : 0 <= cols B i j.
Proof. apply bsum_nonneg. intros. apply Rabs_pos. Qed.


(** Weighted double sum. *)
Definition gs wx wy nx ny (f : nat -> nat -> R) : R := bsum nx (fun i => wgt wx i * bsum ny (fun j => wgt wy j * f i j)).
Lemma gs_le wx wy nx ny f g : (forall i j, (i < nx)%nat -> (j < ny)%nat -> f i j <= g i j) -> gs wx wy nx ny f <= gs wx wy nx ny g.
Proof.
  intros H. apply bsum_le. intros i Hi. apply Rmult_le_compat_l; [apply wgt_nonneg|]. apply bsum_le. intros j Hj. apply Rmult_le_compat_l; [apply wgt_nonneg|]. now apply H.
Qed.
Lemma gs_lin wx wy nx ny f g a : gs wx wy nx ny (fun i j => f i j + a * g i j) = gs wx wy nx ny f + a * gs wx wy nx ny g.
Proof.
  unfold gs. rewrite <- L_Ser64.bsum_scal, <- L_Ser64.bsum_plus. apply bsum_ext. intros i _.
  rewrite (bsum_ext ny (fun j => wgt wy j * (f i j + a * g i j)) (fun j => wgt wy j * f i j + a * (wgt wy j * g i j))) by (intros; ring).
  rewrite L_Ser64.bsum_plus, L_Ser64.bsum_scal. ring.
Qed.
Lemma gs_one wx wy nx ny : 0 <= gs wx wy nx ny (fun _ _ => 1) <= cells nx ny.
Proof.
  assert (A := wgt_total wx nx). assert (B := wgt_total wy ny).
  replace (gs wx wy nx ny (fun _ _ => 1)) with (bsum nx (wgt wx) * bsum ny (wgt wy)).
  - split; [apply Rmult_le_pos; lra|]. unfold cells. apply Rmult_le_compat; lra.
  - unfold gs. rewrite <- bsum_scal_r. apply bsum_ext. intros i _. f_equal. apply bsum_ext. intros; ring.
Qed.
Lemma gs_nonneg wx wy nx ny f : (forall i j, (i < nx)%nat -> (j < ny)%nat -> 0 <= f i j) -> 0 <= gs wx wy nx ny f.
Proof.
  intros H. apply bsum_nonneg. intros i Hi. apply Rmult_le_pos; [apply wgt_nonneg|]. apply bsum_nonneg. intros j Hj. apply Rmult_le_pos; [apply wgt_nonneg|now apply H].
Qed.

Lemma box_gs wx wy (B : list (mat f64)) nx ny : box_ok nx ny B -> box_gsum wx wy false B = gs wx wy nx ny (cols B).
Proof.
  intros HB. unfold box_gsum, gs, cols. cbn [wgt].
  rewrite (bsum_ext (length B) _ (fun k => bsum nx (fun i => bsum ny (fun j => wgt wx i * (wgt wy j * Rabs (dvalue (m_at (nth k B no_mat) i j))))))).
  - rewrite bsum_swap. apply bsum_ext. intros i _. rewrite bsum_swap, <- L_Ser64.bsum_scal. apply bsum_ext. intros j _. rewrite !L_Ser64.bsum_scal. ring.
  - intros k Hk. destruct (HB k Hk) as (R1 & R2 & _). rewrite Rmult_1_l. unfold mat_gsum, row_sum. rewrite R1, R2. apply bsum_ext. intros i _. rewrite <- L_Ser64.bsum_scal. apply bsum_ext. intros; reflexivity.
Qed.
Definition gv wx wy nx ny (f : nat -> nat -> R) u v : R := bsum nx (fun i => bsum ny (fun j => f i j * trm wy j v) * trm wx i u).
Lemma box_gv wx wy (B : list (mat f64)) nx ny u v w : box_ok nx ny B -> box_gval wx wy false B u v w = gv wx wy nx ny (fun i j => colv B i j w) u v.
Proof.
  intros HB. unfold box_gval, gv, colv. cbn [trm].
  rewrite (bsum_ext (length B) _ (fun k => bsum nx (fun i => bsum ny (fun j => dvalue (m_at (nth k B no_mat) i j) * w ^ k * (trm wy j v * trm wx i u))))).
  - rewrite bsum_swap. apply bsum_ext. intros i _. rewrite bsum_swap, <- bsum_scal_r. apply bsum_ext. intros j _. rewrite bsum_scal_r. ring.
  - intros k Hk. destruct (HB k Hk) as (R1 & R2 & _). unfold mat_gval, row_val. rewrite R1, R2. rewrite <- bsum_scal_r. apply bsum_ext. intros i _.
    rewrite <- !bsum_scal_r. apply bsum_ext. intros j _. change (dvalue (m_at (nth k B no_mat) i j)) with (val (m_at (nth k B no_mat) i j)). ring.
Qed.
Lemma gv_diff wx wy nx ny f g e u v : Rabs u <= 1 -> Rabs v <= 1 -> (forall i j, (i < nx)%nat -> (j < ny)%nat -> Rabs (f i j - g i j) <= e i j) ->
  Rabs (gv wx wy nx ny f u v - gv wx wy nx ny g u v) <= gs wx wy nx ny e.
Proof.
  intros Hu Hv H. replace (gv wx wy nx ny f u v - gv wx wy nx ny g u v) with (bsum nx (fun i => bsum ny (fun j => (f i j - g i j) * trm wy j v) * trm wx i u)).
  - apply Rle_trans with (1 := gval_abs wx nx (fun i => bsum ny (fun j => (f i j - g i j) * trm wy j v)) u Hu). unfold gs. apply bsum_le. intros i Hi.
    apply Rmult_le_compat_l; [apply wgt_nonneg|]. apply Rle_trans with (1 := gval_abs wy ny (fun j => f i j - g i j) v Hv). apply bsum_le. intros j Hj.
    apply Rmult_le_compat_l; [apply wgt_nonneg|now apply H].
  - unfold gv. rewrite (bsum_ext nx _ (fun i => bsum ny (fun j => f i j * trm wy j v) * trm wx i u + (-1) * (bsum ny (fun j => g i j * trm wy j v) * trm wx i u))).
    + rewrite L_Ser64.bsum_plus, L_Ser64.bsum_scal. ring.
    + intros i _. rewrite (bsum_ext ny _ (fun j => f i j * trm wy j v + (-1) * (g i j * trm wy j v))) by (intros; ring). rewrite L_Ser64.bsum_plus, L_Ser64.bsum_scal. ring.
Qed.

(** ** The matrix of coefficients at a fixed z *)
Lemma cij_lemma bm (ax ay az : axis f64) (B : list (mat f64)) nx ny (zu : f64) tz kz : B <> [] -> box_ok nx ny B -> (forall i j, (i < nx)%nat -> (j < ny)%nat -> cols B i j <= huge) ->
  is_finite zu = true -> Rabs tz <= 1 -> Rabs (val zu - tz) <= kz * u53 -> 0 <= kz -> power_err (length B) kz <= / 2 ->
  exists A, ps3_compute_cij_unit bm (mkPS3 B nx ny ax ay az) zu = Ok A /\ m_rows A = nx /\ m_cols A = ny /\
    forall i j, (i < nx)%nat -> (j < ny)%nat -> within (power_err (length B) kz * (cols B i j + tiny)) (m_at A i j) (colv B i j tz).
Proof.
  intros HB FB HS Fz Tz Ez K0 HE. unfold ps3_compute_cij_unit. cbn [p3_b p3_nx p3_ny].
  set (F := fun i j => let* rk := mapM (fun k => let* A := vat B k in mcoef bm A i j) (seq 0 (length B)) in horner rk zu).
  set (Q := fun i j v => within (power_err (length B) kz * (cols B i j + tiny)) v (colv B i j tz)).
  assert (HF : forall i j, (i < nx)%nat -> (j < ny)%nat -> exists v, F i j = Ok v /\ Q i j v).
  { intros i j Hi Hj. unfold F. rewrite (mapM_seq _ (fun k => m_at (nth k B no_mat) i j)).
    - cbn [bind]. set (c := map (fun k => m_at (nth k B no_mat) i j) (seq 0 (length B))). assert (LC : length c = length B) by (unfold c; now rewrite map_length, seq_length).
      assert (NC : forall k, (k < length B)%nat -> nth k (dvalues c) 0 = dvalue (m_at (nth k B no_mat) i j)).
      { intros k Hk. unfold dvalues. change 0 with (dvalue (f64_ofZ 0)) || rewrite (nth_indep _ 0 (dvalue (f64_ofZ 0))) by (rewrite map_length, LC; exact Hk). rewrite map_nth. unfold c. rewrite nth_seq_map by exact Hk. reflexivity. }
      assert (SC : bsum (length c) (fun k => wgt false k * Rabs (nth k (dvalues c) 0)) = cols B i j).
      { rewrite LC. unfold cols. apply bsum_ext. intros k Hk. rewrite NC by exact Hk. cbn [wgt]. ring. }
      assert (VC : bsum (length c) (fun k => nth k (dvalues c) 0 * trm false k tz) = colv B i j tz).
      { rewrite LC. unfold colv. apply bsum_ext. intros k Hk. rewrite NC by exact Hk. reflexivity. }
      destruct (vec_gen false c zu tz kz) as (v & E & Fv & D); auto.
      + intros N. rewrite N in LC. destruct B; [congruence|discriminate LC].
      + unfold all_finite. apply Forall_forall. intros a Ha. apply in_map_iff in Ha as (k & <- & Hk). apply in_seq in Hk. destruct (FB k ltac:(lia)) as (R1 & R2 & FA). apply FA; [rewrite R1; exact Hi|rewrite R2; exact Hj].
      + rewrite SC. now apply HS.
      + rewrite LC. exact HE.
      + exists v. split; [exact E|]. rewrite SC, VC, LC in D. split; [exact Fv|exact D].
    - intros k Hk. rewrite (vat_lt B k no_mat) by exact Hk. cbn [bind]. destruct (FB k Hk) as (R1 & R2 & _). unfold mcoef. rewrite R1, R2, (proj2 (Nat.ltb_lt i nx) Hi), (proj2 (Nat.ltb_lt j ny) Hj). destruct bm; reflexivity. }
  destruct (mapM_pick ([] : list f64) (fun i row => forall j, (j < ny)%nat -> Q i j (nth j row (nofZ 0))) (fun i => mapM (F i) (seq 0 ny)) nx 0) as (rows & ER & _ & PR).
  { intros i Hi. destruct (mapM_pick (nofZ 0 : f64) (fun j v => Q i j v) (F i) ny 0) as (row & E & _ & P); [intros j Hj; apply HF; lia|]. exists row. split; [exact E|exact P]. }
  change (mapM (fun i => mapM (fun j => F i j) (seq 0 ny)) (seq 0 nx)) with (mapM (fun i => mapM (F i) (seq 0 ny)) (seq 0 nx)) in *.
  unfold F in ER at 1. eexists. split; [cbn [bind]; unfold F in ER; rewrite ER; cbn [bind]; reflexivity|]. split; [reflexivity|]. split; [reflexivity|].
  intros i j Hi Hj. cbn [m_at]. exact (PR i Hi j Hj).
Qed.

(** Weighted sums and values of the matrix compared with those of the box. *)
Lemma fixed_sums wx wy (A : mat f64) B nx ny u v w pz : box_ok nx ny B -> m_rows A = nx -> m_cols A = ny -> 0 <= pz -> Rabs u <= 1 -> Rabs v <= 1 -> Rabs w <= 1 ->
  (forall i j, (i < nx)%nat -> (j < ny)%nat -> within (pz * (cols B i j + tiny)) (m_at A i j) (colv B i j w)) ->
  let S := box_gsum wx wy false B in let T := S + cells nx ny * tiny in 0 <= S /\ mat_gsum wx wy A <= S + pz * T /\ Rabs (mat_gval wx wy A u v - box_gval wx wy false B u v w) <= pz * T.
Proof.
  intros HB RA CA P0 Hu Hv Hw H S T. assert (TP := tiny_pos). assert (ES := box_gs wx wy B nx ny HB).
  assert (G1 := gs_one wx wy nx ny).
  assert (GT : gs wx wy nx ny (fun i j => cols B i j + tiny * 1) <= T).
  { rewrite (gs_lin wx wy nx ny (cols B) (fun _ _ => 1) tiny). unfold T, S. rewrite ES. rewrite (Rmult_comm (cells nx ny)). apply Rplus_le_compat_l. apply Rmult_le_compat_l; lra. }
  assert (GE : gs wx wy nx ny (fun i j => pz * (cols B i j + tiny)) <= pz * T).
  { apply Rle_trans with (gs wx wy nx ny (fun i j => 0 + pz * (cols B i j + tiny * 1))); [apply gs_le; intros; lra|]. rewrite (gs_lin wx wy nx ny (fun _ _ => 0) (fun i j => cols B i j + tiny * 1) pz).
    replace (gs wx wy nx ny (fun _ _ => 0)) with 0.
    - rewrite Rplus_0_l. apply Rmult_le_compat_l; assumption.
    - unfold gs. symmetry. rewrite (bsum_ext nx _ (fun _ => 0)); [rewrite L_Ser64.bsum_const; ring|]. intros i _. rewrite (bsum_ext ny _ (fun _ => 0)) by (intros; ring). rewrite L_Ser64.bsum_const. ring. }
  assert (CV : forall i j, Rabs (colv B i j w) <= cols B i j) by (intros i j; apply (poly_abs_le (length B) (fun k => dvalue (m_at (nth k B no_mat) i j)) w Hw)).
  split; [|split].
  - unfold S. rewrite ES. apply gs_nonneg. intros. apply cols_nonneg.
  - apply Rle_trans with (gs wx wy nx ny (fun i j => cols B i j + 1 * (pz * (cols B i j + tiny)))).
    + unfold mat_gsum, row_sum. rewrite RA, CA. apply bsum_le. intros i Hi. apply Rmult_le_compat_l; [apply wgt_nonneg|]. apply bsum_le. intros j Hj. apply Rmult_le_compat_l; [apply wgt_nonneg|].
      destruct (H i j Hi Hj) as (_ & D). specialize (CV i j). change (dvalue (m_at A i j)) with (val (m_at A i j)) in D.
      replace (val (m_at A i j)) with ((val (m_at A i j) - colv B i j w) + colv B i j w) by ring. apply Rle_trans with (1 := Rabs_triang _ _). lra.
    + rewrite (gs_lin wx wy nx ny (cols B) (fun i j => pz * (cols B i j + tiny)) 1). rewrite <- ES. fold S. lra.
  - rewrite (box_gv wx wy B nx ny u v w HB). unfold mat_gval, row_val. rewrite RA, CA.
    apply Rle_trans with (2 := GE). apply (gv_diff wx wy nx ny (fun i j => val (m_at A i j)) (fun i j => colv B i j w)); auto. intros i j Hi Hj. exact (proj2 (H i j Hi Hj)).
Qed.

(** ** Calls at a fixed z *)
Lemma cells_room nx ny : 1 <= INR nx <= bpow radix2 53 -> 1 <= INR ny <= bpow radix2 53 -> INR nx <= cells nx ny /\ INR nx * INR nx + 1 <= 2 * cells nx ny /\ 1 <= cells nx ny <= bpow radix2 212.
Proof.
  intros Hx Hy. unfold cells. set (a := INR nx) in *. set (b := INR ny) in *. assert (A2 : 1 <= a * a) by nra. assert (B2 : 1 <= b * b) by nra.
  assert (A3 : a <= a * a) by nra. assert (AB : a * a * 1 <= a * a * (b * b)) by (apply Rmult_le_compat_l; lra).
  split; [lra|]. split; [lra|]. split; [lra|].
  assert (XA : a * a <= bpow radix2 53 * bpow radix2 53) by (apply Rmult_le_compat; lra). assert (XB : b * b <= bpow radix2 53 * bpow radix2 53) by (apply Rmult_le_compat; lra).
  apply Rle_trans with ((bpow radix2 53 * bpow radix2 53) * (bpow radix2 53 * bpow radix2 53)); [apply Rmult_le_compat; lra|]. rewrite <- !bpow_plus. apply bpow_le. discriminate.
Qed.
Lemma box_sum_f B : box_gsum false false false B = box_sum B.
Proof. apply bsum_ext. intros k _. cbn [wgt]. rewrite Rmult_1_l. apply gsum_f. Qed.
Lemma gval_f A u v : mat_gval false false A u v = mat_poly A u v.
Proof. reflexivity. Qed.
Lemma bval_f B u v w : box_gval false false false B u v w = box_poly B u v w.
Proof. reflexivity. Qed.
Lemma cols_le B nx ny i j : box_ok nx ny B -> (i < nx)%nat -> (j < ny)%nat -> cols B i j <= box_sum B.
Proof.
  intros HB Hi Hj. rewrite <- box_sum_f, (box_gs false false B nx ny HB). unfold gs. cbn [wgt].
  apply Rle_trans with (1 * bsum ny (fun j => 1 * cols B i j)).
  - rewrite Rmult_1_l. replace (cols B i j) with (1 * cols B i j) by ring. apply (L_Ser64.bsum_single ny (fun j => 1 * cols B i j) j Hj). intros q. rewrite Rmult_1_l. apply cols_nonneg.
  - apply (L_Ser64.bsum_single nx (fun i => 1 * bsum ny (fun j => 1 * cols B i j)) i Hi). intros q. rewrite Rmult_1_l. apply bsum_nonneg. intros r _. rewrite Rmult_1_l. apply cols_nonneg.
Qed.
Lemma huge_room : 4 * bpow radix2 213 <= huge.
Proof. change 4 with (bpow radix2 2). rewrite <- bpow_plus. apply bpow_le. discriminate. Qed.
Lemma tiny_cells c : 0 <= c <= bpow radix2 212 -> 0 <= c * tiny <= 1.
Proof.
  intros H. assert (P := tiny_pos). split; [apply Rmult_le_pos; lra|]. apply Rle_trans with (bpow radix2 212 * tiny); [apply Rmult_le_compat_r; lra|]. unfold tiny. rewrite <- bpow_plus.
  change 1 with (bpow radix2 0). apply bpow_le. discriminate.
Qed.
Lemma rate_tiny c k : 0 < c <= bpow radix2 901 -> 0 <= k <= bpow radix2 212 -> 0 <= c * (k * tiny) <= bpow radix2 213.
Proof.
  intros Hc Hk. assert (P := tiny_pos). assert (0 <= k * tiny) by (apply Rmult_le_pos; lra). split; [apply Rmult_le_pos; lra|].
  apply Rle_trans with (bpow radix2 901 * (bpow radix2 212 * tiny)); [apply Rmult_le_compat; [lra|lra|lra|apply Rmult_le_compat_r; lra]|]. unfold tiny. rewrite <- !bpow_plus. apply bpow_le. discriminate.
Qed.

(** From the derivative of the matrix to the derivative of the box. *)
Lemma der_combine r D' D HA HB c e2 pz T M : close_to_rate r D' e2 c M -> D' = c * HA -> D = c * HB -> 0 < c -> 0 <= e2 -> 0 <= pz -> Rabs (HA - HB) <= pz * T -> 0 <= T -> M <= 7 / 2 * T -> 0 <= M ->
  close_to_rate r D (4 * (e2 + pz) + 36 * uround) c T.
Proof.
  intros (F & E) -> -> Hc He Hp HD HT HM M0. split; [exact F|]. change uround with u53 in *. assert (U := u_tiny).
  replace (dvalue r - c * HB) with ((dvalue r - c * HA) + c * (HA - HB)) by ring. apply Rle_trans with (1 := Rabs_triang _ _). rewrite Rabs_mult, (Rabs_pos_eq c) by lra.
  assert (X1 : c * Rabs (HA - HB) <= c * (pz * T)) by (apply Rmult_le_compat_l; lra).
  assert (X2 : (e2 + 12 * u53) * (c * M) <= (e2 + 12 * u53) * (c * (7 / 2 * T))) by (apply Rmult_le_compat_l; [lra|]; apply Rmult_le_compat_l; lra).
  assert (CT : 0 <= c * T) by (apply Rmult_le_pos; lra). assert (0 <= e2 * (c * T)) by (apply Rmult_le_pos; lra). assert (0 <= pz * (c * T)) by (apply Rmult_le_pos; lra). assert (0 <= u53 * (c * T)) by (apply Rmult_le_pos; lra).
  replace (c * (pz * T)) with (pz * (c * T)) in X1 by ring. replace ((e2 + 12 * u53) * (c * (7 / 2 * T))) with (7 / 2 * (e2 * (c * T)) + 42 * (u53 * (c * T))) in X2 by field.
  replace ((4 * (e2 + pz) + 36 * u53 + 12 * u53) * (c * T)) with (4 * (e2 * (c * T)) + 4 * (pz * (c * T)) + 48 * (u53 * (c * T))) by ring. lra.
Qed.

Lemma fixed_gen bm (ax ay : axis f64) (B : list (mat f64)) nx ny (A : mat f64) tz kz x y :
  box_ok nx ny B -> (0 < nx)%nat -> (0 < ny)%nat -> m_rows A = nx -> m_cols A = ny -> 0 <= kz -> Rabs tz <= 1 ->
  (forall i j, (i < nx)%nat -> (j < ny)%nat -> within (power_err (length B) kz * (cols B i j + tiny)) (m_at A i j) (colv B i j tz)) ->
  box_sum B <= / 4 * huge -> usable ax x -> usable ay y ->
  let kx := axis_cond (axis_values ax) in let ky := axis_cond (axis_values ay) in kx * u53 <= / 2 -> ky * u53 <= / 2 ->
  let err := power_err nx kx + power_err ny ky + power_err (length B) kz in err <= / 2 ->
  let u := unit_of (axis_values ax) (val x) in let v := unit_of (axis_values ay) (val y) in
  (exists f, ps2_evaluate bm (mkPS2 A ax ay) x y = Ok f /\ within (3 * err * (box_sum B + cells nx ny * tiny)) f (box_poly B u v tz)) /\
  (forall D, let c := unit_rate (axis_values ax) (val x) in rate_moderate (axis_values ax) (val x) -> box_dsum_x B <= / 4 * huge -> c * box_dsum_x B <= / 4 * huge ->
     derivable_pt_lim (fun t => box_poly B (unit_of (axis_values ax) t) v tz) (val x) D ->
     exists r, ps2_derivative_x bm (mkPS2 A ax ay) x y = Ok r /\ close_to_rate r D (4 * err + 36 * uround) c (box_dsum_x B + cells nx ny * tiny)) /\
  (forall D, let c := unit_rate (axis_values ay) (val y) in rate_moderate (axis_values ay) (val y) -> box_dsum_y B <= / 4 * huge -> c * box_dsum_y B <= / 4 * huge ->
     derivable_pt_lim (fun t => box_poly B u (unit_of (axis_values ay) t) tz) (val y) D ->
     exists r, ps2_derivative_y bm (mkPS2 A ax ay) x y = Ok r /\ close_to_rate r D (4 * err + 36 * uround) c (box_dsum_y B + cells nx ny * tiny)).
Proof.
  intros HB Hnx Hny RA CA K2 Tz HA HS Hx Hy kx ky Hkx Hky err HE u v. assert (U := u_tiny). assert (TP := tiny_pos). assert (HR := huge_room). assert (P213 := bpow_gt_0 radix2 213).
  assert (H1 : 1 <= bpow radix2 213) by (change 1 with (bpow radix2 0); apply bpow_le; discriminate).
  destruct (unit_f ax x Hx ltac:(fold kx; lra)) as (_ & _ & Tx & K0). destruct (unit_f ay y Hy ltac:(fold ky; lra)) as (_ & _ & Ty & K1). fold kx in K0. fold ky in K1. fold u in Tx. fold v in Ty.
  assert (PX := power_err_nonneg nx kx K0). assert (PY := power_err_nonneg ny ky K1). assert (PZ := power_err_nonneg (length B) kz K2).
  set (pz := power_err (length B) kz) in *. unfold err in *. set (px := power_err nx kx) in *. set (py := power_err ny ky) in *. clear err.
  assert (NX := power_terms nx kx K0 Hnx ltac:(fold px; lra)). assert (NY := power_terms ny ky K1 Hny ltac:(fold py; lra)).
  destruct (cells_room nx ny NX NY) as (C1 & C2 & C3). set (cl := cells nx ny) in *. assert (CT := tiny_cells cl ltac:(lra)).
  assert (C1T : INR nx * tiny <= cl * tiny) by (apply Rmult_le_compat_r; lra). assert (C2T : (INR nx * INR nx + 1) * tiny <= 2 * cl * tiny) by (apply Rmult_le_compat_r; lra).
  assert (FA : mat_finite A) by (intros i j Hi Hj; rewrite RA in Hi; rewrite CA in Hj; exact (proj1 (HA i j Hi Hj))).
  assert (QQ := fun wx wy => fixed_sums wx wy A B nx ny u v tz pz HB RA CA PZ Tx Ty Tz HA). cbv zeta in QQ. fold cl in QQ.
  destruct (QQ false false) as (S0 & SA & SV). rewrite box_sum_f in S0, SA, SV. rewrite gsum_f in SA. rewrite gval_f, bval_f in SV.
  assert (PS : forall T, 0 <= T -> pz * T <= / 2 * T) by (intros T HT; apply Rmult_le_compat_r; lra).
  assert (SA2 := PS (box_sum B + cl * tiny) ltac:(lra)).
  assert (MH : mat_sum A <= huge) by lra.
  assert (A0 : 0 <= mat_sum A) by apply sums_nonneg.
  split; [|split].
  - destruct (ps2_double_lemma bm ax ay A x y Hx Hy) as (f & EF & FF & DF); try (rewrite ?RA, ?CA; assumption).
    + rewrite RA, CA. fold kx ky px py. lra.
    + exists f. split; [exact EF|]. split; [exact FF|]. rewrite RA, CA in DF. fold kx ky px py in DF. change (dvalue x) with (val x) in DF. change (dvalue y) with (val y) in DF. fold u v in DF.
      replace (dvalue f - box_poly B u v tz) with ((dvalue f - mat_poly A u v) + (mat_poly A u v - box_poly B u v tz)) by ring. apply Rle_trans with (1 := Rabs_triang _ _).
      set (T := box_sum B + cl * tiny) in *. assert (T0 : 0 <= T) by (unfold T; lra).
      assert (X : (px + py) * (mat_sum A + INR nx * tiny) <= (px + py) * (5 / 2 * T)) by (apply Rmult_le_compat_l; [lra|]; unfold T in *; lra).
      assert (0 <= (px + py) * T) by (apply Rmult_le_pos; lra). assert (0 <= pz * T) by (apply Rmult_le_pos; lra). lra.
  - intros D Hm HD HcD HDD. set (c := unit_rate (axis_values ax) (val x)) in *. destruct (QQ true false) as (S1 & M1 & V1). rewrite bsx in S1, M1, V1. rewrite gsum_x in M1. set (T := box_dsum_x B + cl * tiny) in *.
    destruct (rate_f ax x Hx Hm) as (_ & Bc & _). fold c in Bc. assert (RT := rate_tiny c cl Bc ltac:(lra)). assert (M2 := PS T ltac:(unfold T; lra)).
    assert (D0 : 0 <= mat_dsum_x A) by apply sums_nonneg.
    assert (MC : c * mat_dsum_x A <= c * (3 / 2 * box_dsum_x B + / 2 * (cl * tiny))) by (apply Rmult_le_compat_l; [lra|]; unfold T in *; lra).
    destruct (ps2_dx_lemma bm ax ay A x y (c * mat_gval true false A u v) Hx Hy Hm) as (r & ER & CR); try (rewrite ?RA, ?CA; assumption).
    + unfold T in *; lra.
    + fold c. replace (c * (3 / 2 * box_dsum_x B + / 2 * (cl * tiny))) with (3 / 2 * (c * box_dsum_x B) + / 2 * (c * (cl * tiny))) in MC by ring. change (unit_rate (axis_values ax) (dvalue x)) with c. lra.
    + rewrite RA, CA. fold kx ky px py. lra.
    + exact (dx_exact A (axis_values ax) (val x) v (usable_regular ax x Hx)).
    + exists r. split; [exact ER|]. rewrite RA, CA in CR. fold kx ky px py in CR. change (unit_rate (axis_values ax) (dvalue x)) with c in CR.
      apply der_combine with (1 := CR) (HA := mat_gval true false A u v) (HB := box_gval true false false B u v tz); auto; try lra.
      * exact (uniqueness_limite _ _ _ _ HDD (bx_exact B (axis_values ax) (val x) v tz (usable_regular ax x Hx))).
      * unfold T; lra.
      * unfold T in *; lra.
      * assert (0 <= (INR nx * INR nx + 1) * tiny) by (apply Rmult_le_pos; [|lra]; assert (0 <= INR nx * INR nx) by (apply Rmult_le_pos; lra); lra). lra.
  - intros D Hm HD HcD HDD. set (c := unit_rate (axis_values ay) (val y)) in *. destruct (QQ false true) as (S1 & M1 & V1). rewrite bsy in S1, M1, V1. rewrite gsum_y in M1. set (T := box_dsum_y B + cl * tiny) in *.
    destruct (rate_f ay y Hy Hm) as (_ & Bc & _). fold c in Bc. assert (RT := rate_tiny c cl Bc ltac:(lra)). assert (M2 := PS T ltac:(unfold T; lra)).
    assert (D0 : 0 <= mat_dsum_y A) by apply sums_nonneg.
    assert (MC : c * mat_dsum_y A <= c * (3 / 2 * box_dsum_y B + / 2 * (cl * tiny))) by (apply Rmult_le_compat_l; [lra|]; unfold T in *; lra).
    destruct (ps2_dy_lemma bm ax ay A x y (c * mat_gval false true A u v) Hx Hy Hm) as (r & ER & CR); try (rewrite ?RA, ?CA; assumption).
    + unfold T in *; lra.
    + replace (c * (3 / 2 * box_dsum_y B + / 2 * (cl * tiny))) with (3 / 2 * (c * box_dsum_y B) + / 2 * (c * (cl * tiny))) in MC by ring. change (unit_rate (axis_values ay) (dvalue y)) with c. lra.
    + rewrite RA, CA. fold kx ky px py. lra.
    + exact (dy_exact A (axis_values ay) (val y) u (usable_regular ay y Hy)).
    + exists r. split; [exact ER|]. rewrite RA, CA in CR. fold kx ky px py in CR. change (unit_rate (axis_values ay) (dvalue y)) with c in CR.
      apply der_combine with (1 := CR) (HA := mat_gval false true A u v) (HB := box_gval false true false B u v tz); auto; try lra.
      * exact (uniqueness_limite _ _ _ _ HDD (by_exact B (axis_values ay) (val y) u tz (usable_regular ay y Hy))).
      * unfold T; lra.
      * unfold T in *; lra.
      * assert (0 <= (INR nx * INR nx + 1) * tiny) by (apply Rmult_le_pos; [|lra]; assert (0 <= INR nx * INR nx) by (apply Rmult_le_pos; lra); lra). lra.
Qed.

(** The call returning value and derivatives, any arithmetic and any axes. *)
Lemma combined2 {T} {NT : Num T} bm (s : ps3 T) (A : mat T) x y f dx dy : p3_nx s = m_rows A ->
  ps2_evaluate bm (mkPS2 A (p3_x s) (p3_y s)) x y = Ok f -> ps2_derivative_x bm (mkPS2 A (p3_x s) (p3_y s)) x y = Ok dx -> ps2_derivative_y bm (mkPS2 A (p3_x s) (p3_y s)) x y = Ok dy ->
  ps3_f_dfdx_dfdy_z_predefined bm s x y A = Ok (f, dx, dy).
Proof.
  intros EN. unfold ps2_evaluate, ps2_derivative_x, ps2_derivative_y, ps3_f_dfdx_dfdy_z_predefined, unit2. cbn [p2_b p2_x p2_y]. rewrite EN. set (yu := to_unit _ y). set (xu := to_unit _ x).
  destruct (partial_sums bm horner A (m_rows A) yu) as [q1| | | |] eqn:Q1; cbn [bind]; try discriminate. intros Hu Hv.
  destruct (partial_sums bm horner_derivative A (m_rows A) yu) as [q2| | | |] eqn:Q2; cbn [bind]; try discriminate. intros Hw. cbv zeta.
  destruct (rows_pair bm A _ yu q1 q2 Q1 Q2) as (q & -> & F1 & F2). cbn [bind]. rewrite F1, F2, Hu. cbn [bind].
  destruct (horner_derivative q1 xu) as [h1| | | |]; cbn [bind] in *; try discriminate. destruct (horner q2 xu) as [h2| | | |]; cbn [bind] in *; try discriminate.
  congruence.
Qed.

Lemma fixed_calls bm (ax ay az : axis f64) (B : list (mat f64)) nx ny (A : mat f64) tz kz x y :
  box_ok nx ny B -> (0 < nx)%nat -> (0 < ny)%nat -> m_rows A = nx -> m_cols A = ny -> 0 <= kz -> Rabs tz <= 1 ->
  (forall i j, (i < nx)%nat -> (j < ny)%nat -> within (power_err (length B) kz * (cols B i j + tiny)) (m_at A i j) (colv B i j tz)) ->
  box_sum B <= / 4 * huge -> usable ax x -> usable ay y ->
  let kx := axis_cond (axis_values ax) in let ky := axis_cond (axis_values ay) in kx * u53 <= / 2 -> ky * u53 <= / 2 ->
  let err := power_err nx kx + power_err ny ky + power_err (length B) kz in err <= / 2 -> fixed_ok bm ax ay B nx ny (mkPS3 B nx ny ax ay az) x y A tz err.
Proof.
  intros HB Hnx Hny RA CA K2 Tz HA HS Hx Hy kx ky Hkx Hky err HE.
  destruct (fixed_gen bm ax ay B nx ny A tz kz x y HB Hnx Hny RA CA K2 Tz HA HS Hx Hy Hkx Hky HE) as (EF & EX & EY). fold kx ky err in EF, EX, EY.
  unfold fixed_ok. cbv zeta. split; [|split; [|split]].
  - destruct EF as (f & E & G). exists f. split; [|exact G]. rewrite <- E. unfold ps3_evaluate_z_predefined, ps2_evaluate. cbn [p3_nx p3_x p3_y p2_b p2_x p2_y]. rewrite RA. reflexivity.
  - intros D (H1 & H2 & H3 & H4). destruct (EX D H1 H2 H3 H4) as (r & E & G). exists r. split; [|exact G]. rewrite <- E. unfold ps3_derivative_x_z_predefined, ps2_derivative_x. cbn [p3_nx p3_x p3_y p2_b p2_x p2_y]. rewrite RA. reflexivity.
  - intros D lo hi EA (H1 & H2 & H3 & H4). destruct (EY D H1 H2 H3 H4) as (r & E & G). exists r. split; [|exact G]. rewrite <- E.
    unfold ps3_derivative_y_z_predefined, ps3_derivative_y_unit_zunit_predefined, ps2_derivative_y. cbn [p3_nx p3_x p3_y p2_b p2_x p2_y]. rewrite RA, EA. reflexivity.
  - intros Dx Dy (H1 & H2 & H3 & H4) (J1 & J2 & J3 & J4). destruct EF as (f & E & G). destruct (EX Dx H1 H2 H3 H4) as (r & E1 & G1). destruct (EY Dy J1 J2 J3 J4) as (q & E2 & G2).
    exists f, r, q. split; [|split; [exact G|split; [exact G1|exact G2]]]. apply combined2; [now rewrite RA|exact E|exact E1|exact E2].
Qed.

Lemma cij_z_pf : forall bm (ax ay az : axis f64) (B : list (mat f64)) nx ny (s : ps3 f64) z, usable az z -> B <> [] -> box_ok nx ny B -> box_sum B <= huge -> ps3_make B ax ay az = Ok s ->
  let kz := axis_cond (axis_values az) in kz * uround <= / 2 -> power_err (length B) kz <= / 2 ->
  exists A, ps3_compute_cij bm s z = Ok A /\ m_rows A = nx /\ m_cols A = ny /\
    forall i j, (i < nx)%nat -> (j < ny)%nat -> within (power_err (length B) kz * (cols B i j + tiny)) (m_at A i j) (colv B i j (unit_of (axis_values az) (dvalue z))).
Proof.
  intros bm ax ay az B nx ny s z Hz HB FB HS HM kz Hkz HE. rewrite (make_box B nx ny ax ay az s HB FB HM). change uround with u53 in *. assert (U := u_tiny).
  destruct (unit_f az z Hz ltac:(fold kz; lra)) as (Fz & Ez & Tz & K2). fold kz in Ez, K2.
  destruct (cij_lemma bm ax ay az B nx ny (to_unit az z) _ kz HB FB (fun i j Hi Hj => Rle_trans _ _ _ (cols_le B nx ny i j FB Hi Hj) HS) Fz Tz Ez K2 HE) as (A & E & R).
  exists A. split; [exact E|exact R].
Qed.
Lemma one_unit : is_finite (nofZ 1 : f64) = true /\ Rabs 1 <= 1 /\ Rabs (val (nofZ 1 : f64) - 1) <= 0 * u53.
Proof. destruct one_ok as (F & V). split; [exact F|]. rewrite V, Rabs_R1, Rminus_diag_eq, Rabs_R0 by reflexivity. lra. Qed.
Lemma cij_inf_pf : forall bm (ax ay az : axis f64) (B : list (mat f64)) nx ny (s : ps3 f64), B <> [] -> box_ok nx ny B -> box_sum B <= huge -> ps3_make B ax ay az = Ok s -> power_err (length B) 0 <= / 2 ->
  exists A, ps3_compute_cij_zinf bm s = Ok A /\ m_rows A = nx /\ m_cols A = ny /\
    forall i j, (i < nx)%nat -> (j < ny)%nat -> within (power_err (length B) 0 * (cols B i j + tiny)) (m_at A i j) (colv B i j 1).
Proof.
  intros bm ax ay az B nx ny s HB FB HS HM HE. rewrite (make_box B nx ny ax ay az s HB FB HM). destruct one_unit as (F1 & T1 & E1).
  destruct (cij_lemma bm ax ay az B nx ny (nofZ 1) 1 0 HB FB (fun i j Hi Hj => Rle_trans _ _ _ (cols_le B nx ny i j FB Hi Hj) HS) F1 T1 E1 (Rle_refl 0) HE) as (A & E & R).
  exists A. split; [exact E|exact R].
Qed.
Lemma quarter_huge : / 4 * huge <= huge.
Proof. assert (P : 0 < huge) by apply bpow_gt_0. lra. Qed.

Lemma fixed_z_pf : forall bm (ax ay az : axis f64) (B : list (mat f64)) nx ny (s : ps3 f64) x y z A, usable ax x -> usable ay y -> usable az z -> (0 < nx)%nat -> (0 < ny)%nat -> B <> [] -> box_ok nx ny B ->
  box_sum B <= / 4 * huge -> ps3_make B ax ay az = Ok s -> ps3_compute_cij bm s z = Ok A ->
  let kx := axis_cond (axis_values ax) in let ky := axis_cond (axis_values ay) in let kz := axis_cond (axis_values az) in kx * uround <= / 2 -> ky * uround <= / 2 -> kz * uround <= / 2 ->
  let err := power_err nx kx + power_err ny ky + power_err (length B) kz in err <= / 2 -> fixed_ok bm ax ay B nx ny s x y A (unit_of (axis_values az) (dvalue z)) err.
Proof.
  intros bm ax ay az B nx ny s x y z A Hx Hy Hz Hnx Hny HB FB HS HM HA kx ky kz Hkx Hky Hkz err HE. assert (U := u_tiny). change uround with u53 in *.
  destruct (unit_f ax x Hx ltac:(fold kx; lra)) as (_ & _ & _ & K0). destruct (unit_f ay y Hy ltac:(fold ky; lra)) as (_ & _ & _ & K1). destruct (unit_f az z Hz ltac:(fold kz; lra)) as (_ & _ & Tz & K2).
  assert (PX := power_err_nonneg nx kx K0). assert (PY := power_err_nonneg ny ky K1).
  destruct (cij_z_pf bm ax ay az B nx ny s z Hz HB FB (Rle_trans _ _ _ HS quarter_huge) HM Hkz ltac:(fold kz; unfold err in HE; lra)) as (A' & E & R1 & R2 & R3). rewrite HA in E. injection E as <-.
  rewrite (make_box B nx ny ax ay az s HB FB HM). apply (fixed_calls bm ax ay az B nx ny A _ kz x y); assumption.
Qed.
Lemma fixed_inf_pf : forall bm (ax ay az : axis f64) (B : list (mat f64)) nx ny (s : ps3 f64) x y A, usable ax x -> usable ay y -> (0 < nx)%nat -> (0 < ny)%nat -> B <> [] -> box_ok nx ny B ->
  box_sum B <= / 4 * huge -> ps3_make B ax ay az = Ok s -> ps3_compute_cij_zinf bm s = Ok A ->
  let kx := axis_cond (axis_values ax) in let ky := axis_cond (axis_values ay) in kx * uround <= / 2 -> ky * uround <= / 2 ->
  let err := power_err nx kx + power_err ny ky + power_err (length B) 0 in err <= / 2 -> fixed_ok bm ax ay B nx ny s x y A 1 err.
Proof.
  intros bm ax ay az B nx ny s x y A Hx Hy Hnx Hny HB FB HS HM HA kx ky Hkx Hky err HE. assert (U := u_tiny). change uround with u53 in *.
  destruct (unit_f ax x Hx ltac:(fold kx; lra)) as (_ & _ & _ & K0). destruct (unit_f ay y Hy ltac:(fold ky; lra)) as (_ & _ & _ & K1).
  assert (PX := power_err_nonneg nx kx K0). assert (PY := power_err_nonneg ny ky K1).
  destruct (cij_inf_pf bm ax ay az B nx ny s HB FB (Rle_trans _ _ _ HS quarter_huge) HM ltac:(unfold err in HE; lra)) as (A' & E & R1 & R2 & R3). rewrite HA in E. injection E as <-.
  rewrite (make_box B nx ny ax ay az s HB FB HM). apply (fixed_calls bm ax ay az B nx ny A 1 0 x y); try assumption; [lra|rewrite Rabs_R1; lra].
Qed.

(** ** Direct calls at infinite z *)
Lemma inf_gen wx wy bm (ax ay az a : axis f64) (B : list (mat f64)) nx ny (x y w : f64) D : usable ax x -> usable ay y -> usable a w -> rate_moderate (axis_values a) (val w) ->
  (0 < nx)%nat -> (0 < ny)%nat -> B <> [] -> box_ok nx ny B ->
  let s := mkPS3 B nx ny ax ay az in let c := unit_rate (axis_values a) (val w) in
  (forall k i, (k < length B)%nat -> (i < nx)%nat -> row_sum wy (nth k B no_mat) i <= huge) -> (forall k, (k < length B)%nat -> mat_gsum wx wy (nth k B no_mat) <= huge) ->
  box_gsum wx wy false B <= huge -> c * box_gsum wx wy false B <= huge ->
  let kx := axis_cond (axis_values ax) in let ky := axis_cond (axis_values ay) in kx * u53 <= / 2 -> ky * u53 <= / 2 ->
  let err := power_err nx kx + power_err ny ky + power_err (length B) 0 in err <= / 2 ->
  D = c * box_gval wx wy false B (unit_of (axis_values ax) (val x)) (unit_of (axis_values ay) (val y)) 1 ->
  exists v, (let* q := partial_sums3 bm (hgen wx) (hgen wy) s (to_unit ax x) (to_unit ay y) in let* h := horner q (nofZ 1) in Ok (coef_deriv a w * h)%num) = Ok v /\
    close_to_rate v D err c (box_gsum wx wy false B + flo3 (length B) nx * tiny).
Proof.
  intros Hx Hy Hw Hm Hr Hn HB FB s c HR HMS HS HcS kx ky Hkx Hky err HE ED. assert (U := u_tiny). assert (TP := tiny_pos). assert (LB : (0 < length B)%nat) by (clear - HB; destruct B; [congruence|cbn [length]; lia]).
  destruct (unit_f ax x Hx ltac:(fold kx; lra)) as (Fx & Ex & Tx & K0). destruct (unit_f ay y Hy ltac:(fold ky; lra)) as (Fy & Ey & Ty & K1). destruct one_unit as (F1 & T1 & E1).
  fold kx in Ex, K0. fold ky in Ey, K1.
  destruct (box_gen wx wy false bm B nx ny (to_unit ax x) (to_unit ay y) (nofZ 1) _ _ 1 kx ky 0 s HB Hr Hn FB Fx Tx Ex K0 Fy Ty Ey K1 F1 T1 E1 (Rle_refl 0) HR HMS HS HE eq_refl eq_refl) as (h & Eh & Fh & Bh).
  destruct (partial_sums3 bm (hgen wx) (hgen wy) s (to_unit ax x) (to_unit ay y)) as [q| | | |]; try discriminate Eh. cbn [bind hgen] in Eh |- *. rewrite Eh. cbn [bind]. eexists. split; [reflexivity|].
  assert (PX := power_err_nonneg nx kx K0). assert (PY := power_err_nonneg ny ky K1). assert (PZ := power_err_nonneg (length B) 0 (Rle_refl 0)). fold err in Bh.
  assert (E3 : power_err nx kx <= / 2 /\ power_err (length B) 0 <= / 2 /\ 0 <= err) by (unfold err in *; lra).
  assert (FL := flo3_400 (length B) nx (power_terms (length B) 0 (Rle_refl 0) LB ltac:(lra)) (power_terms nx kx K0 Hr ltac:(lra))).
  assert (G0 : 0 <= box_gsum wx wy false B) by (apply bsum_nonneg; intros; apply Rmult_le_pos; [apply wgt_nonneg|apply mat_gsum_nonneg]). assert (F0 : 0 <= flo3 (length B) nx * tiny) by (apply Rmult_le_pos; lra).
  apply finish with (H := box_gval wx wy false B (unit_of (axis_values ax) (val x)) (unit_of (axis_values ay) (val y)) 1) (er := err + 2 * u53); auto; try lra.
  apply Rle_trans with (1 := box_gval_abs wx wy false B _ _ _ Tx Ty T1). lra.
Qed.

Lemma zinf_pf : forall bm (ax ay az : axis f64) (B : list (mat f64)) nx ny (s : ps3 f64) (x y : f64), usable ax x -> usable ay y ->
  (0 < nx)%nat -> (0 < ny)%nat -> B <> [] -> box_ok nx ny B -> ps3_make B ax ay az = Ok s -> box_sum B <= huge ->
  let kx := axis_cond (axis_values ax) in let ky := axis_cond (axis_values ay) in kx * uround <= / 2 -> ky * uround <= / 2 ->
  let err := power_err nx kx + power_err ny ky + power_err (length B) 0 in err <= / 2 ->
  let u := unit_of (axis_values ax) (dvalue x) in let v := unit_of (axis_values ay) (dvalue y) in
  let floor := (INR (length B) * INR (length B) * (INR nx * INR nx + 1) + 1) * tiny in
  (exists f, ps3_evaluate_zinf bm s x y = Ok f /\ within ((err + 2 * uround) * (box_sum B + floor)) f (box_poly B u v 1)) /\
  (forall D, let c := unit_rate (axis_values ax) (dvalue x) in rate_moderate (axis_values ax) (dvalue x) -> box_dsum_x B <= huge -> c * box_dsum_x B <= huge ->
     derivable_pt_lim (fun t => box_poly B (unit_of (axis_values ax) t) v 1) (dvalue x) D ->
     exists r, ps3_derivative_x_zinf bm s x y = Ok r /\ close_to_rate r D err c (box_dsum_x B + floor)) /\
  (forall D, let c := unit_rate (axis_values ay) (dvalue y) in rate_moderate (axis_values ay) (dvalue y) -> box_dsum_y B <= huge -> c * box_dsum_y B <= huge ->
     derivable_pt_lim (fun t => box_poly B u (unit_of (axis_values ay) t) 1) (dvalue y) D ->
     exists r, ps3_derivative_y_zinf bm s x y = Ok r /\ close_to_rate r D err c (box_dsum_y B + floor)).
Proof.
  intros bm ax ay az B nx ny s x y Hx Hy Hr Hn HB FB HM HS kx ky Hkx Hky err HE u v floor. change uround with u53 in *. assert (U := u_tiny).
  assert (ES := make_box B nx ny ax ay az s HB FB HM).
  assert (NN := sums_nonneg).
  assert (MF : forall k, (k < length B)%nat -> mat_sum (nth k B no_mat) <= huge) by (apply mats_of; [intros A; apply NN|exact HS]).
  assert (RF : forall k i, (k < length B)%nat -> (i < nx)%nat -> row_sum false (nth k B no_mat) i <= huge) by (intros k i Hk Hi; apply rows_f; [apply MF, Hk|destruct (FB k Hk) as (-> & _); exact Hi]).
  split; [|split].
  - destruct (unit_f ax x Hx ltac:(fold kx; lra)) as (Fx & Ex & Tx & K0). destruct (unit_f ay y Hy ltac:(fold ky; lra)) as (Fy & Ey & Ty & K1). destruct one_unit as (F1 & T1 & E1). fold kx in Ex, K0. fold ky in Ey, K1.
    destruct (box_gen false false false bm B nx ny (to_unit ax x) (to_unit ay y) (nofZ 1) _ _ 1 kx ky 0 s HB Hr Hn FB Fx Tx Ex K0 Fy Ty Ey K1 F1 T1 E1 (Rle_refl 0) RF) as (h & Eh & Fh & Bh); auto.
    + intros k Hk. rewrite gsum_f. apply MF, Hk.
    + rewrite box_sum_f. exact HS.
    + subst s. reflexivity.
    + subst s. reflexivity.
    + exists h. subst s. split; [exact Eh|]. split; [exact Fh|]. rewrite box_sum_f in Bh. exact Bh.
  - intros D c Hm HD HcD HDD. destruct (inf_gen true false bm ax ay az ax B nx ny x y x D) as (r & E & C); auto.
    + intros k Hk. rewrite gsum_x. apply (mats_of mat_dsum_x); [intros A; apply NN|exact HD|exact Hk].
    + rewrite bsx. exact HD.
    + rewrite bsx. exact HcD.
    + exact (uniqueness_limite _ _ _ _ HDD (bx_exact B (axis_values ax) (val x) v 1 (usable_regular ax x Hx))).
    + exists r. subst s. split; [exact E|rewrite bsx in C; exact C].
  - intros D c Hm HD HcD HDD. destruct (inf_gen false true bm ax ay az ay B nx ny x y y D) as (r & E & C); auto.
    + intros k i Hk Hi. apply rows_t; [apply (mats_of mat_dsum_y); [intros A; apply NN|exact HD|exact Hk]|destruct (FB k Hk) as (-> & _); exact Hi].
    + intros k Hk. rewrite gsum_y. apply (mats_of mat_dsum_y); [intros A; apply NN|exact HD|exact Hk].
    + rewrite bsy. exact HD.
    + rewrite bsy. exact HcD.
    + exact (uniqueness_limite _ _ _ _ HDD (by_exact B (axis_values ay) (val y) u 1 (usable_regular ay y Hy))).
    + exists r. subst s. split; [exact E|rewrite bsy in C; exact C].
Qed.

(** ** Examples *)
Definition exA1 : mat f64 := mkMat 2 2 (fun i j => f64_ofZ (Z.of_nat (2 * i + j))).
Definition exA2 : mat f64 := mkMat 2 2 (fun i j => f64_ofZ (Z.of_nat (i + j))).
Definition exs : ps3 f64 := mkPS3 [exA1; exA2] 2 2 (Closed (f64_ofZ 1) (f64_ofZ 5)) (Opened (f64_ofZ 1)) (Opened (f64_ofZ 1)).
Lemma exs_make : ps3_make [exA1; exA2] (Closed (f64_ofZ 1) (f64_ofZ 5)) (Opened (f64_ofZ 1)) (Opened (f64_ofZ 1)) = Ok exs.
Proof. reflexivity. Qed.
Lemma exs_box : box_ok 2 2 [exA1; exA2].
Proof. intros k Hk. cbn [length] in Hk. destruct k as [|[|k]]; [..|lia]; cbn [nth]; (split; [reflexivity|split; [reflexivity|]]); intros i j Hi Hj; cbn [exA1 exA2 m_at m_rows m_cols] in *; apply fin_ofZ; lia. Qed.
Ltac exv := unfold box_sum, box_dsum_x, box_dsum_y, mat_sum, mat_dsum_x, mat_dsum_y, box_gval, mat_gval, row_val, box_poly, mat_poly, exA1, exA2; cbn [length nth m_rows m_cols m_at bsum trm]; simpl Z.of_nat;
  repeat match goal with |- context [val (f64_ofZ ?z)] => change (val (f64_ofZ z)) with (dvalue (f64_ofZ z)) end; vz.
Lemma exs_sums : box_sum [exA1; exA2] = 10 /\ box_dsum_x [exA1; exA2] = 8 /\ box_dsum_y [exA1; exA2] = 7.
Proof. repeat split; exv; rewrite !Rabs_pos_eq by lra; simpl; ring. Qed.
Lemma exs_err : power_err 2 (41 / 4) = 61 / 2 * u53 /\ power_err 2 4 = 18 * u53 /\ power_err 2 0 = 10 * u53.
Proof. repeat split; unfold power_err; change uround with u53; simpl; field. Qed.

Lemma ex_fixed : exists A f dx dy, ps3_compute_cij Release exs (f64_ofZ 4) = Ok A /\ Rabs (dvalue (m_at A 1 1) - 4) <= / 1000000000000 /\
  ps3_f_dfdx_dfdy_z_predefined Release exs (f64_ofZ 4) (f64_ofZ 4) A = Ok (f, dx, dy) /\
  Rabs (dvalue f - 3) <= / 10000000000 /\ Rabs (dvalue dx - 9 / 4) <= / 10000000000 /\ Rabs (dvalue dy - 7 / 16) <= / 10000000000.
Proof.
  assert (U := u_tiny). assert (H := one_huge). assert (T := tiny_small). assert (TP := tiny_pos). assert (TU := tiny_u). destruct exs_sums as (S1 & S2 & S3). destruct exs_err as (P1 & P2 & _).
  destruct (cij_z_pf Release (Closed (f64_ofZ 1) (f64_ofZ 5)) (Opened (f64_ofZ 1)) (Opened (f64_ofZ 1)) [exA1; exA2] 2 2 exs (f64_ofZ 4) ex_usable_o ltac:(discriminate) exs_box ltac:(rewrite S1; lra) exs_make) as (A & E & _ & _ & V).
  - rewrite ex_axis_cond_o. change uround with u53. lra.
  - rewrite ex_axis_cond_o. cbn [length]. rewrite P2. lra.
  - assert (Q := fixed_z_pf Release (Closed (f64_ofZ 1) (f64_ofZ 5)) (Opened (f64_ofZ 1)) (Opened (f64_ofZ 1)) [exA1; exA2] 2 2 exs (f64_ofZ 4) (f64_ofZ 4) (f64_ofZ 4) A ex_usable ex_usable_o ex_usable_o
      ltac:(lia) ltac:(lia) ltac:(discriminate) exs_box ltac:(rewrite S1; lra) exs_make E). cbv zeta in Q. rewrite ex_axis_cond, ex_axis_cond_o in Q. cbn [length] in Q. rewrite P1, P2 in Q. change uround with u53 in Q.
    specialize (Q ltac:(lra) ltac:(lra) ltac:(lra) ltac:(lra)). destruct Q as (_ & _ & _ & Q). rewrite ex_unit, L_Ser64.ex_unit_o, ex_rate_c, ex_rate_o, S1, S2, S3 in Q.
    assert (CL : cells 2 2 = 16) by (unfold cells; simpl; ring).
    assert (UT : 0 <= u53 * tiny <= u53) by (split; [apply Rmult_le_pos; lra|apply Rle_trans with (u53 * 1); [apply Rmult_le_compat_l; lra|lra]]).
    destruct (Q (9 / 4) (7 / 16)) as (f & dx & dy & EF & (_ & G1) & (_ & G2) & (_ & G3)).
    + split; [exact I|]. split; [lra|]. split; [lra|].
      assert (X := bx_exact [exA1; exA2] (axis_values (Closed (f64_ofZ 1) (f64_ofZ 5))) (dvalue (f64_ofZ 4)) (/ 2) (/ 2) (usable_regular _ _ ex_usable)).
      match type of X with derivable_pt_lim _ _ ?d => replace d with (9 / 4) in X; [exact X|] end. rewrite ex_unit, ex_rate_c. exv. simpl. field.
    + split; [exact ex_moderate_o|]. split; [lra|]. split; [lra|].
      assert (X := by_exact [exA1; exA2] (axis_values (Opened (f64_ofZ 1))) (dvalue (f64_ofZ 4)) (/ 2) (/ 2) (usable_regular _ _ ex_usable_o)).
      match type of X with derivable_pt_lim _ _ ?d => replace d with (7 / 16) in X; [exact X|] end. rewrite L_Ser64.ex_unit_o, ex_rate_o. exv. simpl. field.
    + exists A, f, dx, dy. split; [exact E|]. rewrite CL in G1, G2, G3. change uround with u53 in *. split; [|split; [exact EF|split; [|split]]].
      * destruct (V 1%nat 1%nat ltac:(lia) ltac:(lia)) as (_ & D). rewrite ex_axis_cond_o, L_Ser64.ex_unit_o in D. cbn [length] in D. rewrite P2 in D.
        replace (colv [exA1; exA2] 1 1 (/ 2)) with 4 in D by (unfold colv; exv; simpl; field). replace (cols [exA1; exA2] 1 1) with 5 in D by (unfold cols; exv; rewrite !Rabs_pos_eq by lra; ring).
        apply Rle_trans with (1 := D). lra.
      * replace (box_poly [exA1; exA2] (/ 2) (/ 2) (/ 2)) with 3 in G1 by (exv; simpl; field). apply Rle_trans with (1 := G1). lra.
      * apply Rle_trans with (1 := G2). lra.
      * apply Rle_trans with (1 := G3). lra.
Qed.
Lemma ex_inf : exists f r, ps3_evaluate_zinf Release exs (f64_ofZ 4) (f64_ofZ 4) = Ok f /\ Rabs (dvalue f - 15 / 4) <= / 10000000000 /\
  ps3_derivative_x_zinf Release exs (f64_ofZ 4) (f64_ofZ 4) = Ok r /\ Rabs (dvalue r - 11 / 4) <= / 10000000000.
Proof.
  assert (U := u_tiny). assert (H := one_huge). assert (T := tiny_small). assert (TP := tiny_pos). assert (TU := tiny_u). destruct exs_sums as (S1 & S2 & S3). destruct exs_err as (P1 & P2 & P3).
  assert (Q := zinf_pf Release (Closed (f64_ofZ 1) (f64_ofZ 5)) (Opened (f64_ofZ 1)) (Opened (f64_ofZ 1)) [exA1; exA2] 2 2 exs (f64_ofZ 4) (f64_ofZ 4) ex_usable ex_usable_o
      ltac:(lia) ltac:(lia) ltac:(discriminate) exs_box exs_make ltac:(rewrite S1; lra)). cbv zeta in Q. rewrite ex_axis_cond, ex_axis_cond_o in Q. cbn [length] in Q. rewrite P1, P2, P3 in Q. change uround with u53 in Q.
  specialize (Q ltac:(lra) ltac:(lra) ltac:(lra)). rewrite ex_unit, L_Ser64.ex_unit_o, ex_rate_c, S1, S2 in Q. change (INR 2) with 2 in Q.
  assert (UT : 0 <= u53 * tiny <= u53) by (split; [apply Rmult_le_pos; lra|apply Rle_trans with (u53 * 1); [apply Rmult_le_compat_l; lra|lra]]).
  destruct Q as ((f & EF & _ & G) & Q & _). destruct (Q (11 / 4) I) as (r & ER & _ & GR); [lra|lra| |].
  - assert (X := bx_exact [exA1; exA2] (axis_values (Closed (f64_ofZ 1) (f64_ofZ 5))) (dvalue (f64_ofZ 4)) (/ 2) 1 (usable_regular _ _ ex_usable)).
    match type of X with derivable_pt_lim _ _ ?d => replace d with (11 / 4) in X; [exact X|] end. rewrite ex_unit, ex_rate_c. exv. simpl. field.
  - exists f, r. split; [exact EF|]. change uround with u53 in *. split; [|split; [exact ER|]].
    + replace (box_poly [exA1; exA2] (/ 2) (/ 2) 1) with (15 / 4) in G by (exv; simpl; field). apply Rle_trans with (1 := G). lra.
    + apply Rle_trans with (1 := GR). lra.
Qed.
