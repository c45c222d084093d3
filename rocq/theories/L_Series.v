(** Lemmas on polynomials and power series. *)
From Coq Require Import List Arith ZArith Reals Lra Lia.
From Coquelicot Require Import Coquelicot.
From Verif Require Import Outcome Num M_Series S_Series.
Import ListNotations.
Local Open Scope R_scope.

(** *** Finite sums *)
Lemma bsum_ext n f g : (forall i, (i < n)%nat -> f i = g i) -> bsum n f = bsum n g.
Proof. induction n as [|n IH]; simpl; intros H; [reflexivity|]. rewrite IH, H; auto with arith. Qed.
Lemma bsum_scal n a f : bsum n (fun i => a * f i) = a * bsum n f.
Proof. induction n as [|n IH]; simpl; [ring|]. rewrite IH. ring. Qed.
Lemma bsum_scal_r n a f : bsum n (fun i => f i * a) = bsum n f * a.
Proof. induction n as [|n IH]; simpl; [ring|]. rewrite IH. ring. Qed.
Lemma bsum_plus n f g : bsum n (fun i => f i + g i) = bsum n f + bsum n g.
Proof. induction n as [|n IH]; simpl; [ring|]. rewrite IH. ring. Qed.
Lemma bsum_0 n : bsum n (fun _ => 0) = 0.
Proof. induction n as [|n IH]; simpl; [ring|]. rewrite IH. ring. Qed.
Lemma bsum_shift n f : bsum (S n) f = f 0%nat + bsum n (fun i => f (S i)).
Proof. induction n as [|n IH]; simpl in *; [ring|]. rewrite IH. ring. Qed.
Lemma bsum_swap m n f : bsum m (fun i => bsum n (fun j => f i j)) = bsum n (fun j => bsum m (fun i => f i j)).
Proof.
  induction m as [|m IH]; simpl; [now rewrite bsum_0|].
  rewrite IH, <- bsum_plus. reflexivity.
Qed.
Lemma bsum_deriv n (F : nat -> R -> R) (G : nat -> R) x :
  (forall i, (i < n)%nat -> derivable_pt_lim (F i) x (G i)) ->
  derivable_pt_lim (fun t => bsum n (fun i => F i t)) x (bsum n G).
Proof.
  induction n as [|n IH]; simpl; intros H.
  - apply derivable_pt_lim_const.
  - apply (derivable_pt_lim_plus (fun t => bsum n (fun i => F i t)) (F n)); auto with arith.
Qed.

(** *** Polynomials given by coefficient functions *)
Definition pvf (n : nat) (g : nat -> R) (x : R) : R := bsum n (fun i => g i * x ^ i).
Definition dvf (n : nat) (g : nat -> R) (x : R) : R := bsum n (fun i => g i * (INR i * x ^ pred i)).

Lemma pvf_ext n g h x : (forall i, (i < n)%nat -> g i = h i) -> pvf n g x = pvf n h x.
Proof. intros H. apply bsum_ext. intros i Hi. rewrite H; auto. Qed.
Lemma dvf_ext n g h x : (forall i, (i < n)%nat -> g i = h i) -> dvf n g x = dvf n h x.
Proof. intros H. apply bsum_ext. intros i Hi. rewrite H; auto. Qed.
Lemma pvf_scal n a g x : pvf n (fun i => a * g i) x = a * pvf n g x.
Proof. unfold pvf. rewrite <- bsum_scal. apply bsum_ext. intros. ring. Qed.

Lemma pvf_deriv n g x : derivable_pt_lim (pvf n g) x (dvf n g x).
Proof.
  unfold pvf, dvf. apply (bsum_deriv n (fun i t => g i * t ^ i)). intros i _.
  apply (derivable_pt_lim_scal (fun t => t ^ i)). apply derivable_pt_lim_pow.
Qed.
Lemma pvf_deriv_comp n g u x d : derivable_pt_lim u x d ->
  derivable_pt_lim (fun t => pvf n g (u t)) x (d * dvf n g (u x)).
Proof.
  intros H. rewrite Rmult_comm. apply (derivable_pt_lim_comp u (pvf n g)); [exact H|apply pvf_deriv].
Qed.
Lemma pvf_deriv_coef n (G : nat -> R -> R) G' U x :
  (forall i, (i < n)%nat -> derivable_pt_lim (G i) x (G' i)) ->
  derivable_pt_lim (fun t => pvf n (fun i => G i t) U) x (pvf n G' U).
Proof.
  intros H. unfold pvf. apply (bsum_deriv n (fun i t => G i t * U ^ i)). intros i Hi.
  replace (G' i * U ^ i) with (G' i * U ^ i + G i x * 0) by ring.
  apply (derivable_pt_lim_mult (G i) (fun _ => U ^ i)); auto. apply derivable_pt_lim_const.
Qed.

(** *** Horner *)
Lemma horner_loop_ok (c : list R) x : forall k r, (k <= length c)%nat ->
  horner_loop c x k r = Ok (r * x ^ k + pvf k (fun i => nth i c 0) x).
Proof.
  induction k as [|k IH]; intros r Hk; cbn [horner_loop].
  - unfold pvf. simpl. f_equal. ring.
  - rewrite (vat_lt c k 0) by lia. cbn [bind]. rewrite IH by lia. f_equal.
    unfold pvf. cbn [bsum]. cbv [nadd nmul RNum RNum_at]. cbn [pow]. ring.
Qed.
Lemma horner_ok (c : list R) x : c <> [] -> horner c x = Ok (pvf (length c) (fun i => nth i c 0) x).
Proof.
  intros H. unfold horner.
  destruct (length c) as [|n] eqn:E; [destruct c; [congruence|discriminate]|].
  replace (S n - 1)%nat with n by lia. rewrite (vat_lt c n 0) by lia. cbn [bind].
  rewrite horner_loop_ok by lia. f_equal. unfold pvf. cbn [bsum]. ring.
Qed.
Lemma horner_empty (x : R) : horner [] x = Throw OutOfRange.
Proof. reflexivity. Qed.
Lemma horner_deriv_empty (x : R) : horner_derivative [] x = Throw OutOfRange.
Proof. reflexivity. Qed.
Lemma horner_deriv_loop_ok (c : list R) x : forall k r, (k < length c)%nat ->
  horner_deriv_loop c x k r = Ok (r * x ^ k + bsum k (fun i => INR (S i) * nth (S i) c 0 * x ^ i)).
Proof.
  induction k as [|k IH]; intros r Hk; cbn [horner_deriv_loop].
  - simpl. f_equal. ring.
  - rewrite (vat_lt c (S k) 0) by lia. cbn [bind]. rewrite IH by lia. f_equal.
    cbn [bsum]. cbv [nadd nmul nofZ RNum RNum_at]. rewrite <- INR_IZR_INZ. cbn [pow]. ring.
Qed.
Lemma horner_deriv_ok (c : list R) x : c <> [] ->
  horner_derivative c x = Ok (dvf (length c) (fun i => nth i c 0) x).
Proof.
  intros H. unfold horner_derivative.
  destruct (length c) as [|[|n]] eqn:E; [destruct c; [congruence|discriminate]| |].
  - simpl. rewrite (vat_lt c 0 0) by lia. cbn [bind]. f_equal. unfold dvf. simpl.
    cbv [nmul nofZ RNum RNum_at]. ring.
  - replace (S (S n) - 1)%nat with (S n) by lia. replace (S (S n) - 2)%nat with n by lia.
    rewrite (vat_lt c (S n) 0) by lia. cbn [bind]. rewrite horner_deriv_loop_ok by lia. f_equal.
    unfold dvf. rewrite bsum_shift.
    rewrite (bsum_ext (S n) _ (fun i => INR (S i) * nth (S i) c 0 * x ^ i)) by (intros; simpl pred; ring).
    cbn [bsum]. cbv [nmul nofZ RNum RNum_at]. rewrite <- INR_IZR_INZ. simpl (INR 0). ring.
Qed.

Lemma nth_map_seq0 {A} (g : nat -> A) n i d : (i < n)%nat -> nth i (map g (seq 0 n)) d = g i.
Proof.
  intros H. rewrite (nth_indep _ d (g 0%nat)) by (rewrite map_length, seq_length; lia).
  rewrite map_nth, seq_nth by lia. reflexivity.
Qed.
Lemma horner_seq n (g : nat -> R) x : (0 < n)%nat -> horner (map g (seq 0 n)) x = Ok (pvf n g x).
Proof.
  intros H. rewrite horner_ok by (destruct n; [lia|discriminate]).
  rewrite map_length, seq_length. f_equal. apply pvf_ext. intros i Hi. now apply nth_map_seq0.
Qed.
Lemma horner_deriv_seq n (g : nat -> R) x : (0 < n)%nat ->
  horner_derivative (map g (seq 0 n)) x = Ok (dvf n g x).
Proof.
  intros H. rewrite horner_deriv_ok by (destruct n; [lia|discriminate]).
  rewrite map_length, seq_length. f_equal. apply dvf_ext. intros i Hi. now apply nth_map_seq0.
Qed.

(** *** Coordinate maps *)
Lemma to_unit_closed lo hi x : lo < hi -> to_unit (Closed lo hi) x = segment_unit lo hi x.
Proof.
  intros H. unfold to_unit, segment_unit, nlit. cbv [nadd nsub nmul ndiv nofZ RNum RNum_at].
  field. lra.
Qed.
Lemma to_unit_opened lo x : to_unit (Opened lo) x = halfline_unit lo x.
Proof. unfold to_unit, halfline_unit, Rdiv. cbv [nadd nsub nmul ndiv nofZ RNum RNum_at]. unfold Rdiv. ring. Qed.
Lemma axis_deriv a x : regular a x -> derivable_pt_lim (to_unit a) x (coef_deriv a x).
Proof.
  destruct a as [lo hi|lo]; unfold regular; intros H; apply is_derive_Reals;
    unfold to_unit, coef_deriv, nlit; cbv [nadd nsub nmul ndiv nofZ RNum RNum_at].
  - auto_derive; [trivial|field; lra].
  - auto_derive; [exact H|field; exact H].
Qed.

(** *** Rows *)
Lemma mrow_ok {A} bm (M : mat A) i : (i < m_rows M)%nat ->
  mrow bm M i = Ok (map (m_at M i) (seq 0 (m_cols M))).
Proof. intros H. unfold mrow, eigen_check. apply Nat.ltb_lt in H. rewrite H. reflexivity. Qed.
Lemma mcoef_ok {A} bm (M : mat A) i j : (i < m_rows M)%nat -> (j < m_cols M)%nat ->
  mcoef bm M i j = Ok (m_at M i j).
Proof.
  intros H1 H2. unfold mcoef, eigen_check. apply Nat.ltb_lt in H1, H2. rewrite H1, H2. reflexivity.
Qed.
Lemma partial_sums_h bm (M : mat R) n y : (n <= m_rows M)%nat -> (0 < m_cols M)%nat ->
  partial_sums bm horner M n y = Ok (map (fun i => pvf (m_cols M) (m_at M i) y) (seq 0 n)).
Proof.
  intros H1 H2. unfold partial_sums. apply mapM_ok_map. intros i Hi. apply in_seq in Hi.
  rewrite mrow_ok by lia. cbn [bind]. now apply horner_seq.
Qed.
Lemma partial_sums_d bm (M : mat R) n y : (n <= m_rows M)%nat -> (0 < m_cols M)%nat ->
  partial_sums bm horner_derivative M n y = Ok (map (fun i => dvf (m_cols M) (m_at M i) y) (seq 0 n)).
Proof.
  intros H1 H2. unfold partial_sums. apply mapM_ok_map. intros i Hi. apply in_seq in Hi.
  rewrite mrow_ok by lia. cbn [bind]. now apply horner_deriv_seq.
Qed.
Lemma partial_pairs bm (M : mat R) n y : (n <= m_rows M)%nat -> (0 < m_cols M)%nat ->
  mapM (fun i => let* pj := mrow bm M i in let* a := horner pj y in
                 let* b := horner_derivative pj y in Ok (a, b)) (seq 0 n)
  = Ok (map (fun i => (pvf (m_cols M) (m_at M i) y, dvf (m_cols M) (m_at M i) y)) (seq 0 n)).
Proof.
  intros H1 H2. apply mapM_ok_map. intros i Hi. apply in_seq in Hi.
  rewrite mrow_ok by lia. cbn [bind]. rewrite horner_seq by lia. cbn [bind].
  rewrite horner_deriv_seq by lia. reflexivity.
Qed.

(** *** 1D *)
Lemma ps1_lemma b a (u : R -> R) (D : R -> Prop) : b <> [] ->
  (forall x, D x -> regular a x /\ to_unit a x = u x) ->
  power_series1 (length b) (fun i => nth i b 0) u D
    (ps1_evaluate (mkPS1 b a)) (ps1_derivative_x (mkPS1 b a)).
Proof.
  intros Hb H.
  exists (fun x => pvf (length b) (fun i => nth i b 0) (to_unit a x)),
    (fun x => coef_deriv a x * dvf (length b) (fun i => nth i b 0) (to_unit a x)).
  split; [|split; [|split]].
  - intros x Hx. unfold ps1_evaluate. cbn. now apply horner_ok.
  - intros x Hx. unfold ps1_derivative_x. cbn [p1_b p1_x]. rewrite horner_deriv_ok by assumption. reflexivity.
  - intros x Hx. destruct (H x Hx) as [_ E]. rewrite E. reflexivity.
  - intros x Hx. apply pvf_deriv_comp, axis_deriv. now apply H.
Qed.

(** *** 2D *)
Definition val2 m n (b : nat -> nat -> R) u v := pvf m (fun i => pvf n (b i) v) u.
Definition dx2 m n (b : nat -> nat -> R) u v := dvf m (fun i => pvf n (b i) v) u.
Definition dy2 m n (b : nat -> nat -> R) u v := pvf m (fun i => dvf n (b i) v) u.

Lemma val2_sum m n b u v :
  val2 m n b u v = bsum m (fun i => bsum n (fun j => b i j * u ^ i * v ^ j)).
Proof.
  unfold val2, pvf. apply bsum_ext. intros i _. rewrite <- bsum_scal_r. apply bsum_ext. intros. ring.
Qed.
Lemma val2_dx m n b a x v : regular a x ->
  derivable_pt_lim (fun t => val2 m n b (to_unit a t) v) x (coef_deriv a x * dx2 m n b (to_unit a x) v).
Proof. intros H. unfold val2, dx2. apply pvf_deriv_comp, axis_deriv, H. Qed.
Lemma val2_dy m n b a y u : regular a y ->
  derivable_pt_lim (fun t => val2 m n b u (to_unit a t)) y (coef_deriv a y * dy2 m n b u (to_unit a y)).
Proof.
  intros H. unfold val2, dy2. rewrite <- pvf_scal.
  apply (pvf_deriv_coef m (fun i t => pvf n (b i) (to_unit a t))).
  intros i _. apply pvf_deriv_comp, axis_deriv, H.
Qed.

Lemma unit2_ok bm (M : mat R) n u v : (n <= m_rows M)%nat -> (0 < n)%nat -> (0 < m_cols M)%nat ->
  unit2 bm M n u v = Ok (val2 n (m_cols M) (m_at M) u v).
Proof.
  intros H1 H2 H3. unfold unit2. rewrite partial_sums_h by assumption. cbn [bind].
  now rewrite horner_seq.
Qed.

Lemma ps2_lemma bm b ax ay (u v : R -> R) (Dx Dy : R -> Prop) :
  (0 < m_rows b)%nat -> (0 < m_cols b)%nat ->
  (forall x, Dx x -> regular ax x /\ to_unit ax x = u x) ->
  (forall y, Dy y -> regular ay y /\ to_unit ay y = v y) ->
  power_series2 (m_rows b) (m_cols b) (m_at b) u v Dx Dy
    (ps2_evaluate bm (mkPS2 b ax ay)) (ps2_derivative_x bm (mkPS2 b ax ay)) (ps2_derivative_y bm (mkPS2 b ax ay)).
Proof.
  intros Hr Hc Hx Hy. set (m := m_rows b) in *. set (n := m_cols b) in *.
  exists (fun x y => val2 m n (m_at b) (to_unit ax x) (to_unit ay y)),
    (fun x y => coef_deriv ax x * dx2 m n (m_at b) (to_unit ax x) (to_unit ay y)),
    (fun x y => coef_deriv ay y * dy2 m n (m_at b) (to_unit ax x) (to_unit ay y)).
  repeat split.
  - intros x y _ _. unfold ps2_evaluate. cbn [p2_b p2_x p2_y]. apply unit2_ok; auto with arith.
  - intros x y _ _. unfold ps2_derivative_x. cbn [p2_b p2_x p2_y].
    rewrite partial_sums_h by auto with arith. cbn [bind]. rewrite horner_deriv_seq by assumption. reflexivity.
  - intros x y _ _. unfold ps2_derivative_y. cbn [p2_b p2_x p2_y].
    rewrite partial_sums_d by auto with arith. cbn [bind]. rewrite horner_seq by assumption. reflexivity.
  - intros x y Px Py. destruct (Hx x Px) as [_ ->]. destruct (Hy y Py) as [_ ->]. apply val2_sum.
  - intros y _ x Px. apply val2_dx. now apply Hx.
  - intros x _ y Py. apply val2_dy. now apply Hy.
Qed.

(** *** 3D *)
Section Three.
Variables (b : list (mat R)) (m n : nat).
Hypothesis Hb : shaped b m n.
Let p := length b.
Let B k i j := coef3 b i j k.
Definition mat0 : mat R := mkMat 0 0 (fun _ _ => 0).
Lemma shaped_nth k : (k < p)%nat -> vat b k = Ok (nth k b mat0) /\
  m_rows (nth k b mat0) = m /\ m_cols (nth k b mat0) = n.
Proof.
  intros H. destruct Hb as (_ & _ & _ & F). split; [now apply vat_lt|].
  rewrite Forall_forall in F. apply F. now apply nth_In.
Qed.
Lemma shaped_p : (0 < p)%nat.
Proof. destruct Hb as (_ & _ & N & _). unfold p. destruct b; [congruence|simpl; lia]. Qed.

Lemma sums3 bm ax ay az (hx hy : list R -> R -> outcome R) (gx gy : nat -> (nat -> R) -> R -> R) u v :
  (forall N g x, (0 < N)%nat -> hx (map g (seq 0 N)) x = Ok (gx N g x)) ->
  (forall N g x, (0 < N)%nat -> hy (map g (seq 0 N)) x = Ok (gy N g x)) ->
  partial_sums3 bm hx hy (mkPS3 b m n ax ay az) u v =
  Ok (map (fun k => gx m (fun i => gy n (B k i) v) u) (seq 0 p)).
Proof.
  intros Hx Hy. destruct Hb as (Hm & Hn & _ & _). unfold partial_sums3. cbn [p3_b p3_nx].
  apply mapM_ok_map. intros k Hk. apply in_seq in Hk. fold p in Hk.
  destruct (shaped_nth k) as (E & R1 & R2); [lia|]. rewrite E. cbn [bind].
  unfold partial_sums.
  rewrite (mapM_ok_map _ (fun i => gy n (B k i) v)).
  - cbn [bind]. now apply Hx.
  - intros i Hi. apply in_seq in Hi. rewrite mrow_ok by lia. cbn [bind]. rewrite R2. now apply Hy.
Qed.

Definition val3 u v w := pvf p (fun k => val2 m n (B k) u v) w.
Definition dx3 u v w := pvf p (fun k => dx2 m n (B k) u v) w.
Definition dy3 u v w := pvf p (fun k => dy2 m n (B k) u v) w.
Definition dz3 u v w := dvf p (fun k => val2 m n (B k) u v) w.

Lemma val3_sum u v w :
  val3 u v w = bsum m (fun i => bsum n (fun j => bsum p (fun k => coef3 b i j k * u ^ i * v ^ j * w ^ k))).
Proof.
  unfold val3, pvf at 1.
  rewrite (bsum_ext p _ (fun k => bsum m (fun i => bsum n (fun j => coef3 b i j k * u ^ i * v ^ j * w ^ k)))).
  - rewrite bsum_swap. apply bsum_ext. intros i _. apply bsum_swap.
  - intros k _. rewrite val2_sum, <- bsum_scal_r. apply bsum_ext. intros i _.
    rewrite <- bsum_scal_r. reflexivity.
Qed.

Variables (ax ay az : axis R).
Let s := mkPS3 b m n ax ay az.

Lemma ps3_eval_unit bm u v w : ps3_evaluate_unit bm s u v w = Ok (val3 u v w).
Proof.
  unfold ps3_evaluate_unit, s. rewrite (sums3 bm ax ay az horner horner pvf pvf) by apply horner_seq.
  cbn [bind]. rewrite horner_seq by apply shaped_p. reflexivity.
Qed.
Lemma ps3_dx_unit bm x u v w : ps3_derivative_x_unit bm s x u v w = Ok (coef_deriv ax x * dx3 u v w).
Proof.
  unfold ps3_derivative_x_unit, s.
  rewrite (sums3 bm ax ay az horner_derivative horner dvf pvf) by (apply horner_seq || apply horner_deriv_seq).
  cbn [bind]. rewrite horner_seq by apply shaped_p. reflexivity.
Qed.
Lemma ps3_dy_unit bm y u v w : ps3_derivative_y_unit bm s y u v w = Ok (coef_deriv ay y * dy3 u v w).
Proof.
  unfold ps3_derivative_y_unit, s.
  rewrite (sums3 bm ax ay az horner horner_derivative pvf dvf) by (apply horner_seq || apply horner_deriv_seq).
  cbn [bind]. rewrite horner_seq by apply shaped_p. reflexivity.
Qed.
Lemma ps3_dz_unit bm z u v w : ps3_derivative_z_unit bm s z u v w = Ok (coef_deriv az z * dz3 u v w).
Proof.
  unfold ps3_derivative_z_unit, s. rewrite (sums3 bm ax ay az horner horner pvf pvf) by apply horner_seq.
  cbn [bind]. rewrite horner_deriv_seq by apply shaped_p. reflexivity.
Qed.
Lemma ps3_fdd_unit bm x y u v w :
  ps3_f_dfdx_dfdy_unit bm s x y u v w =
  Ok (val3 u v w, coef_deriv ax x * dx3 u v w, coef_deriv ay y * dy3 u v w).
Proof.
  destruct Hb as (Hm & Hn & _ & _).
  unfold ps3_f_dfdx_dfdy_unit, s. cbn [p3_b p3_nx p3_x p3_y]. fold p.
  rewrite (mapM_ok_map _ (fun k => (val2 m n (B k) u v, dx2 m n (B k) u v, dy2 m n (B k) u v))).
  - cbn [bind]. rewrite !map_map. cbn [fst snd].
    rewrite !horner_seq by apply shaped_p. reflexivity.
  - intros k Hk. apply in_seq in Hk. destruct (shaped_nth k) as (E & R1 & R2); [lia|].
    rewrite E. cbn [bind]. rewrite partial_pairs by lia. cbn [bind]. rewrite !map_map. cbn [fst snd].
    rewrite R2. rewrite horner_seq by assumption. cbn [bind]. rewrite horner_deriv_seq by assumption.
    cbn [bind]. rewrite horner_seq by assumption. reflexivity.
Qed.

(** Coefficients at a fixed z. *)
Lemma ps3_cij_unit bm w : exists c, ps3_compute_cij_unit bm s w = Ok c /\ m_rows c = m /\ m_cols c = n /\
  forall i j, (i < m)%nat -> (j < n)%nat -> m_at c i j = pvf p (fun k => B k i j) w.
Proof.
  destruct Hb as (Hm & Hn & _ & _).
  unfold ps3_compute_cij_unit, s. cbn [p3_b p3_nx p3_ny]. fold p.
  rewrite (mapM_ok_map _ (fun i => map (fun j => pvf p (fun k => B k i j) w) (seq 0 n))).
  - cbn [bind]. eexists. split; [reflexivity|]. cbn [m_rows m_cols m_at]. repeat split.
    intros i j Hi Hj. rewrite nth_map_seq0 by assumption. now rewrite nth_map_seq0.
  - intros i Hi. apply in_seq in Hi. apply mapM_ok_map. intros j Hj. apply in_seq in Hj.
    rewrite (mapM_ok_map _ (fun k => B k i j)).
    + cbn [bind]. apply horner_seq, shaped_p.
    + intros k Hk. apply in_seq in Hk. destruct (shaped_nth k) as (E & R1 & R2); [lia|].
      rewrite E. cbn [bind]. rewrite mcoef_ok by lia. reflexivity.
Qed.
Lemma val2_ext c v : (forall i j, (i < m)%nat -> (j < n)%nat -> c i j = pvf p (fun k => B k i j) v) ->
  forall U V, val2 m n c U V = val2 m n (fun i j => pvf p (fun k => B k i j) v) U V /\
              dx2 m n c U V = dx2 m n (fun i j => pvf p (fun k => B k i j) v) U V /\
              dy2 m n c U V = dy2 m n (fun i j => pvf p (fun k => B k i j) v) U V.
Proof.
  intros H U V. unfold val2, dx2, dy2. repeat split.
  - apply pvf_ext. intros i Hi. apply pvf_ext. auto.
  - apply dvf_ext. intros i Hi. apply pvf_ext. auto.
  - apply pvf_ext. intros i Hi. apply dvf_ext. auto.
Qed.
(** Exchanging the sum over k with a combination of coefficients. *)
Lemma exch (P Q : nat -> R) w :
  bsum m (fun i => bsum n (fun j => pvf p (fun k => B k i j) w * P j) * Q i) =
  pvf p (fun k => bsum m (fun i => bsum n (fun j => B k i j * P j) * Q i)) w.
Proof.
  unfold pvf.
  rewrite (bsum_ext m _ (fun i => bsum p (fun k => bsum n (fun j => B k i j * P j) * Q i * w ^ k))).
  - rewrite bsum_swap. apply bsum_ext. intros k _. now rewrite bsum_scal_r.
  - intros i _.
    rewrite (bsum_ext n _ (fun j => bsum p (fun k => B k i j * P j * w ^ k))).
    + rewrite bsum_swap, <- bsum_scal_r. apply bsum_ext. intros k _. rewrite bsum_scal_r. ring.
    + intros j _. rewrite <- bsum_scal_r. apply bsum_ext. intros k _. ring.
Qed.
Lemma fixed_z w U V :
  val2 m n (fun i j => pvf p (fun k => B k i j) w) U V = val3 U V w /\
  dx2 m n (fun i j => pvf p (fun k => B k i j) w) U V = dx3 U V w /\
  dy2 m n (fun i j => pvf p (fun k => B k i j) w) U V = dy3 U V w.
Proof.
  repeat split.
  - apply (exch (fun j => V ^ j) (fun i => U ^ i)).
  - apply (exch (fun j => V ^ j) (fun i => INR i * U ^ pred i)).
  - apply (exch (fun j => INR j * V ^ pred j) (fun i => U ^ i)).
Qed.
Lemma predefined_lemma bm w : exists c, ps3_compute_cij_unit bm s w = Ok c /\
  forall x y,
    ps3_evaluate_z_predefined bm s x y c = Ok (val3 (to_unit ax x) (to_unit ay y) w) /\
    ps3_derivative_x_z_predefined bm s x y c = Ok (coef_deriv ax x * dx3 (to_unit ax x) (to_unit ay y) w) /\
    ps3_derivative_y_z_predefined bm s x y c = Ok (coef_deriv ay x * dy3 (to_unit ax x) (to_unit ay y) w) /\
    ps3_f_dfdx_dfdy_z_predefined bm s x y c =
      Ok (val3 (to_unit ax x) (to_unit ay y) w,
          coef_deriv ax x * dx3 (to_unit ax x) (to_unit ay y) w,
          coef_deriv ay y * dy3 (to_unit ax x) (to_unit ay y) w).
Proof.
  destruct Hb as (Hm & Hn & _ & _).
  destruct (ps3_cij_unit bm w) as (c & Hc & Hr & Hcc & Hat). exists c. split; [exact Hc|].
  intros x y. pose proof (val2_ext (m_at c) w Hat) as HE.
  set (U := to_unit ax x). set (V := to_unit ay y). destruct (HE U V) as (E1 & E2 & E3).
  destruct (fixed_z w U V) as (F1 & F2 & F3).
  rewrite <- F1, <- F2, <- F3, <- E1, <- E2, <- E3. clear E1 E2 E3 F1 F2 F3 HE.
  repeat split.
  - unfold ps3_evaluate_z_predefined, s. cbn [p3_nx p3_x p3_y]. fold U V.
    rewrite unit2_ok by lia. now rewrite Hcc.
  - unfold ps3_derivative_x_z_predefined, s. cbn [p3_nx p3_x p3_y]. fold U V.
    rewrite partial_sums_h by lia. cbn [bind]. rewrite horner_deriv_seq by assumption. rewrite Hcc. reflexivity.
  - unfold ps3_derivative_y_z_predefined, ps3_derivative_y_unit_zunit_predefined, s. cbn [p3_nx p3_x p3_y]. fold U V.
    rewrite partial_sums_d by lia. cbn [bind]. rewrite horner_seq by assumption. rewrite Hcc. reflexivity.
  - unfold ps3_f_dfdx_dfdy_z_predefined, s. cbn [p3_nx p3_x p3_y]. fold U V.
    rewrite partial_pairs by lia. cbn [bind]. rewrite !map_map. cbn [fst snd].
    rewrite horner_seq by assumption. cbn [bind]. rewrite horner_deriv_seq by assumption. cbn [bind].
    rewrite horner_seq by assumption. rewrite Hcc. reflexivity.
Qed.

Lemma ps3_lemma bm (u v w : R -> R) (Dx Dy Dz : R -> Prop) :
  (forall x, Dx x -> regular ax x /\ to_unit ax x = u x) ->
  (forall y, Dy y -> regular ay y /\ to_unit ay y = v y) ->
  (forall z, Dz z -> regular az z /\ to_unit az z = w z) ->
  power_series3 m n p (coef3 b) u v w Dx Dy Dz
    (ps3_evaluate bm s) (ps3_derivative_x bm s) (ps3_derivative_y bm s) (ps3_derivative_z bm s).
Proof.
  intros Hx Hy Hz.
  exists (fun x y z => val3 (to_unit ax x) (to_unit ay y) (to_unit az z)),
    (fun x y z => coef_deriv ax x * dx3 (to_unit ax x) (to_unit ay y) (to_unit az z)),
    (fun x y z => coef_deriv ay y * dy3 (to_unit ax x) (to_unit ay y) (to_unit az z)),
    (fun x y z => coef_deriv az z * dz3 (to_unit ax x) (to_unit ay y) (to_unit az z)).
  repeat split.
  - apply ps3_eval_unit.
  - apply ps3_dx_unit.
  - apply ps3_dy_unit.
  - apply ps3_dz_unit.
  - destruct (Hx x H) as [_ ->], (Hy y H0) as [_ ->], (Hz z H1) as [_ ->]. apply val3_sum.
  - intros y z _ _ x Px. unfold val3, dx3. rewrite <- pvf_scal.
    apply (pvf_deriv_coef p (fun k t => val2 m n (B k) (to_unit ax t) (to_unit ay y))).
    intros k _. apply val2_dx. now apply Hx.
  - intros x z _ _ y Py. unfold val3, dy3. rewrite <- pvf_scal.
    apply (pvf_deriv_coef p (fun k t => val2 m n (B k) (to_unit ax x) (to_unit ay t))).
    intros k _. apply val2_dy. now apply Hy.
  - intros x y _ _ z Pz. unfold val3, dz3. apply pvf_deriv_comp, axis_deriv. now apply Hz.
Qed.
End Three.

Lemma regular_closed lo hi x : lo < hi -> regular (Closed lo hi) x /\ to_unit (Closed lo hi) x = segment_unit lo hi x.
Proof. intros H. split; [exact H|now apply to_unit_closed]. Qed.
Lemma regular_opened lo x : nonzero x -> regular (Opened lo) x /\ to_unit (Opened lo) x = halfline_unit lo x.
Proof. intros H. split; [exact H|apply to_unit_opened]. Qed.

Lemma ps3_make_inv b ax ay az s m n : shaped b m n -> ps3_make b ax ay az = Ok s -> s = mkPS3 b m n ax ay az.
Proof.
  intros (_ & _ & Hn & F) H. unfold ps3_make in H. destruct b as [|b0 b]; [congruence|].
  cbn [vat nth_error bind] in H. inversion_clear F. destruct H0 as [<- <-]. injection H as <-. reflexivity.
Qed.

Lemma ps3_make_ok b ax ay az m n : shaped b m n -> ps3_make b ax ay az = Ok (mkPS3 b m n ax ay az).
Proof.
  intros Hs. destruct (ps3_make b ax ay az) eqn:E;
    [now apply (ps3_make_inv _ _ _ _ _ m n Hs) in E as ->|..];
    (destruct Hs as (_ & _ & N & _); destruct b; [congruence|discriminate]).
Qed.

(** Limit at infinity of a polynomial of the half-line coordinate. *)
Lemma pvf_limit n g lo : tends_to_at_infinity (fun z => pvf n g (halfline_unit lo z)) (pvf n g 1).
Proof.
  intros eps Heps.
  assert (C : continuity_pt (pvf n g) 1).
  { apply derivable_continuous_pt. exists (dvf n g 1). apply pvf_deriv. }
  destruct (C eps Heps) as (d & Hd & Hc).
  exists (2 * Rabs lo / d + 1). intros z Hz.
  assert (P : 0 <= 2 * Rabs lo / d).
  { apply Rmult_le_pos; [pose proof (Rabs_pos lo); lra|]. left. apply Rinv_0_lt_compat. lra. }
  assert (Hz0 : 0 < z) by lra.
  destruct (Req_dec (halfline_unit lo z) 1) as [E|E].
  - rewrite E, Rminus_diag_eq, Rabs_R0 by reflexivity. exact Heps.
  - apply (Hc (halfline_unit lo z)). split; [split; [exact I|auto]|].
    cbn. unfold R_dist, halfline_unit.
    replace (1 - 2 * lo / z - 1) with (- (2 * lo / z)) by ring.
    rewrite Rabs_Ropp. unfold Rdiv. rewrite !Rabs_mult, Rabs_inv, (Rabs_right 2), (Rabs_right z) by lra.
    apply (Rmult_lt_reg_r z); [exact Hz0|]. rewrite Rmult_assoc, Rinv_l, Rmult_1_r by lra.
    apply (Rmult_lt_reg_r (/ d)); [apply Rinv_0_lt_compat; lra|].
    replace (d * z * / d) with z by (field; lra). unfold Rdiv in Hz. lra.
Qed.

(** *** Statements used by the property file *)
Lemma horner_derivative_lemma c : c <> [] ->
  exists f d : R -> R, (forall x, horner c x = Ok (f x)) /\ (forall x, horner_derivative c x = Ok (d x)) /\
    derivative_on everywhere f d.
Proof.
  intros H. exists (pvf (length c) (fun i => nth i c 0)), (dvf (length c) (fun i => nth i c 0)).
  split; [|split]; intros x; [now apply horner_ok|now apply horner_deriv_ok|]. intros _. apply pvf_deriv.
Qed.

Lemma ps1_closed_lemma b lo hi : b <> [] -> lo < hi ->
  power_series1 (length b) (fun i => nth i b 0) (segment_unit lo hi) everywhere
    (ps1_evaluate (ps1_closed b lo hi)) (ps1_derivative_x (ps1_closed b lo hi)).
Proof. intros. apply ps1_lemma; auto. intros. now apply regular_closed. Qed.
Lemma ps1_opened_lemma b lo : b <> [] ->
  power_series1 (length b) (fun i => nth i b 0) (halfline_unit lo) nonzero
    (ps1_evaluate (ps1_opened b lo)) (ps1_derivative_x (ps1_opened b lo)).
Proof. intros. apply ps1_lemma; auto. intros. now apply regular_opened. Qed.

Lemma unit_closed_lemma lo hi : lo < hi ->
  segment_unit lo hi lo = -1 /\ segment_unit lo hi hi = 1 /\
  (forall x, lo <= x <= hi <-> -1 <= segment_unit lo hi x <= 1).
Proof.
  intros H. unfold segment_unit. split; [field; lra|split; [field; lra|]]. intros x.
  set (q := (2 * x - (lo + hi)) / (hi - lo)).
  assert (E : q * (hi - lo) = 2 * x - (lo + hi)) by (unfold q; field; lra).
  assert (P : 0 < hi - lo) by lra.
  split; intros [A B]; split; nra.
Qed.
Lemma unit_opened_lemma lo : 0 < lo ->
  halfline_unit lo lo = -1 /\ tends_to_at_infinity (halfline_unit lo) 1 /\
  (forall x, lo <= x -> -1 <= halfline_unit lo x < 1).
Proof.
  intros H. split; [unfold halfline_unit; field; lra|split].
  - intros eps He. destruct (pvf_limit 2 (fun i => INR i) lo eps He) as [M HM]. exists M. intros z Hz.
    specialize (HM z Hz). unfold pvf in HM. cbn in HM.
    match type of HM with Rabs ?a < _ => replace a with (halfline_unit lo z - 1) in HM by ring end. exact HM.
  - intros x Hx. unfold halfline_unit.
    assert (E : lo / x * x = lo) by (field; lra).
    assert (0 < lo / x) by (apply Rmult_lt_0_compat; [lra|apply Rinv_0_lt_compat; lra]).
    assert (lo / x <= 1) by (apply (Rmult_le_reg_r x); lra).
    unfold Rdiv in *. split; lra.
Qed.

Ltac regs := intros; first [now apply regular_closed | now apply regular_opened].

Lemma ps2_closed_lemma bm b xlo xhi ylo yhi :
  (0 < m_rows b)%nat -> (0 < m_cols b)%nat -> xlo < xhi -> ylo < yhi ->
  let s := ps2_closed b xlo xhi ylo yhi in
  power_series2 (m_rows b) (m_cols b) (m_at b) (segment_unit xlo xhi) (segment_unit ylo yhi) everywhere everywhere
    (ps2_evaluate bm s) (ps2_derivative_x bm s) (ps2_derivative_y bm s).
Proof. intros. apply ps2_lemma; auto; regs. Qed.
Lemma ps2_opened_lemma bm b xlo ylo :
  (0 < m_rows b)%nat -> (0 < m_cols b)%nat ->
  let s := ps2_opened b xlo ylo in
  power_series2 (m_rows b) (m_cols b) (m_at b) (halfline_unit xlo) (halfline_unit ylo) nonzero nonzero
    (ps2_evaluate bm s) (ps2_derivative_x bm s) (ps2_derivative_y bm s).
Proof. intros. apply ps2_lemma; auto; regs. Qed.
Lemma ps2_mixed_lemma bm b xlo xhi ylo :
  (0 < m_rows b)%nat -> (0 < m_cols b)%nat -> xlo < xhi ->
  let s := ps2_mixed b xlo xhi ylo in
  power_series2 (m_rows b) (m_cols b) (m_at b) (segment_unit xlo xhi) (halfline_unit ylo) everywhere nonzero
    (ps2_evaluate bm s) (ps2_derivative_x bm s) (ps2_derivative_y bm s).
Proof. intros. apply ps2_lemma; auto; regs. Qed.

Lemma ps3_closed_lemma bm b m n xlo xhi ylo yhi zlo zhi :
  shaped b m n -> xlo < xhi -> ylo < yhi -> zlo < zhi ->
  exists s, ps3_closed b xlo xhi ylo yhi zlo zhi = Ok s /\
  power_series3 m n (length b) (coef3 b)
    (segment_unit xlo xhi) (segment_unit ylo yhi) (segment_unit zlo zhi) everywhere everywhere everywhere
    (ps3_evaluate bm s) (ps3_derivative_x bm s) (ps3_derivative_y bm s) (ps3_derivative_z bm s).
Proof.
  intros Hs Hx Hy Hz. eexists. split; [apply ps3_make_ok; exact Hs|].
  apply ps3_lemma; auto; regs.
Qed.
Lemma ps3_yz_opened_lemma bm b m n xlo xhi ylo zlo :
  shaped b m n -> xlo < xhi ->
  exists s, ps3_yz_opened b xlo xhi ylo zlo = Ok s /\
  power_series3 m n (length b) (coef3 b)
    (segment_unit xlo xhi) (halfline_unit ylo) (halfline_unit zlo) everywhere nonzero nonzero
    (ps3_evaluate bm s) (ps3_derivative_x bm s) (ps3_derivative_y bm s) (ps3_derivative_z bm s).
Proof.
  intros Hs Hx. eexists. split; [apply ps3_make_ok; exact Hs|].
  apply ps3_lemma; auto; regs.
Qed.
Lemma ps3_z_opened_lemma bm b m n xlo xhi ylo yhi zlo :
  shaped b m n -> xlo < xhi -> ylo < yhi ->
  exists s, ps3_z_opened b xlo xhi ylo yhi zlo = Ok s /\
  power_series3 m n (length b) (coef3 b)
    (segment_unit xlo xhi) (segment_unit ylo yhi) (halfline_unit zlo) everywhere everywhere nonzero
    (ps3_evaluate bm s) (ps3_derivative_x bm s) (ps3_derivative_y bm s) (ps3_derivative_z bm s).
Proof.
  intros Hs Hx Hy. eexists. split; [apply ps3_make_ok; exact Hs|].
  apply ps3_lemma; auto; regs.
Qed.

(** Fixing z first. *)
Lemma fixed_z_lemma bm b m n ax ay az s x y z :
  shaped b m n -> ps3_make b ax ay az = Ok s -> regular ax x -> regular ay y -> regular az z ->
  exists c f dx dy, ps3_compute_cij bm s z = Ok c /\
    ps3_evaluate bm s x y z = Ok f /\ ps3_derivative_x bm s x y z = Ok dx /\ ps3_derivative_y bm s x y z = Ok dy /\
    ps3_evaluate_z_predefined bm s x y c = Ok f /\
    ps3_derivative_x_z_predefined bm s x y c = Ok dx /\
    ps3_f_dfdx_dfdy bm s x y z = Ok (f, dx, dy) /\
    ps3_f_dfdx_dfdy_z_predefined bm s x y c = Ok (f, dx, dy).
Proof.
  intros Hs Hk _ _ _. apply (ps3_make_inv _ _ _ _ _ m n Hs) in Hk as ->.
  destruct (predefined_lemma b m n Hs ax ay az bm (to_unit az z)) as (c & Hc & HP).
  destruct (HP x y) as (P1 & P2 & _ & P4).
  exists c, (val3 b m n (to_unit ax x) (to_unit ay y) (to_unit az z)),
    (coef_deriv ax x * dx3 b m n (to_unit ax x) (to_unit ay y) (to_unit az z)),
    (coef_deriv ay y * dy3 b m n (to_unit ax x) (to_unit ay y) (to_unit az z)).
  repeat split; auto.
  - now apply ps3_eval_unit.
  - now apply ps3_dx_unit.
  - now apply ps3_dy_unit.
  - now apply ps3_fdd_unit.
Qed.
Lemma fixed_z_inf_lemma bm b m n ax ay az s x y :
  shaped b m n -> ps3_make b ax ay az = Ok s -> regular ax x -> regular ay y ->
  exists c f dx dy, ps3_compute_cij_zinf bm s = Ok c /\
    ps3_evaluate_zinf bm s x y = Ok f /\ ps3_derivative_x_zinf bm s x y = Ok dx /\ ps3_derivative_y_zinf bm s x y = Ok dy /\
    ps3_evaluate_z_predefined bm s x y c = Ok f /\
    ps3_derivative_x_z_predefined bm s x y c = Ok dx /\
    ps3_f_dfdx_dfdy_z_predefined bm s x y c = Ok (f, dx, dy).
Proof.
  intros Hs Hk _ _. apply (ps3_make_inv _ _ _ _ _ m n Hs) in Hk as ->.
  destruct (predefined_lemma b m n Hs ax ay az bm 1) as (c & Hc & HP).
  destruct (HP x y) as (P1 & P2 & _ & P4).
  exists c, (val3 b m n (to_unit ax x) (to_unit ay y) 1),
    (coef_deriv ax x * dx3 b m n (to_unit ax x) (to_unit ay y) 1),
    (coef_deriv ay y * dy3 b m n (to_unit ax x) (to_unit ay y) 1).
  repeat split; auto.
  - now apply ps3_eval_unit.
  - now apply ps3_dx_unit.
  - now apply ps3_dy_unit.
Qed.

(** The y-derivative at a fixed z. *)
Lemma dy_predefined_closed bm b m n ax ylo yhi az s x y z :
  shaped b m n -> ps3_make b ax (Closed ylo yhi) az = Ok s ->
  exists c, ps3_compute_cij bm s z = Ok c /\
    exists d, ps3_derivative_y bm s x y z = Ok d /\ ps3_derivative_y_z_predefined bm s x y c = Ok d.
Proof.
  intros Hs Hk. apply (ps3_make_inv _ _ _ _ _ m n Hs) in Hk as ->.
  destruct (predefined_lemma b m n Hs ax (Closed ylo yhi) az bm (to_unit az z)) as (c & Hc & HP).
  destruct (HP x y) as (_ & _ & P3 & _). exists c. split; [exact Hc|].
  eexists. split; [now apply ps3_dy_unit|exact P3].
Qed.
Lemma dy_predefined_opened bm b m n ax ylo az s x y z :
  shaped b m n -> ps3_make b ax (Opened ylo) az = Ok s -> x <> 0 -> y <> 0 ->
  exists c, ps3_compute_cij bm s z = Ok c /\
    exists d e, ps3_derivative_y bm s x y z = Ok d /\ ps3_derivative_y_z_predefined bm s x y c = Ok e /\
      e = d * (y / x) ^ 2 /\ (e = d <-> x ^ 2 = y ^ 2 \/ d = 0).
Proof.
  intros Hs Hk Hx Hy. apply (ps3_make_inv _ _ _ _ _ m n Hs) in Hk as ->.
  destruct (predefined_lemma b m n Hs ax (Opened ylo) az bm (to_unit az z)) as (c & Hc & HP).
  destruct (HP x y) as (_ & _ & P3 & _). exists c. split; [exact Hc|].
  eexists _, _. split; [now apply ps3_dy_unit|]. split; [exact P3|].
  cbn [p3_x p3_y p3_z]. set (D := dy3 _ _ _ _ _ _).
  unfold coef_deriv. cbv [nadd nsub nmul ndiv nofZ RNum RNum_at].
  set (d := 2 * ylo / (y * y) * D). set (e := 2 * ylo / (x * x) * D).
  assert (E : e = d * (y / x) ^ 2) by (unfold d, e; field; auto).
  split; [exact E|]. rewrite E.
  assert (Q : (y / x) ^ 2 * x ^ 2 = y ^ 2) by (field; auto).
  assert (X2 : x ^ 2 <> 0) by (apply pow_nonzero; auto).
  split.
  - intros H. destruct (Req_dec d 0) as [?|Hd]; [now right|left].
    assert ((y / x) ^ 2 = 1) by (apply (Rmult_eq_reg_l d); lra). rewrite <- Q, H0. ring.
  - intros [H|H]; [|rewrite H; ring].
    assert ((y / x) ^ 2 = 1) by (apply (Rmult_eq_reg_r (x ^ 2)); lra). rewrite H0. ring.
Qed.

(** Infinite z. *)
Lemma zinf_lemma bm b m n ax ay zlo s x y :
  shaped b m n -> ps3_make b ax ay (Opened zlo) = Ok s -> regular ax x -> regular ay y ->
  exists f fx fy l lx ly,
    (forall z, z <> 0 -> ps3_evaluate bm s x y z = Ok (f z) /\
                         ps3_derivative_x bm s x y z = Ok (fx z) /\ ps3_derivative_y bm s x y z = Ok (fy z)) /\
    ps3_evaluate_zinf bm s x y = Ok l /\ ps3_derivative_x_zinf bm s x y = Ok lx /\
    ps3_derivative_y_zinf bm s x y = Ok ly /\
    tends_to_at_infinity f l /\ tends_to_at_infinity fx lx /\ tends_to_at_infinity fy ly.
Proof.
  intros Hs Hk _ _. apply (ps3_make_inv _ _ _ _ _ m n Hs) in Hk as ->.
  set (U := to_unit ax x). set (V := to_unit ay y).
  exists (fun z => val3 b m n U V (halfline_unit zlo z)),
    (fun z => coef_deriv ax x * dx3 b m n U V (halfline_unit zlo z)),
    (fun z => coef_deriv ay y * dy3 b m n U V (halfline_unit zlo z)),
    (val3 b m n U V 1), (coef_deriv ax x * dx3 b m n U V 1), (coef_deriv ay y * dy3 b m n U V 1).
  repeat split.
  - rewrite <- to_unit_opened. now apply ps3_eval_unit.
  - rewrite <- to_unit_opened. now apply ps3_dx_unit.
  - rewrite <- to_unit_opened. now apply ps3_dy_unit.
  - now apply ps3_eval_unit.
  - now apply ps3_dx_unit.
  - now apply ps3_dy_unit.
  - apply pvf_limit.
  - unfold dx3. intros eps He.
    destruct (pvf_limit (length b) (fun k => coef_deriv ax x * dx2 m n (fun i j => coef3 b i j k) U V) zlo eps He) as [M HM].
    exists M. intros z Hz. specialize (HM z Hz). rewrite !pvf_scal in HM. exact HM.
  - unfold dy3. intros eps He.
    destruct (pvf_limit (length b) (fun k => coef_deriv ay y * dy2 m n (fun i j => coef3 b i j k) U V) zlo eps He) as [M HM].
    exists M. intros z Hz. specialize (HM z Hz). rewrite !pvf_scal in HM. exact HM.
Qed.

Lemma dy_fixed_z_closed bm b m n xlo xhi ylo yhi zlo zhi s x y z :
  shaped b m n -> xlo < xhi -> ylo < yhi ->
  ps3_closed b xlo xhi ylo yhi zlo zhi = Ok s /\ zlo < zhi \/ ps3_z_opened b xlo xhi ylo yhi zlo = Ok s /\ z <> 0 ->
  exists c, ps3_compute_cij bm s z = Ok c /\
    exists d, ps3_derivative_y bm s x y z = Ok d /\ ps3_derivative_y_z_predefined bm s x y c = Ok d.
Proof. intros Hs _ _ [[H _]|[H _]]; eapply dy_predefined_closed; eauto. Qed.
Lemma dy_fixed_z_opened bm b m n xlo xhi ylo zlo s x y z :
  shaped b m n -> ps3_yz_opened b xlo xhi ylo zlo = Ok s -> xlo < xhi -> x <> 0 -> y <> 0 -> z <> 0 ->
  exists c, ps3_compute_cij bm s z = Ok c /\
    exists d e, ps3_derivative_y bm s x y z = Ok d /\ ps3_derivative_y_z_predefined bm s x y c = Ok e /\
      e = d * (y / x) ^ 2 /\ (e = d <-> x ^ 2 = y ^ 2 \/ d = 0).
Proof. intros Hs H _ Hx Hy _. eapply dy_predefined_opened; eauto. Qed.
Lemma dy_fixed_z_wrong :
  exists b xlo xhi ylo zlo s x y z c d e, shaped b 1 2 /\ ps3_yz_opened b xlo xhi ylo zlo = Ok s /\
    xlo <= x <= xhi /\ ylo <= y /\ zlo <= z /\
    ps3_compute_cij Debug s z = Ok c /\ ps3_derivative_y Debug s x y z = Ok d /\
    ps3_derivative_y_z_predefined Debug s x y c = Ok e /\ d <> e.
Proof.
  set (b := [mkMat 1 2 (fun _ j => INR j)]).
  assert (Hs : shaped b 1 2) by (unfold shaped, b; repeat split; auto; try discriminate; repeat constructor).
  destruct (dy_fixed_z_opened Debug b 1 2 0 4 1 1 _ 2 1 1 Hs (ps3_make_ok _ _ _ _ _ _ Hs)) as
    (c & Hc & d & e & Hd & He & _ & Hq); try lra.
  exists b, 0, 4, 1, 1. eexists. exists 2, 1, 1, c, d, e.
  split; [exact Hs|]. split; [apply ps3_make_ok, Hs|]. do 3 (split; [lra|]).
  do 3 (split; [assumption|]).
  assert (E : d = 2).
  { enough (Ok d = Ok 2) by congruence. rewrite <- Hd.
    unfold ps3_derivative_y. rewrite ps3_dy_unit by exact Hs. f_equal.
    cbn [p3_x p3_y p3_z]. unfold coef_deriv, dy3, dy2, pvf, dvf, coef3, b.
    cbv [nadd nsub nmul ndiv nofZ RNum RNum_at]. simpl. lra. }
  intros H. symmetry in H. apply Hq in H. destruct H; lra.
Qed.
Lemma zinf_is_limit bm b m n xlo xhi ylo yhi zlo s x y :
  shaped b m n ->
  ps3_yz_opened b xlo xhi ylo zlo = Ok s /\ xlo < xhi /\ y <> 0 \/
  ps3_z_opened b xlo xhi ylo yhi zlo = Ok s /\ xlo < xhi /\ ylo < yhi ->
  exists f fx fy l lx ly,
    (forall z, z <> 0 -> ps3_evaluate bm s x y z = Ok (f z) /\
                         ps3_derivative_x bm s x y z = Ok (fx z) /\ ps3_derivative_y bm s x y z = Ok (fy z)) /\
    ps3_evaluate_zinf bm s x y = Ok l /\ ps3_derivative_x_zinf bm s x y = Ok lx /\
    ps3_derivative_y_zinf bm s x y = Ok ly /\
    tends_to_at_infinity f l /\ tends_to_at_infinity fx lx /\ tends_to_at_infinity fy ly.
Proof.
  intros Hs [(H & H1 & H2)|(H & H1 & H2)];
  [apply (zinf_lemma bm b m n (Closed xlo xhi) (Opened ylo) zlo)
  |apply (zinf_lemma bm b m n (Closed xlo xhi) (Closed ylo yhi) zlo)]; auto.
Qed.
