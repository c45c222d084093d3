(** Lemmas on coefficient matrices of unequal shapes. *)
From Coq Require Import List Arith ZArith Reals Lia Lra.
From Verif Require Import Outcome Num NumFun M_Basics M_Series S_Series L_Series S_Shape M_Interp2d M_Vec.
Import ListNotations.
Local Open Scope R_scope.

Lemma mapM_app {A B} (f : A -> outcome B) l1 l2 : mapM f (l1 ++ l2) = let* a := mapM f l1 in let* b := mapM f l2 in Ok (a ++ b).
Proof.
  induction l1 as [|x l1 IH]; cbn [app mapM].
  - cbn [bind]. destruct (mapM f l2); reflexivity.
  - destruct (f x); cbn [bind]; [|reflexivity..]. rewrite IH. destruct (mapM f l1); cbn [bind]; [|reflexivity..]. destruct (mapM f l2); reflexivity.
Qed.
Lemma mapM_total {A B} (f : A -> outcome B) l : (forall x, In x l -> exists y, f x = Ok y) -> exists ys, mapM f l = Ok ys /\ length ys = length l.
Proof.
  induction l as [|x l IH]; intros H; [exists []; split; reflexivity|]. destruct (H x (or_introl eq_refl)) as [y Hy]. destruct IH as (ys & E & L); [intros z Hz; apply H; right; exact Hz|].
  exists (y :: ys). cbn [mapM]. rewrite Hy. cbn [bind]. rewrite E. split; [reflexivity|cbn; lia].
Qed.
Lemma oob_bind {A B} bm (k : A -> outcome B) : (let* x := out_of_bounds bm in k x) = out_of_bounds bm.
Proof. destruct bm; reflexivity. Qed.
Lemma mapM_oob {A B} (f : A -> outcome B) l1 x l2 bm : (forall z, In z l1 -> exists y, f z = Ok y) -> f x = out_of_bounds bm -> mapM f (l1 ++ x :: l2) = out_of_bounds bm.
Proof.
  intros H E. rewrite mapM_app. destruct (mapM_total f l1 H) as (ys & -> & _). cbn [bind mapM]. rewrite E, !oob_bind. reflexivity.
Qed.

Lemma mapM_either {A B} (f : A -> outcome B) l bm : (forall x, In x l -> (exists y, f x = Ok y) \/ f x = out_of_bounds bm) ->
  (exists ys, mapM f l = Ok ys /\ length ys = length l) \/ mapM f l = out_of_bounds bm.
Proof.
  induction l as [|x l IH]; intros H; [left; exists []; split; reflexivity|]. cbn [mapM]. destruct (H x (or_introl eq_refl)) as [[y Hy]|Hy]; rewrite Hy.
  - cbn [bind]. destruct IH as [(ys & -> & L)| ->]; [intros z Hz; apply H; right; exact Hz|left; exists (y :: ys); split; [reflexivity|cbn; lia]|right; apply oob_bind].
  - right. apply oob_bind.
Qed.
Lemma mapM_some_oob {A B} (f : A -> outcome B) l bm : (forall x, In x l -> (exists y, f x = Ok y) \/ f x = out_of_bounds bm) ->
  (exists x, In x l /\ f x = out_of_bounds bm) -> mapM f l = out_of_bounds bm.
Proof.
  induction l as [|x l IH]; intros H (z & Hz & E); [destruct Hz|]. cbn [mapM]. destruct (H x (or_introl eq_refl)) as [[y Hy]|Hy]; [|rewrite Hy; apply oob_bind].
  rewrite Hy. cbn [bind]. rewrite IH; [apply oob_bind|intros t Ht; apply H; right; exact Ht|].
  destruct Hz as [->|Hz]; [rewrite Hy in E; destruct bm; discriminate|exists z; auto].
Qed.

Section Any.
Context {T : Type} `{NT : Num T}.

Lemma vat_in (c : list T) k : (k < length c)%nat -> exists a, vat c k = Ok a.
Proof. intros H. unfold vat. destruct (nth_error c k) eqn:E; [eexists; reflexivity|]. apply nth_error_None in E. lia. Qed.
Lemma horner_any (c : list T) x : c <> [] -> exists v, horner c x = Ok v.
Proof.
  intros H. assert (L : (0 < length c)%nat) by (destruct c; [congruence|cbn; lia]). unfold horner. destruct (vat_in c (length c - 1) ltac:(lia)) as [a ->]. cbn [bind].
  assert (G : forall k r, (k <= length c)%nat -> exists v, horner_loop c x k r = Ok v).
  { induction k as [|k IH]; intros r Hk; [eexists; reflexivity|]. cbn [horner_loop]. destruct (vat_in c k ltac:(lia)) as [b ->]. cbn [bind]. apply IH. lia. }
  apply G. lia.
Qed.
Lemma horner_deriv_any (c : list T) x : c <> [] -> exists v, horner_derivative c x = Ok v.
Proof.
  intros H. assert (L : (0 < length c)%nat) by (destruct c; [congruence|cbn; lia]). unfold horner_derivative. destruct (vat_in c (length c - 1) ltac:(lia)) as [a ->]. cbn [bind].
  assert (G : forall k r, (k < length c)%nat -> exists v, horner_deriv_loop c x k r = Ok v).
  { induction k as [|k IH]; intros r Hk; [eexists; reflexivity|]. cbn [horner_deriv_loop]. destruct (vat_in c (S k) ltac:(lia)) as [b ->]. cbn [bind]. apply IH. lia. }
  apply G. lia.
Qed.
Definition total_h (h : list T -> T -> outcome T) : Prop := forall c x, c <> [] -> exists v, h c x = Ok v.

Lemma mrow_bad bm (A : mat T) i : (m_rows A <= i)%nat -> mrow bm A i = out_of_bounds bm.
Proof. intros H. unfold mrow, eigen_check. apply Nat.ltb_ge in H. rewrite H. destruct bm; reflexivity. Qed.
Lemma mrow_good bm (A : mat T) i : (i < m_rows A)%nat -> (0 < m_cols A)%nat -> exists r, mrow bm A i = Ok r /\ r <> [].
Proof.
  intros H K. rewrite mrow_ok by exact H. eexists. split; [reflexivity|]. destruct (m_cols A); [lia|discriminate].
Qed.
Lemma rows_split n m : (n < m)%nat -> seq 0 m = seq 0 n ++ n :: seq (S n) (m - S n).
Proof. intros H. replace m with (n + (1 + (m - S n)))%nat at 1 by lia. rewrite seq_app. reflexivity. Qed.
Lemma sums_short bm h (A : mat T) m y : total_h h -> (m_rows A < m)%nat -> (0 < m_cols A)%nat -> partial_sums bm h A m y = out_of_bounds bm.
Proof.
  intros Hh Hm Hc. unfold partial_sums. rewrite (rows_split (m_rows A) m Hm). apply mapM_oob.
  - intros i Hi. apply in_seq in Hi. destruct (mrow_good bm A i ltac:(lia) Hc) as (r & -> & N). cbn [bind]. apply Hh, N.
  - rewrite mrow_bad by lia. apply oob_bind.
Qed.
Lemma sums_tall bm h (A : mat T) m y : total_h h -> tall m A -> (0 < m)%nat -> exists q, partial_sums bm h A m y = Ok q /\ q <> [].
Proof.
  intros Hh [Hm Hc] Hp. destruct (mapM_total (fun i => let* pj := mrow bm A i in h pj y) (seq 0 m)) as (q & E & L).
  - intros i Hi. apply in_seq in Hi. destruct (mrow_good bm A i ltac:(lia) Hc) as (r & -> & N). cbn [bind]. apply Hh, N.
  - exists q. split; [exact E|]. rewrite seq_length in L. destruct q; [cbn in L; lia|discriminate].
Qed.

(** Every matrix has a column, some matrix has fewer rows than [m]. *)
Definition some_short (m : nat) (b : list (mat T)) : Prop := (0 < m)%nat /\ Forall (fun A => 0 < m_cols A)%nat b /\ Exists (fun A => m_rows A < m)%nat b.

Lemma short_mapM {B} bm (F : mat T -> outcome B) b m : some_short m b ->
  (forall C, tall m C -> exists v, F C = Ok v) -> (forall C, (m_rows C < m)%nat -> (0 < m_cols C)%nat -> F C = out_of_bounds bm) ->
  mapM (fun k => let* C := vat b k in F C) (seq 0 (length b)) = out_of_bounds bm.
Proof.
  intros (Hm & Hb & HE) HF HA. rewrite Forall_forall in Hb. apply Exists_exists in HE. destruct HE as (A & IA & RA). apply mapM_some_oob.
  - intros k Hk. apply in_seq in Hk. unfold vat. destruct (nth_error b k) as [C|] eqn:E; [|apply nth_error_None in E; lia]. cbn [bind].
    pose proof (Hb C (nth_error_In _ _ E)) as C2. destruct (Nat.lt_ge_cases (m_rows C) m) as [G|G]; [right; now apply HA|left; apply HF; now split].
  - destruct (In_nth_error _ _ IA) as (k & Ek). exists k. assert (k < length b)%nat by (apply nth_error_Some; congruence). split; [apply in_seq; lia|]. unfold vat. rewrite Ek. cbn [bind]. apply HA; auto.
Qed.
Lemma sums3_short bm hx hy b m n ax ay az u v : total_h hx -> total_h hy -> some_short m b ->
  partial_sums3 bm hx hy (mkPS3 b m n ax ay az) u v = out_of_bounds bm.
Proof.
  intros Hx Hy H. unfold partial_sums3. cbn [p3_b p3_nx].
  apply (short_mapM bm (fun C => let* qi := partial_sums bm hy C m v in hx qi u) b m H).
  - intros C HC. destruct (sums_tall bm hy C m v Hy HC (proj1 H)) as (q & -> & N). cbn [bind]. apply Hx, N.
  - intros C H1 H2. rewrite sums_short by assumption. apply oob_bind.
Qed.

Lemma short_matrix b m n ax ay az bm x y z : some_short m b ->
  let s := mkPS3 b m n ax ay az in
  ps3_evaluate bm s x y z = out_of_bounds bm /\ ps3_derivative_x bm s x y z = out_of_bounds bm /\ ps3_derivative_y bm s x y z = out_of_bounds bm /\
  ps3_derivative_z bm s x y z = out_of_bounds bm /\ ps3_f_dfdx_dfdy bm s x y z = out_of_bounds bm.
Proof.
  intros H s. assert (T1 : total_h horner) by exact horner_any. assert (T2 : total_h horner_derivative) by exact horner_deriv_any.
  unfold ps3_evaluate, ps3_derivative_x, ps3_derivative_y, ps3_derivative_z, ps3_f_dfdx_dfdy, ps3_evaluate_unit, ps3_derivative_x_unit, ps3_derivative_y_unit, ps3_derivative_z_unit, s.
  rewrite !sums3_short by assumption. rewrite !oob_bind. repeat (split; [reflexivity|]).
  unfold ps3_f_dfdx_dfdy_unit. cbn [p3_b p3_nx].
  match goal with |- bind (mapM (fun k => bind (vat ?b k) ?F) _) _ = _ => rewrite (short_mapM bm F b m H) end; [apply oob_bind|intros C [C1 C2]|intros A H1 H2].
  - destruct (mapM_total (fun i => let* pj := mrow bm C i in let* a := horner pj (to_unit ay y) in let* b := horner_derivative pj (to_unit ay y) in Ok (a, b)) (seq 0 m)) as (q & E & L).
    + intros i Hi. apply in_seq in Hi. destruct (mrow_good bm C i ltac:(lia) C2) as (r & -> & N). cbn [bind].
      destruct (horner_any r (to_unit ay y) N) as [a ->]. destruct (horner_deriv_any r (to_unit ay y) N) as [d ->]. eexists. reflexivity.
    + cbn [p3_x p3_y p3_z]. rewrite E. cbn [bind]. rewrite seq_length in L. destruct H as (Hm & _). assert (N : q <> []) by (destruct q; [cbn in L; lia|discriminate]).
      assert (N1 : map fst q <> []) by (destruct q; [congruence|discriminate]). assert (N2 : map snd q <> []) by (destruct q; [congruence|discriminate]).
      destruct (horner_any (map fst q) (to_unit ax x) N1) as [a ->]. destruct (horner_deriv_any (map fst q) (to_unit ax x) N1) as [d ->]. destruct (horner_any (map snd q) (to_unit ax x) N2) as [c ->].
      eexists. reflexivity.
  - rewrite (rows_split (m_rows A) m H1). rewrite (mapM_oob _ _ _ _ bm).
    + apply oob_bind.
    + intros i Hi. apply in_seq in Hi. destruct (mrow_good bm A i ltac:(lia) H2) as (r & -> & N). cbn [bind]. cbn [p3_x p3_y p3_z].
      destruct (horner_any r (to_unit ay y) N) as [a ->]. destruct (horner_deriv_any r (to_unit ay y) N) as [d ->]. eexists. reflexivity.
    + rewrite mrow_bad by lia. apply oob_bind.
Qed.

(** The precomputed matrix. *)
Lemma short_predefined (s : ps3 T) (c : mat T) bm x y : (m_rows c < p3_nx s)%nat -> (0 < m_cols c)%nat ->
  ps3_evaluate_z_predefined bm s x y c = out_of_bounds bm /\ ps3_derivative_x_z_predefined bm s x y c = out_of_bounds bm /\
  ps3_derivative_y_z_predefined bm s x y c = out_of_bounds bm /\ ps3_f_dfdx_dfdy_z_predefined bm s x y c = out_of_bounds bm.
Proof.
  intros H1 H2. assert (T1 : total_h horner) by exact horner_any. assert (T2 : total_h horner_derivative) by exact horner_deriv_any.
  unfold ps3_evaluate_z_predefined, ps3_derivative_x_z_predefined, ps3_derivative_y_z_predefined, ps3_derivative_y_unit_zunit_predefined, unit2.
  rewrite !sums_short by assumption. rewrite !oob_bind. repeat (split; [reflexivity|]).
  unfold ps3_f_dfdx_dfdy_z_predefined. rewrite (rows_split (m_rows c) _ H1). rewrite (mapM_oob _ _ _ _ bm).
  - apply oob_bind.
  - intros i Hi. apply in_seq in Hi. destruct (mrow_good bm c i ltac:(lia) H2) as (r & -> & N). cbn [bind].
    destruct (horner_any r (to_unit (p3_y s) y) N) as [a ->]. destruct (horner_deriv_any r (to_unit (p3_y s) y) N) as [d ->]. eexists. reflexivity.
  - rewrite mrow_bad by lia. apply oob_bind.
Qed.

(** The coefficients at a given z: one matrix smaller than [m] by [n] stops the computation. *)
Lemma small_matrix b m n ax ay az bm z : (0 < m)%nat -> (0 < n)%nat -> Exists (fun A => m_rows A < m \/ m_cols A < n)%nat b ->
  let s := mkPS3 b m n ax ay az in ps3_compute_cij bm s z = out_of_bounds bm /\ ps3_compute_cij_zinf bm s = out_of_bounds bm.
Proof.
  intros Hm Hn HE s.
  assert (G : forall w, ps3_compute_cij_unit bm s w = out_of_bounds bm); [|split; apply G].
  intros w. apply Exists_exists in HE. destruct HE as (A & IA & RA). destruct (In_nth_error _ _ IA) as (k & Ek). assert (Lk : (k < length b)%nat) by (apply nth_error_Some; congruence).
  unfold ps3_compute_cij_unit, s. cbn [p3_b p3_nx p3_ny p3_z].
  assert (NB : b <> []) by (destruct b; [destruct IA|discriminate]).
  assert (MC : forall (C : mat T) i j, (exists y, mcoef bm C i j = Ok y) \/ mcoef bm C i j = out_of_bounds bm).
  { intros C i j. unfold mcoef, eigen_check. match goal with |- context [if ?c then _ else _] => destruct c end; [left; eexists; reflexivity|right; destruct bm; reflexivity]. }
  assert (K1 : forall i j, (exists y, (let* rk := mapM (fun k => let* C := vat b k in mcoef bm C i j) (seq 0 (length b)) in horner rk w) = Ok y) \/
     (let* rk := mapM (fun k => let* C := vat b k in mcoef bm C i j) (seq 0 (length b)) in horner rk w) = out_of_bounds bm).
  { intros i j. destruct (mapM_either (fun k => let* C := vat b k in mcoef bm C i j) (seq 0 (length b)) bm) as [(rk & E & L)|E].
    - intros h Hh. apply in_seq in Hh. unfold vat. destruct (nth_error b h) as [C|] eqn:EC; [|apply nth_error_None in EC; lia]. cbn [bind]. apply MC.
    - left. rewrite E. cbn [bind]. apply horner_any. rewrite seq_length in L. destruct rk; [destruct b; [congruence|discriminate]|discriminate].
    - right. rewrite E. apply oob_bind. }
  assert (K2 : forall i j, (m_rows A <= i \/ m_cols A <= j)%nat -> (let* rk := mapM (fun k => let* C := vat b k in mcoef bm C i j) (seq 0 (length b)) in horner rk w) = out_of_bounds bm).
  { intros i j Hij. rewrite (mapM_some_oob _ _ bm); [apply oob_bind| |].
    - intros h Hh. apply in_seq in Hh. unfold vat. destruct (nth_error b h) as [C|] eqn:EC; [|apply nth_error_None in EC; lia]. cbn [bind]. apply MC.
    - exists k. split; [apply in_seq; lia|]. unfold vat. rewrite Ek. cbn [bind]. unfold mcoef, eigen_check.
      replace ((i <? m_rows A) && (j <? m_cols A))%bool with false; [destruct bm; reflexivity|]. symmetry. apply Bool.andb_false_iff. rewrite !Nat.ltb_ge. exact Hij. }
  match goal with |- (let* rows := ?X in _) = _ => replace X with (out_of_bounds (A := list (list T)) bm) end; [apply oob_bind|]. symmetry.
  apply mapM_some_oob.
  - intros i _. destruct (mapM_either (fun j => let* rk := mapM (fun k => let* C := vat b k in mcoef bm C i j) (seq 0 (length b)) in horner rk w) (seq 0 n) bm) as [(r & E & _)|E]; [intros j _; apply K1|left; exists r; exact E|right; exact E].
  - exists (m - 1)%nat. split; [apply in_seq; lia|]. apply mapM_some_oob; [intros j _; apply K1|]. exists (n - 1)%nat. split; [apply in_seq; lia|]. apply K2. lia.
Qed.

(** Matrices without rows or columns. *)
Lemma no_coefficients (A : mat T) b ax ay az bm x y z : m_rows A = 0%nat \/ m_cols A = 0%nat ->
  let s := mkPS3 (A :: b) (m_rows A) (m_cols A) ax ay az in ps3_evaluate bm s x y z = Throw OutOfRange.
Proof.
  intros H s. unfold ps3_evaluate, ps3_evaluate_unit, partial_sums3, s. cbn [p3_b p3_nx length]. cbn [seq mapM]. cbn [vat nth_error bind p3_x p3_y p3_z].
  unfold partial_sums. destruct (m_rows A) as [|r] eqn:ER; [reflexivity|]. destruct H as [H|H]; [discriminate|].
  cbn [seq mapM]. rewrite mrow_ok by lia. rewrite H. reflexivity.
Qed.
End Any.

(** ** Values *)
Lemma ragged_value b m n ax ay az bm x y z : (0 < m)%nat -> b <> [] -> Forall (tall m) b ->
  ps3_evaluate (T := R) bm (mkPS3 b m n ax ay az) x y z = Ok (ragged_sum m b (to_unit ax x) (to_unit ay y) (to_unit az z)).
Proof.
  intros Hm Hb HF. unfold ps3_evaluate, ps3_evaluate_unit, partial_sums3. cbn [p3_b p3_nx p3_x p3_y p3_z].
  set (u := to_unit ax x). set (v := to_unit ay y). set (w := to_unit az z). set (m0 := mkMat 0 0 (fun _ _ => 0)).
  rewrite (mapM_ok_map _ (fun k => pvf m (fun i => pvf (m_cols (nth k b m0)) (m_at (nth k b m0) i) v) u)).
  - cbn [bind]. rewrite horner_seq by (destruct b; [congruence|cbn; lia]). f_equal. unfold pvf at 1, ragged_sum. apply bsum_ext. intros k _.
    unfold pvf. rewrite <- bsum_scal_r. apply bsum_ext. intros i _. rewrite <- !bsum_scal_r. apply bsum_ext. intros j _. unfold coef3. fold m0. ring.
  - intros k Hk. apply in_seq in Hk. rewrite (vat_lt b k m0) by lia. cbn [bind]. rewrite Forall_forall in HF. destruct (HF (nth k b m0) (nth_In b m0 (n := k) (proj2 Hk))) as [C1 C2].
    rewrite partial_sums_h by lia. cbn [bind]. apply horner_seq, Hm.
Qed.

(** ** Other *)
Lemma same_unit {T} `{NT : Num T} `{NF : NumFm T} `{NR : NumTr T} (lon lat a : T) au u : GetNEDVelocityVector lon lat a au u u = ProjectLocalOnNED (mkV2 lon lat) a au.
Proof. destruct u; reflexivity. Qed.

Lemma vector_eval {T} `{NT : Num T} bm (o : interp2d T) vc vs : Forall2 (fun c v => exists x y r, c = x :: y :: r /\ eval2d bm o x y = Ok v) vc vs -> eval2d_vec bm o vc = Ok vs.
Proof.
  induction 1 as [|c v vc vs (x & y & r & -> & E) H IH]; [reflexivity|]. unfold eval2d_vec in *. cbn [mapM vidx nth_error bind]. rewrite E. cbn [bind]. rewrite IH. reflexivity.
Qed.
Lemma vector_eval_stop {T} `{NT : Num T} bm (o : interp2d T) vc vs x y r vc' e : Forall2 (fun c v => exists x y r, c = x :: y :: r /\ eval2d bm o x y = Ok v) vc vs ->
  eval2d bm o x y = e -> (forall v, e <> Ok v) -> eval2d_vec bm o (vc ++ (x :: y :: r) :: vc') = omap (fun v => [v]) e.
Proof.
  intros H E N. unfold eval2d_vec. rewrite mapM_app. rewrite (vector_eval bm o vc vs H : mapM _ vc = Ok vs). cbn [bind mapM vidx nth_error]. rewrite E.
  destruct e; [exfalso; apply (N a); reflexivity|reflexivity..].
Qed.
Lemma vector_eval_short {T} `{NT : Num T} bm (o : interp2d T) vc vs c vc' : Forall2 (fun c v => exists x y r, c = x :: y :: r /\ eval2d bm o x y = Ok v) vc vs ->
  (length c < 2)%nat -> eval2d_vec bm o (vc ++ c :: vc') = UB.
Proof.
  intros H N. unfold eval2d_vec. rewrite mapM_app. rewrite (vector_eval bm o vc vs H : mapM _ vc = Ok vs). cbn [bind mapM].
  destruct c as [|x [|y c]]; [reflexivity..|cbn in N; lia].
Qed.

(** ** Through the constructor *)
Lemma make_shape {T} `{NT : Num T} (b : list (mat T)) ax ay az s : ps3_make b ax ay az = Ok s -> exists A b', b = A :: b' /\ s = mkPS3 b (m_rows A) (m_cols A) ax ay az.
Proof. destruct b as [|A b']; [discriminate|]. intros E. exists A, b'. split; [reflexivity|]. cbn in E. congruence. Qed.
Lemma t_empty {T} `{NT : Num T} (ax ay az : axis T) : ps3_make [] ax ay az = Throw OutOfRange.
Proof. reflexivity. Qed.
Lemma t_value bm b ax ay az s x y z : ps3_make (T := R) b ax ay az = Ok s -> (0 < first_rows b)%nat -> Forall (tall (first_rows b)) b -> regular ax x -> regular ay y -> regular az z ->
  ps3_evaluate bm s x y z = Ok (ragged_sum (first_rows b) b (on_unit ax x) (on_unit ay y) (on_unit az z)).
Proof.
  intros E Hm HF Rx Ry Rz. destruct (make_shape b ax ay az s E) as (A & b' & -> & ->). rewrite ragged_value; [|exact Hm|discriminate|exact HF].
  assert (U : forall a t, regular a t -> to_unit a t = on_unit a t) by (intros [lo hi|lo] t H; [now apply to_unit_closed|apply to_unit_opened]).
  rewrite !U by assumption. reflexivity.
Qed.
Lemma t_short {T} `{NT : Num T} bm b ax ay az (s : ps3 T) x y z : ps3_make b ax ay az = Ok s -> rows_missing b ->
  ps3_evaluate bm s x y z = out_of_bounds bm /\ ps3_derivative_x bm s x y z = out_of_bounds bm /\ ps3_derivative_y bm s x y z = out_of_bounds bm /\
  ps3_derivative_z bm s x y z = out_of_bounds bm /\ ps3_f_dfdx_dfdy bm s x y z = out_of_bounds bm.
Proof.
  intros E H. destruct (make_shape b ax ay az s E) as (A & b' & -> & ->). destruct H as (H1 & H2 & H3). apply short_matrix. repeat split; [exact H1|exact H2|]. apply Exists_cons_tl, H3.
Qed.
Lemma t_small {T} `{NT : Num T} bm b ax ay az (s : ps3 T) z : ps3_make b ax ay az = Ok s -> smaller_than_first b ->
  ps3_compute_cij bm s z = out_of_bounds bm /\ ps3_compute_cij_zinf bm s = out_of_bounds bm.
Proof.
  intros E H. destruct (make_shape b ax ay az s E) as (A & b' & -> & ->). destruct H as (H1 & H2 & H3). apply small_matrix; [exact H1|exact H2|]. apply Exists_cons_tl, H3.
Qed.
Lemma t_predefined {T} `{NT : Num T} bm b ax ay az (s : ps3 T) (c : mat T) x y : ps3_make b ax ay az = Ok s -> (m_rows c < first_rows b)%nat -> (0 < m_cols c)%nat ->
  ps3_evaluate_z_predefined bm s x y c = out_of_bounds bm /\ ps3_derivative_x_z_predefined bm s x y c = out_of_bounds bm /\
  ps3_derivative_y_z_predefined bm s x y c = out_of_bounds bm /\ ps3_f_dfdx_dfdy_z_predefined bm s x y c = out_of_bounds bm.
Proof. intros E H1 H2. destruct (make_shape b ax ay az s E) as (A & b' & -> & ->). apply short_predefined; [exact H1|exact H2]. Qed.
Lemma t_hollow {T} `{NT : Num T} bm A b ax ay az (s : ps3 T) x y z : ps3_make (A :: b) ax ay az = Ok s -> m_rows A = 0%nat \/ m_cols A = 0%nat -> ps3_evaluate bm s x y z = Throw OutOfRange.
Proof. intros E H. destruct (make_shape (A :: b) ax ay az s E) as (A' & b' & EE & ->). assert (A = A') by congruence. subst A'. apply no_coefficients, H. Qed.

Definition thin : list (mat R) := [mkMat 1 1 (fun _ _ => 1); mkMat 1 2 (fun _ _ => 1)].
Lemma t_agreement : exists b : list (mat R), (0 < first_rows b)%nat /\ Forall (tall (first_rows b)) b /\ forall bm, exists s c f g,
  ps3_closed b 0 2 0 2 0 2 = Ok s /\ ps3_compute_cij bm s 2 = Ok c /\ ps3_evaluate bm s 1 2 2 = Ok f /\ ps3_evaluate_z_predefined bm s 1 2 c = Ok g /\ f <> g.
Proof.
  exists thin. assert (HF : Forall (tall (first_rows thin)) thin) by (repeat constructor). split; [cbn; lia|]. split; [exact HF|]. intros bm.
  set (s := mkPS3 thin 1 1 (Closed 0 2) (Closed 0 2) (Closed 0 2)).
  assert (C : exists c, ps3_compute_cij bm s 2 = Ok c /\ ps3_evaluate_z_predefined bm s 1 2 c = Ok 2).
  { unfold ps3_compute_cij, ps3_compute_cij_unit, s, thin. cbn [p3_b p3_nx p3_ny p3_z length seq mapM vat nth_error bind mcoef eigen_check m_rows m_cols m_at Nat.ltb Nat.leb andb].
    unfold horner. cbn [length Nat.sub vat nth_error bind horner_loop]. eexists. split; [reflexivity|].
    unfold ps3_evaluate_z_predefined, unit2, partial_sums. cbn [p3_nx p3_x p3_y seq mapM]. rewrite mrow_ok by (cbn; lia). cbn [m_cols m_at seq map nth bind horner length Nat.sub vat nth_error horner_loop].
    f_equal. unfold to_unit, nlit. cbv [nadd nsub nmul ndiv nofZ RNum RNum_at]. field. }
  destruct C as (c & C1 & C2). exists s, c, 3, 2. split; [reflexivity|]. split; [exact C1|]. split; [|split; [exact C2|lra]].
  rewrite (t_value bm thin (Closed 0 2) (Closed 0 2) (Closed 0 2) s 1 2 2); [|reflexivity|cbn; lia|exact HF|cbn; lra..].
  f_equal. unfold ragged_sum, thin, coef3, on_unit, segment_unit. cbn. field.
Qed.
