(** Lemmas about the 2D interpolation model. *)
From Coq Require Import List Arith Lia Bool Reals Lra.
From Verif Require Import Outcome Num StdAlgo M_Interp1d S_Interp1d L_Search L_Interp1d M_Interp2d S_Interp2d.
Import ListNotations.
Open Scope R_scope.

(** ** Coefficients *)
Definition dat (data : list R) (ny i j : nat) : R := nth (ny * i + j) data 0.

Definition cellc (xs ys data : list R) (ny : nat) (ij : nat * nat) : coef2 R :=
  let '(i, j) := ij in
  let x1 := nth (i - 1) xs 0 in let x2 := nth i xs 0 in
  let y1 := nth (j - 1) ys 0 in let y2 := nth j ys 0 in
  let d11 := dat data ny (i - 1) (j - 1) in let d12 := dat data ny (i - 1) j in
  let d21 := dat data ny i (j - 1) in let d22 := dat data ny i j in
  let inv_dx := 1 / (x2 - x1) in let inv_dy := 1 / (y2 - y1) in
  mkC2 ((d11 * x2 * y2 - d12 * x2 * y1 - d21 * x1 * y2 + d22 * x1 * y1) * inv_dx * inv_dy)
       ((- d11 * y2 + d12 * y1 + d21 * y2 - d22 * y1) * inv_dx * inv_dy)
       ((- d11 * x2 + d12 * x2 + d21 * x1 - d22 * x1) * inv_dx * inv_dy)
       ((d11 - d12 - d21 + d22) * inv_dx * inv_dy).

Definition ceval (c : coef2 R) (x y : R) : R := c_1 c + c_2 c * x + c_3 c * y + c_4 c * x * y.

Lemma cellc_bilinear xs ys data ny i j x y :
  nth i xs 0 < nth (S i) xs 0 -> nth j ys 0 < nth (S j) ys 0 ->
  bilinear (nth i xs 0) (nth (S i) xs 0) (nth j ys 0) (nth (S j) ys 0)
    (dat data ny i j) (dat data ny i (S j)) (dat data ny (S i) j) (dat data ny (S i) (S j))
    x y (ceval (cellc xs ys data ny (S i, S j)) x y).
Proof.
  intros Hx Hy. unfold cellc, ceval, bilinear. cbn [c_1 c_2 c_3 c_4].
  replace (S i - 1)%nat with i by lia. replace (S j - 1)%nat with j by lia.
  field. lra.
Qed.

Lemma bilinear_unique x1 x2 y1 y2 d11 d12 d21 d22 x y v v' :
  x1 < x2 -> y1 < y2 ->
  bilinear x1 x2 y1 y2 d11 d12 d21 d22 x y v -> bilinear x1 x2 y1 y2 d11 d12 d21 d22 x y v' -> v = v'.
Proof.
  unfold bilinear. intros Hx Hy H1 H2. rewrite <- H2 in H1.
  apply Rmult_eq_reg_r in H1; auto. apply Rmult_integral_contrapositive. lra.
Qed.

Lemma bilinear_between x1 x2 y1 y2 d11 d12 d21 d22 x y v :
  x1 < x2 -> y1 < y2 -> x1 <= x <= x2 -> y1 <= y <= y2 ->
  bilinear x1 x2 y1 y2 d11 d12 d21 d22 x y v ->
  min4 d11 d12 d21 d22 <= v <= max4 d11 d12 d21 d22.
Proof.
  intros Hx Hy Hxx Hyy H. unfold bilinear in H.
  assert (Hp : 0 < (x2 - x1) * (y2 - y1)) by (apply Rmult_lt_0_compat; lra).
  assert (H1 : 0 <= (x2 - x) * (y2 - y)) by (apply Rmult_le_pos; lra).
  assert (H2 : 0 <= (x2 - x) * (y - y1)) by (apply Rmult_le_pos; lra).
  assert (H3 : 0 <= (x - x1) * (y2 - y)) by (apply Rmult_le_pos; lra).
  assert (H4 : 0 <= (x - x1) * (y - y1)) by (apply Rmult_le_pos; lra).
  assert (Hs : (x2 - x) * (y2 - y) + (x2 - x) * (y - y1) + (x - x1) * (y2 - y) + (x - x1) * (y - y1)
     = (x2 - x1) * (y2 - y1)) by ring.
  set (w1 := (x2 - x) * (y2 - y)) in *. set (w2 := (x2 - x) * (y - y1)) in *.
  set (w3 := (x - x1) * (y2 - y)) in *. set (w4 := (x - x1) * (y - y1)) in *.
  set (w := (x2 - x1) * (y2 - y1)) in *.
  assert (Hm : min4 d11 d12 d21 d22 <= d11 /\ min4 d11 d12 d21 d22 <= d12 /\
               min4 d11 d12 d21 d22 <= d21 /\ min4 d11 d12 d21 d22 <= d22).
  { unfold min4. pose proof (Rmin_l (Rmin d11 d12) (Rmin d21 d22)).
    pose proof (Rmin_r (Rmin d11 d12) (Rmin d21 d22)).
    pose proof (Rmin_l d11 d12). pose proof (Rmin_r d11 d12).
    pose proof (Rmin_l d21 d22). pose proof (Rmin_r d21 d22). lra. }
  assert (HM : d11 <= max4 d11 d12 d21 d22 /\ d12 <= max4 d11 d12 d21 d22 /\
               d21 <= max4 d11 d12 d21 d22 /\ d22 <= max4 d11 d12 d21 d22).
  { unfold max4. pose proof (Rmax_l (Rmax d11 d12) (Rmax d21 d22)).
    pose proof (Rmax_r (Rmax d11 d12) (Rmax d21 d22)).
    pose proof (Rmax_l d11 d12). pose proof (Rmax_r d11 d12).
    pose proof (Rmax_l d21 d22). pose proof (Rmax_r d21 d22). lra. }
  set (m := min4 d11 d12 d21 d22) in *. set (M := max4 d11 d12 d21 d22) in *.
  clearbody m M w w1 w2 w3 w4.
  split; apply Rmult_le_reg_r with w; auto; rewrite H; nra.
Qed.

(** ** The coefficient loop *)
Lemma coef2_loop_app xs ys data ny l1 : forall l2 acc,
  coef2_loop xs ys data ny (l1 ++ l2) acc =
  match coef2_loop (T:=R) xs ys data ny l1 acc with
  | (acc', Ok _) => coef2_loop xs ys data ny l2 acc'
  | r => r
  end.
Proof.
  induction l1 as [|[i j] l1 IH]; intros l2 acc; simpl; [reflexivity|].
  destruct (cell_coefs xs ys data ny i j); simpl; try reflexivity. apply IH.
Qed.

Lemma cell_coefs_ok xs ys data i j :
  (1 <= i < length xs)%nat -> (1 <= j < length ys)%nat -> (length xs * length ys <= length data)%nat ->
  cell_coefs xs ys data (length ys) i j = Ok (cellc xs ys data (length ys) (i, j)).
Proof.
  intros Hi Hj Hd. unfold cell_coefs.
  assert (length ys * i + j < length xs * length ys)%nat by nia.
  assert (length ys * (i - 1) + j < length xs * length ys)%nat by nia.
  rewrite !(vat_lt xs _ 0) by lia. cbn [bind].
  rewrite !(vat_lt ys _ 0) by lia. cbn [bind].
  rewrite !(vat_lt data _ 0) by nia. reflexivity.
Qed.

Lemma coef2_loop_ok xs ys data l : forall acc,
  (length xs * length ys <= length data)%nat ->
  (forall i j, In (i, j) l -> (1 <= i < length xs)%nat /\ (1 <= j < length ys)%nat) ->
  coef2_loop xs ys data (length ys) l acc = (acc ++ map (cellc xs ys data (length ys)) l, Ok tt).
Proof.
  induction l as [|[i j] l IH]; intros acc Hd Hl; simpl.
  - rewrite app_nil_r. reflexivity.
  - destruct (Hl i j (or_introl eq_refl)) as [Hi Hj].
    rewrite cell_coefs_ok by auto. rewrite IH; auto.
    + rewrite <- app_assoc. reflexivity.
    + intros i' j' Hin. apply Hl. right. auto.
Qed.

Lemma loop_indices_in nx ny i j :
  In (i, j) (loop_indices nx ny) <-> (1 <= i < nx)%nat /\ (1 <= j < ny)%nat.
Proof.
  unfold loop_indices. rewrite in_flat_map. split.
  - intros (i' & Hi' & Hin). apply in_map_iff in Hin as (j' & Heq & Hj').
    injection Heq as -> ->. apply in_seq in Hi'. apply in_seq in Hj'. lia.
  - intros [Hi Hj]. exists i. split; [apply in_seq; lia|].
    apply in_map_iff. exists j. split; [reflexivity|apply in_seq; lia].
Qed.

Lemma flat_map_rows_nth {A} (f : nat -> nat -> A) m d : forall n s i j,
  (i < n)%nat -> (j < m)%nat ->
  nth (i * m + j) (flat_map (fun i => map (f i) (seq 1 m)) (seq s n)) d = f (s + i)%nat (S j).
Proof.
  induction n as [|n IH]; intros s i j Hi Hj; [lia|].
  simpl. destruct i as [|i].
  - simpl. rewrite app_nth1 by (rewrite map_length, seq_length; lia).
    rewrite (nth_indep _ d (f s 0%nat)) by (rewrite map_length, seq_length; lia).
    rewrite map_nth, seq_nth by lia. rewrite Nat.add_0_r. reflexivity.
  - rewrite app_nth2 by (rewrite map_length, seq_length; nia).
    rewrite map_length, seq_length.
    replace (S i * m + j - m)%nat with (i * m + j)%nat by nia.
    rewrite IH by lia. f_equal. lia.
Qed.

Lemma flat_map_rows_length {A} (f : nat -> nat -> A) m : forall n s,
  length (flat_map (fun i => map (f i) (seq 1 m)) (seq s n)) = (n * m)%nat.
Proof.
  induction n as [|n IH]; intros s; simpl; [reflexivity|].
  rewrite app_length, map_length, seq_length, IH. reflexivity.
Qed.

Lemma loop_indices_length nx ny : length (loop_indices nx ny) = ((nx - 1) * (ny - 1))%nat.
Proof. apply (flat_map_rows_length (fun i j => (i, j))). Qed.

Lemma loop_indices_nth nx ny i j : (S i < nx)%nat -> (S j < ny)%nat ->
  nth (i * (ny - 1) + j) (loop_indices nx ny) (0, 0)%nat = (S i, S j).
Proof.
  intros Hi Hj. unfold loop_indices.
  rewrite (flat_map_rows_nth (fun i j => (i, j))) by lia. f_equal.
Qed.

(** ** Initialisation *)
Definition coefs2 (xs ys data : list R) : list (coef2 R) :=
  map (cellc xs ys data (length ys)) (loop_indices (length xs) (length ys)).

Definition obj2 (xs ys data : list R) (cs : list (coef2 R)) : interp2d R :=
  mkI2 (Some xs) (Some ys) (Some data) (length xs) (length ys)
    (Some (nth 0 xs 0)) (Some (nth (length xs - 1) xs 0))
    (Some (nth 0 ys 0)) (Some (nth (length ys - 1) ys 0)) cs.

Lemma init2d_ok bm o xs ys data :
  (bm = Debug -> is_sorted xs = true /\ is_sorted ys = true) ->
  (1 <= length xs)%nat -> (1 <= length ys)%nat -> (length xs * length ys <= length data)%nat ->
  init2d bm o (Some xs) (Some ys) (Some data) =
    (obj2 xs ys data (j_coefs o ++ coefs2 xs ys data), Ok tt).
Proof.
  intros Hb Hx Hy Hd. unfold init2d, init_base2.
  assert (Hc : bind (cassert bm (is_sorted xs)) (fun _ => cassert bm (is_sorted ys)) = Ok tt).
  { destruct bm; simpl; auto. destruct (Hb eq_refl) as [H1 H2]. rewrite H1. simpl. rewrite H2. reflexivity. }
  rewrite Hc. rewrite !(vat_lt xs _ 0) by lia. cbn [bind].
  rewrite !(vat_lt ys _ 0) by lia. cbn [bind j_x j_y j_nx j_ny j_coefs j_data j_xmin j_xmax j_ymin j_ymax].
  rewrite coef2_loop_ok; auto.
  intros i j Hin. apply loop_indices_in in Hin. exact Hin.
Qed.

Lemma new2d_ok bm xs ys data :
  (bm = Debug -> is_sorted xs = true /\ is_sorted ys = true) ->
  (1 <= length xs)%nat -> (1 <= length ys)%nat -> (length xs * length ys <= length data)%nat ->
  new2d bm LINEAR xs ys data = Ok (obj2 xs ys data (coefs2 xs ys data)).
Proof. intros. unfold new2d. simpl. rewrite init2d_ok by auto. reflexivity. Qed.

Lemma new2d_increasing bm xs ys data :
  increasing xs -> increasing ys -> (1 <= length xs)%nat -> (1 <= length ys)%nat ->
  (length xs * length ys <= length data)%nat ->
  new2d bm LINEAR xs ys data = Ok (obj2 xs ys data (coefs2 xs ys data)).
Proof. intros. apply new2d_ok; auto. intros _. split; apply increasing_is_sorted; auto. Qed.

(** ** Evaluation *)
Lemma coefs2_nth xs ys data i j : (S i < length xs)%nat -> (S j < length ys)%nat ->
  nth_error (coefs2 xs ys data) (i * (length ys - 1) + j) = Some (cellc xs ys data (length ys) (S i, S j)).
Proof.
  intros Hi Hj. unfold coefs2. rewrite nth_error_map.
  rewrite (nth_error_nth' _ (0, 0)%nat).
  - rewrite loop_indices_nth by auto. reflexivity.
  - rewrite loop_indices_length. nia.
Qed.

(** Value in Release mode as a function of the two selected indices. *)
Lemma eval2d_release xs ys data cs x y ix iy :
  (1 <= length ys)%nat ->
  (max 1 (lower_bound xs x) - 1)%nat = ix -> (max 1 (lower_bound ys y) - 1)%nat = iy ->
  eval2d Release (obj2 xs ys data cs) x y =
    omap (fun c => ceval c x y) (vat cs (ix * (length ys - 1) + iy)).
Proof.
  intros L Hx Hy. unfold eval2d, cell_index, obj2. cbn [j_x j_y j_xmin j_xmax j_ymin j_ymax j_ny j_coefs cassert bind].
  rewrite (proj2 (Nat.eqb_neq (length ys) 0)) by lia.
  assert (H01 : forall n, (if (n =? 0)%nat then 1%nat else n) = max 1 n) by (intros [|[|n]]; reflexivity).
  rewrite !H01.
  replace (max 1 (lower_bound ys y) + (max 1 (lower_bound xs x) - 1) * (length ys - 1) - 1)%nat
    with (ix * (length ys - 1) + iy)%nat.
  - reflexivity.
  - rewrite Hx. subst iy. generalize (ix * (length ys - 1))%nat. intros p. lia.
Qed.

Lemma eval2d_debug xs ys data cs x y :
  (inside xs ys x y -> eval2d Debug (obj2 xs ys data cs) x y = eval2d Release (obj2 xs ys data cs) x y) /\
  (~ inside xs ys x y -> eval2d Debug (obj2 xs ys data cs) x y = Abort).
Proof.
  unfold inside. split.
  - intros [Hx Hy]. unfold eval2d, obj2.
    cbn [j_x j_y j_xmin j_xmax j_ymin j_ymax j_ny j_coefs cassert]. unfold nle; simpl.
    rewrite !(proj2 (Rleb_true _ _)) by tauto. reflexivity.
  - intros Hn. unfold eval2d, obj2.
    cbn [j_x j_y j_xmin j_xmax j_ymin j_ymax j_ny j_coefs cassert]. unfold nle; simpl.
    repeat (rcmp; simpl; try reflexivity). exfalso. tauto.
Qed.

Lemma inside_sel xs ys x y : increasing xs -> increasing ys ->
  (2 <= length xs)%nat -> (2 <= length ys)%nat -> inside xs ys x y ->
  exists i j, (S i < length xs)%nat /\ (S j < length ys)%nat /\
    (max 1 (lower_bound xs x) - 1)%nat = i /\ (max 1 (lower_bound ys y) - 1)%nat = j /\
    nth i xs 0 <= x <= nth (S i) xs 0 /\ nth j ys 0 <= y <= nth (S j) ys 0.
Proof.
  intros Hix Hiy Hnx Hny [Hx Hy].
  destruct (sel_cell xs x Hix Hnx ltac:(lra)) as (i & Hi & Hsi & H1 & H2 & H3).
  destruct (sel_cell ys y Hiy Hny ltac:(lra)) as (j & Hj & Hsj & H4 & H5 & H6).
  exists i, j. repeat split; auto.
  - destruct (Rlt_dec (nth 0 xs 0) x); [left; auto|]. rewrite H3 by lra. lra.
  - destruct (Rlt_dec (nth 0 ys 0) y); [left; auto|]. rewrite H6 by lra. lra.
Qed.

(** Bilinear patches agree on shared edges: any cell containing the point
    gives the value of the selected cell. *)
Lemma adjacent_same xs x i i' : increasing xs -> (S i < length xs)%nat -> (S i' < length xs)%nat ->
  nth i xs 0 <= x <= nth (S i) xs 0 -> nth i' xs 0 <= x <= nth (S i') xs 0 ->
  i = i' \/ (S i = i' /\ x = nth i' xs 0) \/ (S i' = i /\ x = nth i xs 0).
Proof.
  intros Hinc Hi Hi' Hx Hx'.
  assert (Hord : forall i i', (i < i')%nat -> (S i' < length xs)%nat ->
    nth i xs 0 <= x <= nth (S i) xs 0 -> nth i' xs 0 <= x <= nth (S i') xs 0 ->
    S i = i' /\ x = nth i' xs 0).
  { clear - Hinc. intros i i' Hlt Hi' Hx Hx'.
    pose proof (increasing_le xs (S i) i' Hinc ltac:(lia)).
    assert (S i = i').
    { destruct (Nat.eq_dec (S i) i'); auto. pose proof (Hinc (S i) i' ltac:(lia)). lra. }
    split; auto. lra. }
  destruct (lt_eq_lt_dec i i') as [[Hlt|Heq]|Hgt]; auto.
Qed.

Lemma patch_edge_x xs ys data i j x y v :
  nth i xs 0 < nth (S i) xs 0 -> nth j ys 0 < nth (S j) ys 0 -> x = nth (S i) xs 0 ->
  patch xs ys data i j x y v ->
  v * (nth (S j) ys 0 - nth j ys 0) =
    nth (length ys * S i + j) data 0 * (nth (S j) ys 0 - y) + nth (length ys * S i + S j) data 0 * (y - nth j ys 0).
Proof.
  intros Hx Hy -> H. unfold patch, bilinear in H.
  apply Rmult_eq_reg_l with (nth (S i) xs 0 - nth i xs 0); [|lra].
  replace ((nth (S i) xs 0 - nth i xs 0) * (v * (nth (S j) ys 0 - nth j ys 0))) with
    (v * ((nth (S i) xs 0 - nth i xs 0) * (nth (S j) ys 0 - nth j ys 0))) by ring.
  rewrite H. ring.
Qed.

Lemma patch_edge_x' xs ys data i j x y v :
  nth i xs 0 < nth (S i) xs 0 -> nth j ys 0 < nth (S j) ys 0 -> x = nth i xs 0 ->
  patch xs ys data i j x y v ->
  v * (nth (S j) ys 0 - nth j ys 0) =
    nth (length ys * i + j) data 0 * (nth (S j) ys 0 - y) + nth (length ys * i + S j) data 0 * (y - nth j ys 0).
Proof.
  intros Hx Hy -> H. unfold patch, bilinear in H.
  apply Rmult_eq_reg_l with (nth (S i) xs 0 - nth i xs 0); [|lra].
  replace ((nth (S i) xs 0 - nth i xs 0) * (v * (nth (S j) ys 0 - nth j ys 0))) with
    (v * ((nth (S i) xs 0 - nth i xs 0) * (nth (S j) ys 0 - nth j ys 0))) by ring.
  rewrite H. ring.
Qed.

(** Transfer across an x-edge. *)
Lemma patch_cross_x xs ys data i j x y v : increasing xs -> increasing ys ->
  (S (S i) < length xs)%nat -> (S j < length ys)%nat -> x = nth (S i) xs 0 ->
  (patch xs ys data i j x y v <-> patch xs ys data (S i) j x y v).
Proof.
  intros Hix Hiy Hi Hj Hx.
  assert (Hx1 := Hix i (S i) ltac:(lia)). assert (Hx2 := Hix (S i) (S (S i)) ltac:(lia)).
  assert (Hy1 := Hiy j (S j) ltac:(lia)).
  split; intros H.
  - apply patch_edge_x in H; auto. subst x. unfold patch, bilinear.
    replace (v * ((nth (S (S i)) xs 0 - nth (S i) xs 0) * (nth (S j) ys 0 - nth j ys 0))) with
      ((nth (S (S i)) xs 0 - nth (S i) xs 0) * (v * (nth (S j) ys 0 - nth j ys 0))) by ring.
    rewrite H. ring.
  - apply patch_edge_x' in H; auto. subst x. unfold patch, bilinear.
    replace (v * ((nth (S i) xs 0 - nth i xs 0) * (nth (S j) ys 0 - nth j ys 0))) with
      ((nth (S i) xs 0 - nth i xs 0) * (v * (nth (S j) ys 0 - nth j ys 0))) by ring.
    rewrite H. ring.
Qed.

Lemma patch_cross_y xs ys data i j x y v : increasing xs -> increasing ys ->
  (S i < length xs)%nat -> (S (S j) < length ys)%nat -> y = nth (S j) ys 0 ->
  (patch xs ys data i j x y v <-> patch xs ys data i (S j) x y v).
Proof.
  intros Hix Hiy Hi Hj Hy.
  assert (Hx1 := Hix i (S i) ltac:(lia)).
  assert (Hy1 := Hiy j (S j) ltac:(lia)). assert (Hy2 := Hiy (S j) (S (S j)) ltac:(lia)).
  assert (Hv : forall d1 d2, v * (nth (S i) xs 0 - nth i xs 0) = d1 * (nth (S i) xs 0 - x) + d2 * (x - nth i xs 0) <->
     v * (nth (S i) xs 0 - nth i xs 0) = d1 * (nth (S i) xs 0 - x) + d2 * (x - nth i xs 0)) by tauto.
  clear Hv. subst y. unfold patch, bilinear. split; intros H.
  - assert (Hv : v * (nth (S i) xs 0 - nth i xs 0) =
       nth (length ys * i + S j) data 0 * (nth (S i) xs 0 - x) +
       nth (length ys * S i + S j) data 0 * (x - nth i xs 0)).
    { apply Rmult_eq_reg_r with (nth (S j) ys 0 - nth j ys 0); [|lra].
      rewrite Rmult_assoc, H. ring. }
    replace (v * ((nth (S i) xs 0 - nth i xs 0) * (nth (S (S j)) ys 0 - nth (S j) ys 0))) with
      ((v * (nth (S i) xs 0 - nth i xs 0)) * (nth (S (S j)) ys 0 - nth (S j) ys 0)) by ring.
    rewrite Hv. ring.
  - assert (Hv : v * (nth (S i) xs 0 - nth i xs 0) =
       nth (length ys * i + S j) data 0 * (nth (S i) xs 0 - x) +
       nth (length ys * S i + S j) data 0 * (x - nth i xs 0)).
    { apply Rmult_eq_reg_r with (nth (S (S j)) ys 0 - nth (S j) ys 0); [|lra].
      rewrite Rmult_assoc, H. ring. }
    replace (v * ((nth (S i) xs 0 - nth i xs 0) * (nth (S j) ys 0 - nth j ys 0))) with
      ((v * (nth (S i) xs 0 - nth i xs 0)) * (nth (S j) ys 0 - nth j ys 0)) by ring.
    rewrite Hv. ring.
Qed.

Lemma patch_transfer xs ys data i j i' j' x y v : increasing xs -> increasing ys ->
  (S i < length xs)%nat -> (S j < length ys)%nat -> (S i' < length xs)%nat -> (S j' < length ys)%nat ->
  nth i xs 0 <= x <= nth (S i) xs 0 -> nth i' xs 0 <= x <= nth (S i') xs 0 ->
  nth j ys 0 <= y <= nth (S j) ys 0 -> nth j' ys 0 <= y <= nth (S j') ys 0 ->
  patch xs ys data i j x y v -> patch xs ys data i' j' x y v.
Proof.
  intros Hix Hiy Hi Hj Hi' Hj' Hx Hx' Hy Hy' H.
  assert (H1 : patch xs ys data i' j x y v).
  { destruct (adjacent_same xs x i i' Hix Hi Hi' Hx Hx') as [->|[[<- He]|[<- He]]]; auto.
    - apply (patch_cross_x xs ys data i j x y v Hix Hiy Hi' Hj He). exact H.
    - apply (patch_cross_x xs ys data i' j x y v Hix Hiy Hi Hj He). exact H. }
  destruct (adjacent_same ys y j j' Hiy Hj Hj' Hy Hy') as [->|[[<- He]|[<- He]]]; auto.
  - apply (patch_cross_y xs ys data i' j x y v Hix Hiy Hi' Hj' He). exact H1.
  - apply (patch_cross_y xs ys data i' j' x y v Hix Hiy Hi' Hj He). exact H1.
Qed.

Lemma eval2d_cell bm xs ys data i j x y :
  increasing xs -> increasing ys -> (2 <= length xs)%nat -> (2 <= length ys)%nat ->
  (length xs * length ys <= length data)%nat ->
  (S i < length xs)%nat -> (S j < length ys)%nat ->
  nth i xs 0 <= x <= nth (S i) xs 0 -> nth j ys 0 <= y <= nth (S j) ys 0 ->
  exists o v, new2d bm LINEAR xs ys data = Ok o /\ eval2d bm o x y = Ok v /\ patch xs ys data i j x y v.
Proof.
  intros Hix Hiy Hnx Hny Hd Hi Hj Hx Hy.
  rewrite new2d_increasing by (auto; lia).
  assert (Hin : inside xs ys x y).
  { split.
    - pose proof (increasing_le xs 0 i Hix ltac:(lia)).
      pose proof (increasing_le xs (S i) (length xs - 1) Hix ltac:(lia)). lra.
    - pose proof (increasing_le ys 0 j Hiy ltac:(lia)).
      pose proof (increasing_le ys (S j) (length ys - 1) Hiy ltac:(lia)). lra. }
  destruct (inside_sel xs ys x y Hix Hiy Hnx Hny Hin) as (i0 & j0 & Hi0 & Hj0 & Hsx & Hsy & Hx0 & Hy0).
  assert (He : eval2d Release (obj2 xs ys data (coefs2 xs ys data)) x y =
     Ok (ceval (cellc xs ys data (length ys) (S i0, S j0)) x y)).
  { rewrite (eval2d_release xs ys data _ x y i0 j0 ltac:(lia) Hsx Hsy). unfold vat.
    rewrite coefs2_nth by auto. reflexivity. }
  eexists. eexists. split; [reflexivity|]. split.
  - destruct bm; [rewrite (proj1 (eval2d_debug xs ys data _ x y) Hin)|]; exact He.
  - eapply (patch_transfer xs ys data i0 j0 i j); eauto.
    apply cellc_bilinear; [apply Hix; lia|apply Hiy; lia].
Qed.

Lemma node_cell n i : (2 <= n)%nat -> (i < n)%nat ->
  exists c, (S c < n)%nat /\ (i = c \/ i = S c).
Proof.
  intros Hn Hi. destruct (Nat.eq_dec i 0); [exists 0%nat|exists (i - 1)%nat]; lia.
Qed.

Lemma nodes2d_lemma bm xs ys data i j :
  increasing xs -> increasing ys -> (2 <= length xs)%nat -> (2 <= length ys)%nat ->
  length data = (length xs * length ys)%nat ->
  (i < length xs)%nat -> (j < length ys)%nat ->
  exists o, new2d bm LINEAR xs ys data = Ok o /\
    eval2d bm o (nth i xs 0) (nth j ys 0) = Ok (nth (length ys * i + j) data 0).
Proof.
  intros Hix Hiy Hnx Hny Hd Hi Hj.
  destruct (node_cell _ _ Hnx Hi) as (ci & Hci & Hic).
  destruct (node_cell _ _ Hny Hj) as (cj & Hcj & Hjc).
  assert (Hx1 := Hix ci (S ci) ltac:(lia)). assert (Hy1 := Hiy cj (S cj) ltac:(lia)).
  destruct (eval2d_cell bm xs ys data ci cj (nth i xs 0) (nth j ys 0)) as (o & v & Ho & He & Hp); auto; try lia.
  - destruct Hic as [->| ->]; lra.
  - destruct Hjc as [->| ->]; lra.
  - exists o. split; [exact Ho|]. rewrite He. f_equal.
    eapply bilinear_unique; [exact Hx1|exact Hy1|exact Hp|].
    unfold bilinear. destruct Hic as [->| ->]; destruct Hjc as [->| ->]; ring.
Qed.

Lemma bilinear_cell_lemma bm xs ys data i j x y :
  increasing xs -> increasing ys -> (2 <= length xs)%nat -> (2 <= length ys)%nat ->
  length data = (length xs * length ys)%nat ->
  (S i < length xs)%nat -> (S j < length ys)%nat ->
  nth i xs 0 <= x <= nth (S i) xs 0 -> nth j ys 0 <= y <= nth (S j) ys 0 ->
  exists o v, new2d bm LINEAR xs ys data = Ok o /\ eval2d bm o x y = Ok v /\
    let d := fun i j => nth (length ys * i + j) data 0 in
    bilinear (nth i xs 0) (nth (S i) xs 0) (nth j ys 0) (nth (S j) ys 0)
      (d i j) (d i (S j)) (d (S i) j) (d (S i) (S j)) x y v /\
    min4 (d i j) (d i (S j)) (d (S i) j) (d (S i) (S j)) <= v
      <= max4 (d i j) (d i (S j)) (d (S i) j) (d (S i) (S j)).
Proof.
  intros Hix Hiy Hnx Hny Hd Hi Hj Hx Hy.
  destruct (eval2d_cell bm xs ys data i j x y) as (o & v & Ho & He & Hp); auto; try lia.
  exists o, v. split; [exact Ho|]. split; [exact He|]. cbv zeta. split; [exact Hp|].
  eapply bilinear_between; [| | exact Hx | exact Hy | exact Hp]; [apply Hix; lia|apply Hiy; lia].
Qed.

Lemma debug2d_lemma xs ys data x y :
  increasing xs -> increasing ys -> (2 <= length xs)%nat -> (2 <= length ys)%nat ->
  length data = (length xs * length ys)%nat ->
  exists o, new2d Debug LINEAR xs ys data = Ok o /\
    (eval2d Debug o x y = Abort <->
       ~ (nth 0 xs 0 <= x <= nth (length xs - 1) xs 0 /\ nth 0 ys 0 <= y <= nth (length ys - 1) ys 0)) /\
    (eval2d Debug o x y <> Abort -> exists v, eval2d Debug o x y = Ok v).
Proof.
  intros Hix Hiy Hnx Hny Hd. rewrite new2d_increasing by (auto; lia).
  eexists. split; [reflexivity|].
  assert (Hin : inside xs ys x y -> exists v, eval2d Debug (obj2 xs ys data (coefs2 xs ys data)) x y = Ok v).
  { intros Hin. destruct (inside_sel xs ys x y Hix Hiy Hnx Hny Hin) as (i0 & j0 & Hi0 & Hj0 & _ & _ & Hx0 & Hy0).
    destruct (eval2d_cell Debug xs ys data i0 j0 x y) as (o & v & Ho & He & _); auto; try lia.
    rewrite new2d_increasing in Ho by (auto; lia). injection Ho as <-. eauto. }
  assert (Hdec : inside xs ys x y \/ ~ inside xs ys x y).
  { unfold inside. destruct (Rle_dec (nth 0 xs 0) x), (Rle_dec x (nth (length xs - 1) xs 0)),
      (Rle_dec (nth 0 ys 0) y), (Rle_dec y (nth (length ys - 1) ys 0)); tauto. }
  split; [split|].
  - intros Ha Hi. destruct (Hin Hi) as (v & Hv). rewrite Hv in Ha. discriminate.
  - intros Hn. apply eval2d_debug. exact Hn.
  - intros Ha. destruct Hdec as [Hi|Hn]; auto. destruct Ha. apply eval2d_debug. exact Hn.
Qed.

Lemma sel_above xs x : increasing xs -> (2 <= length xs)%nat -> nth (length xs - 1) xs 0 < x ->
  (max 1 (lower_bound xs x) - 1)%nat = (length xs - 1)%nat.
Proof. intros. rewrite lower_bound_last by (auto; lia). lia. Qed.

Lemma sel_clamped xs x i : increasing xs -> (2 <= length xs)%nat -> clamped_cell xs x i ->
  (max 1 (lower_bound xs x) - 1)%nat = i.
Proof.
  intros Hi Hn (Hl & Hx & Hc).
  destruct (Rle_dec x (nth 0 xs 0)) as [Hle|Hnle].
  - rewrite lower_bound_first by auto. destruct Hc as [->|Hc]; [reflexivity|].
    pose proof (increasing_le xs 0 i Hi ltac:(lia)). lra.
  - rewrite (lower_bound_cell xs x i); [lia|auto|auto|].
    destruct Hc as [->|Hc]; lra.
Qed.

(** Release build, not above the range: the cell selected by clamping is used. *)
Lemma release_cell_lemma xs ys data i j x y :
  increasing xs -> increasing ys -> (2 <= length xs)%nat -> (2 <= length ys)%nat ->
  length data = (length xs * length ys)%nat ->
  clamped_cell xs x i -> clamped_cell ys y j ->
  exists o v, new2d Release LINEAR xs ys data = Ok o /\ eval2d Release o x y = Ok v /\
    patch xs ys data i j x y v.
Proof.
  intros Hix Hiy Hnx Hny Hd Hx Hy. rewrite new2d_increasing by (auto; lia).
  eexists. eexists. split; [reflexivity|]. split.
  - rewrite (eval2d_release xs ys data _ x y i j); try lia; try (apply sel_clamped; auto).
    unfold vat. rewrite (coefs2_nth xs ys data i j); [reflexivity|apply Hx|apply Hy].
  - apply cellc_bilinear; [apply Hix|apply Hiy].
    + destruct Hx. lia.
    + destruct Hy. lia.
Qed.

(** Release build, y above the range. *)
Lemma release_above_lemma xs ys data i x y :
  increasing xs -> increasing ys -> (2 <= length xs)%nat -> (2 <= length ys)%nat ->
  length data = (length xs * length ys)%nat ->
  nth (length ys - 1) ys 0 < y -> clamped_cell xs x i ->
  exists o, new2d Release LINEAR xs ys data = Ok o /\
    ((S (S i) < length xs)%nat -> exists v, eval2d Release o x y = Ok v /\
       patch xs ys data (S i) 0 x y v) /\
    ((S (S i) = length xs)%nat -> eval2d Release o x y = Throw OutOfRange).
Proof.
  intros Hix Hiy Hnx Hny Hd Hy Hx. rewrite new2d_increasing by (auto; lia).
  eexists. split; [reflexivity|].
  assert (Hsy := sel_above ys y Hiy Hny Hy).
  assert (Hsx := sel_clamped xs x i Hix Hnx Hx).
  rewrite (eval2d_release xs ys data _ x y i (length ys - 1) ltac:(lia) Hsx Hsy).
  replace (i * (length ys - 1) + (length ys - 1))%nat with (S i * (length ys - 1) + 0)%nat by lia.
  split.
  - intros Hi2. unfold vat. rewrite coefs2_nth by lia. eexists. split; [reflexivity|].
    apply cellc_bilinear; [apply Hix; lia|apply Hiy; lia].
  - intros Hi2. rewrite vat_ge; [reflexivity|].
    unfold coefs2. rewrite map_length, loop_indices_length. nia.
Qed.

Lemma release_xabove_lemma xs ys data x y :
  increasing xs -> increasing ys -> (2 <= length xs)%nat -> (2 <= length ys)%nat ->
  length data = (length xs * length ys)%nat ->
  nth (length xs - 1) xs 0 < x ->
  exists o, new2d Release LINEAR xs ys data = Ok o /\ eval2d Release o x y = Throw OutOfRange.
Proof.
  intros Hix Hiy Hnx Hny Hd Hx. rewrite new2d_increasing by (auto; lia).
  eexists. split; [reflexivity|].
  rewrite (eval2d_release xs ys data _ x y _ _ ltac:(lia) (sel_above xs x Hix Hnx Hx) eq_refl).
  rewrite vat_ge; [reflexivity|]. unfold coefs2. rewrite map_length, loop_indices_length. nia.
Qed.

(** ** Guards of Initialize *)
Lemma make2d_throws bm m (xs ys data : list R) : m <> LINEAR -> new2d bm m xs ys data = Throw CString.
Proof. intros H. unfold new2d. destruct m; try reflexivity. congruence. Qed.

Lemma init_base2_cases bm (xs ys : list R) :
  (bm = Debug -> nondecreasing xs /\ nondecreasing ys) ->
  bind (cassert bm (is_sorted xs)) (fun _ => cassert bm (is_sorted ys)) = Ok tt.
Proof.
  intros H. destruct bm; simpl; auto. destruct (H eq_refl) as [H1 H2].
  rewrite (proj2 (is_sorted_iff xs) H1). simpl. rewrite (proj2 (is_sorted_iff ys) H2). reflexivity.
Qed.

Lemma cell_coefs_short (xs ys data : list R) i j :
  (1 <= i < length xs)%nat -> (1 <= j < length ys)%nat -> (length data <= length ys * i + j)%nat ->
  cell_coefs xs ys data (length ys) i j = Throw OutOfRange.
Proof.
  intros Hi Hj Hd. unfold cell_coefs.
  rewrite !(vat_lt xs _ 0) by lia. cbn [bind].
  rewrite !(vat_lt ys _ 0) by lia. cbn [bind].
  unfold vat.
  destruct (nth_error data (length ys * (i - 1) + (j - 1))); [|reflexivity]. cbn [bind].
  destruct (nth_error data (length ys * (i - 1) + j)); [|reflexivity]. cbn [bind].
  destruct (nth_error data (length ys * i + (j - 1))); [|reflexivity]. cbn [bind].
  rewrite (proj2 (nth_error_None data _)) by lia. reflexivity.
Qed.

Lemma cell_coefs_either (xs ys data : list R) i j :
  (1 <= i < length xs)%nat -> (1 <= j < length ys)%nat ->
  (exists c, cell_coefs xs ys data (length ys) i j = Ok c) \/
  cell_coefs xs ys data (length ys) i j = Throw OutOfRange.
Proof.
  intros Hi Hj. unfold cell_coefs.
  rewrite !(vat_lt xs _ 0) by lia. cbn [bind].
  rewrite !(vat_lt ys _ 0) by lia. cbn [bind]. unfold vat.
  destruct (nth_error data (length ys * (i - 1) + (j - 1))); [|auto]. cbn [bind].
  destruct (nth_error data (length ys * (i - 1) + j)); [|auto]. cbn [bind].
  destruct (nth_error data (length ys * i + (j - 1))); [|auto]. cbn [bind].
  destruct (nth_error data (length ys * i + j)); [|auto]. cbn [bind]. eauto.
Qed.

Lemma coef2_loop_short (xs ys data : list R) l : forall acc,
  (forall i j, In (i, j) l -> (1 <= i < length xs)%nat /\ (1 <= j < length ys)%nat) ->
  (exists i j, In (i, j) l /\ (length data <= length ys * i + j)%nat) ->
  exists acc', coef2_loop xs ys data (length ys) l acc = (acc', Throw OutOfRange).
Proof.
  induction l as [|[i j] l IH]; intros acc Hl (i0 & j0 & Hin & Hs); [destruct Hin|].
  simpl. destruct (Hl i j (or_introl eq_refl)) as [Hi Hj].
  destruct (cell_coefs_either xs ys data i j Hi Hj) as [(c & Hc)|Hc]; rewrite Hc.
  - destruct Hin as [Heq|Hin].
    + injection Heq as -> ->. rewrite cell_coefs_short in Hc by auto. discriminate.
    + apply IH; eauto. intros i' j' H'. apply Hl. right. auto.
  - simpl. eauto.
Qed.

Lemma short_data_lemma bm xs ys data :
  (bm = Debug -> nondecreasing xs /\ nondecreasing ys) ->
  (2 <= length xs)%nat -> (2 <= length ys)%nat ->
  ((length data < length xs * length ys)%nat -> new2d bm LINEAR xs ys data = Throw OutOfRange) /\
  ((length xs * length ys <= length data)%nat -> exists o, new2d bm LINEAR xs ys data = Ok o).
Proof.
  intros Hs Hnx Hny. split.
  - intros Hd. unfold new2d. simpl. unfold init2d, init_base2.
    rewrite (init_base2_cases bm xs ys Hs).
    rewrite !(vat_lt xs _ 0) by lia. cbn [bind].
    rewrite !(vat_lt ys _ 0) by lia. cbn [bind j_x j_y j_nx j_ny j_coefs j_data j_xmin j_xmax j_ymin j_ymax].
    destruct (coef2_loop_short xs ys data (loop_indices (length xs) (length ys)) []) as (acc' & Hc).
    + intros i j Hin. apply loop_indices_in in Hin. exact Hin.
    + exists (length xs - 1)%nat, (length ys - 1)%nat. split; [apply loop_indices_in; lia|nia].
    + cbn [blank2d j_coefs]. rewrite Hc. reflexivity.
  - intros Hd. eexists. apply new2d_ok; auto; try lia.
    intros ->. destruct (Hs eq_refl). split; apply is_sorted_iff; auto.
Qed.

Lemma debug_guard2d_lemma xs ys data :
  (new2d Debug LINEAR xs ys data = Abort <-> (~ nondecreasing xs \/ ~ nondecreasing ys)).
Proof.
  rewrite <- !is_sorted_iff. unfold new2d. simpl. unfold init2d, init_base2. simpl.
  destruct (is_sorted xs) eqn:Ex; simpl.
  - destruct (is_sorted ys) eqn:Ey; simpl.
    + split; [|intros [?|?]; congruence].
      unfold vat at 1. destruct (nth_error xs 0) as [x0|]; simpl; [|discriminate].
      unfold vat at 1. destruct (nth_error xs (length xs - 1)) as [x1|]; simpl; [|discriminate].
      unfold vat at 1. destruct (nth_error ys 0) as [y0|]; simpl; [|discriminate].
      unfold vat at 1. destruct (nth_error ys (length ys - 1)) as [y1|]; simpl; [|discriminate].
      assert (Hl : forall l acc,
        (forall i j, In (i, j) l -> (1 <= i < length xs)%nat /\ (1 <= j < length ys)%nat) ->
        snd (coef2_loop xs ys data (length ys) l acc) <> Abort).
      { induction l as [|[i j] l IH]; intros acc Hin; [discriminate|].
        simpl. destruct (Hin i j (or_introl eq_refl)) as [Hi Hj].
        destruct (cell_coefs_either xs ys data i j Hi Hj) as [(c & ->)|Hc].
        - apply IH. intros i' j' H'. apply Hin. right. auto.
        - rewrite Hc. discriminate. }
      specialize (Hl (loop_indices (length xs) (length ys)) []).
      destruct (coef2_loop xs ys data (length ys) (loop_indices (length xs) (length ys)) []) as [cs r].
      simpl in Hl. intros Habs. exfalso. apply Hl.
      * intros i j Hin. apply loop_indices_in in Hin. exact Hin.
      * destruct r; simpl in Habs; congruence.
    + split; auto.
  - split; auto.
Qed.

Lemma empty2d_lemma bm (xs ys data : list R) :
  (bm = Debug -> nondecreasing xs /\ nondecreasing ys) ->
  xs = [] \/ ys = [] -> new2d bm LINEAR xs ys data = Throw OutOfRange.
Proof.
  intros Hs He. unfold new2d. simpl. unfold init2d, init_base2.
  rewrite (init_base2_cases bm xs ys Hs).
  destruct He as [-> | ->]; [reflexivity|].
  destruct xs as [|x xs]; [reflexivity|].
  rewrite !(vat_lt (x :: xs) _ 0) by (simpl; lia). reflexivity.
Qed.

(** ** No undefined behaviour, for any scalar type *)
Lemma eval2d_no_ub {T} `{NT : Num T} bm (o o' : interp2d T) x y d bm' q r :
  init2d bm o x y d = (o', Ok tt) ->
  (exists v, eval2d bm' o' q r = Ok v) \/ eval2d bm' o' q r = Throw OutOfRange \/
  (bm' = Debug /\ eval2d bm' o' q r = Abort).
Proof.
  intros H.
  assert (Hi : exists xs ys xm xM ym yM, j_x o' = Some xs /\ j_y o' = Some ys /\
     j_xmin o' = Some xm /\ j_xmax o' = Some xM /\ j_ymin o' = Some ym /\ j_ymax o' = Some yM).
  { unfold init2d, init_base2 in H.
    destruct x as [xs|]; [|discriminate]. destruct y as [ys|]; [|discriminate].
    destruct (let* _ := cassert bm (is_sorted xs) in cassert bm (is_sorted ys)) as [u|e|c| |];
      try discriminate.
    destruct (let* a := vat xs 0 in let* b := vat xs (length xs - 1) in Ok (a, b)) as [[xm xM]|e|c| |];
      try discriminate.
    destruct (let* a := vat ys 0 in let* b := vat ys (length ys - 1) in Ok (a, b)) as [[ym yM]|e|c| |];
      try discriminate.
    cbn [j_x j_y j_nx j_ny j_coefs j_data j_xmin j_xmax j_ymin j_ymax] in H.
    exists xs, ys, xm, xM, ym, yM.
    destruct d as [ds|].
    - destruct (coef2_loop xs ys ds (length ys) (loop_indices (length xs) (length ys)) (j_coefs o)) as [cs r'].
      injection H as <- _. simpl. auto 10.
    - destruct (loop_indices (length xs) (length ys)); [|discriminate].
      injection H as <-. simpl. auto 10. }
  destruct Hi as (xs & ys & xm & xM & ym & yM & H1 & H2 & H3 & H4 & H5 & H6).
  unfold eval2d. rewrite H1, H2, H3, H4, H5, H6.
  destruct bm'; simpl.
  - destruct (_ && _); simpl; auto. destruct (_ && _); simpl; auto.
    unfold vat. destruct (nth_error _ _); simpl; eauto.
  - unfold vat. destruct (nth_error _ _); simpl; eauto.
Qed.

(** ** Re-initialisation *)
Lemma reinit2d_lemma xs1 ys1 d1 xs2 ys2 d2 bm o1 o2 i j x y :
  increasing xs1 -> increasing ys1 -> (2 <= length xs1)%nat -> (2 <= length ys1)%nat ->
  length d1 = (length xs1 * length ys1)%nat ->
  increasing xs2 -> increasing ys2 -> (2 <= length xs2)%nat ->
  length ys2 = length ys1 -> length d2 = (length xs2 * length ys2)%nat ->
  new2d bm LINEAR xs1 ys1 d1 = Ok o1 -> init2d bm o1 (Some xs2) (Some ys2) (Some d2) = (o2, Ok tt) ->
  (S i < length xs2)%nat -> (S i < length xs1)%nat -> (S j < length ys2)%nat ->
  nth i xs2 0 < x <= nth (S i) xs2 0 -> nth j ys2 0 < y <= nth (S j) ys2 0 ->
  exists v, eval2d bm o2 x y = Ok v /\ patch xs1 ys1 d1 i j x y v.
Proof.
  intros Hix1 Hiy1 Hnx1 Hny1 Hd1 Hix2 Hiy2 Hnx2 Hny2 Hd2 H1 H2 Hi2 Hi1 Hj Hx Hy.
  rewrite new2d_increasing in H1 by (auto; lia). injection H1 as <-.
  rewrite init2d_ok in H2; try lia; [|intros _; split; apply increasing_is_sorted; auto].
  injection H2 as <-. cbn [j_coefs obj2].
  assert (Hin : inside xs2 ys2 x y).
  { split.
    - pose proof (increasing_le xs2 0 i Hix2 ltac:(lia)).
      pose proof (increasing_le xs2 (S i) (length xs2 - 1) Hix2 ltac:(lia)). lra.
    - pose proof (increasing_le ys2 0 j Hiy2 ltac:(lia)).
      pose proof (increasing_le ys2 (S j) (length ys2 - 1) Hiy2 ltac:(lia)). lra. }
  assert (He : eval2d Release (obj2 xs2 ys2 d2 (coefs2 xs1 ys1 d1 ++ coefs2 xs2 ys2 d2)) x y =
     Ok (ceval (cellc xs1 ys1 d1 (length ys1) (S i, S j)) x y)).
  { rewrite (eval2d_release xs2 ys2 d2 _ x y i j ltac:(lia)).
    - unfold vat. rewrite nth_error_app1.
      + rewrite Hny2, coefs2_nth by lia. reflexivity.
      + unfold coefs2. rewrite map_length, loop_indices_length. nia.
    - rewrite (lower_bound_cell xs2 x i) by auto. lia.
    - rewrite (lower_bound_cell ys2 y j) by auto. lia. }
  eexists. split.
  - destruct bm; [rewrite (proj1 (eval2d_debug _ _ _ _ x y) Hin)|]; exact He.
  - apply cellc_bilinear; [apply Hix1; lia|apply Hiy1; lia].
Qed.
