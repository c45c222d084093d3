(** Property C136: distance between interpolated values and the function that
    was sampled.  [first g], [final g]: ends of an axis; [spacing h g]: steps
    at most [h]; [curved f g M]: second derivative bounded by [M] along the
    axis; [sloped f g K]: Lipschitz constant [K]; [total c Cs hs]: sum of
    [c C h] over the axes. *)
From Coq Require Import List Arith ZArith Reals Lra Lia Bool.
From Flocq Require Import IEEE754.BinarySingleNaN.
From Verif Require Import Outcome Num NumFun StdAlgo F64 M_Interp1d S_Interp1d M_Interp2d S_Interp2d M_Grid S_Grid S_Integ S_Angles S_Basics S_Series S_Double
  S_Err L_F64 L_GridExamples L_Err L_Err64.
Import ListNotations.
Local Open Scope R_scope.

(** One variable: at most M h^2 / 8 for a twice differentiable function ... *)
Theorem C136_interp1d_error : forall bm m xs f f1 f2 M h x, is_linear m -> increasing xs -> (2 <= length xs)%nat -> spacing h xs ->
  twice_derivable f f1 f2 (first xs) (final xs) M -> first xs <= x <= final xs ->
  exists o v, new1d bm m xs (map f xs) = Ok o /\ eval1d o x = Ok v /\ Rabs (v - f x) <= M * h ^ 2 / 8.
Proof. exact interp1d_error. Qed.
Print Assumptions C136_interp1d_error.
(** ... and K h / 2 for a Lipschitz one. *)
Theorem C136_interp1d_error_lipschitz : forall bm m xs f K h x, is_linear m -> increasing xs -> (2 <= length xs)%nat -> spacing h xs ->
  lipschitz f (first xs) (final xs) K -> first xs <= x <= final xs ->
  exists o v, new1d bm m xs (map f xs) = Ok o /\ eval1d o x = Ok v /\ Rabs (v - f x) <= K * h / 2.
Proof. exact interp1d_error_lip. Qed.
Print Assumptions C136_interp1d_error_lipschitz.

(** Two variables: the errors of the two axes add. *)
Theorem C136_interp2d_error : forall bm xs ys data f Mx My hx hy x y,
  increasing xs -> increasing ys -> (2 <= length xs)%nat -> (2 <= length ys)%nat -> length data = (length xs * length ys)%nat ->
  samples2 xs ys data f -> spacing hx xs -> spacing hy ys -> along2 curved xs ys f Mx My -> inside xs ys x y ->
  exists o v, new2d bm LINEAR xs ys data = Ok o /\ eval2d bm o x y = Ok v /\ Rabs (v - f x y) <= (Mx * hx ^ 2 + My * hy ^ 2) / 8.
Proof. exact interp2d_error. Qed.
Print Assumptions C136_interp2d_error.
Theorem C136_interp2d_error_lipschitz : forall bm xs ys data f Kx Ky hx hy x y,
  increasing xs -> increasing ys -> (2 <= length xs)%nat -> (2 <= length ys)%nat -> length data = (length xs * length ys)%nat ->
  samples2 xs ys data f -> spacing hx xs -> spacing hy ys -> along2 sloped xs ys f Kx Ky -> inside xs ys x y ->
  exists o v, new2d bm LINEAR xs ys data = Ok o /\ eval2d bm o x y = Ok v /\ Rabs (v - f x y) <= (Kx * hx + Ky * hy) / 2.
Proof. exact interp2d_error_lip. Qed.
Print Assumptions C136_interp2d_error_lipschitz.

(** N variables, anywhere: compared with the function at the nearest point of the box. *)
Theorem C136_grid_error : forall bm gs a F Ms hs p, good_axes gs -> length (nd_flat a) = count (map (@length R) gs) -> length p = length gs ->
  samples gs (nd_flat a) F -> length Ms = length gs -> spacings hs gs -> along_axes curved gs Ms F ->
  exists o v, rgi_make gs a = Ok o /\ rgi_interp bm o p false = Ok v /\
    Rabs (v - F (clamp_point gs p)) <= total (fun M h => M * h ^ 2 / 8) Ms hs.
Proof. exact grid_error. Qed.
Print Assumptions C136_grid_error.
Theorem C136_grid_error_lipschitz : forall bm gs a F Ks hs p, good_axes gs -> length (nd_flat a) = count (map (@length R) gs) -> length p = length gs ->
  samples gs (nd_flat a) F -> length Ks = length gs -> spacings hs gs -> Forall (fun K => 0 <= K) Ks -> Forall (fun h => 0 <= h) hs -> along_axes sloped gs Ks F ->
  exists o v, rgi_make gs a = Ok o /\ rgi_interp bm o p false = Ok v /\
    Rabs (v - F (clamp_point gs p)) <= total (fun K h => K * h / 2) Ks hs.
Proof. exact grid_error_lip. Qed.
Print Assumptions C136_grid_error_lipschitz.

(** Nearest node of a grid: the same Lipschitz bound, inside the box. *)
Theorem C136_nearest_error : forall bm gs (a : ndarray R) F Ks hs p, good_axes gs -> nd_shape a = map (@length R) gs -> length (nd_flat a) = count (nd_shape a) ->
  samples gs (nd_flat a) F -> length Ks = length gs -> spacings hs gs -> Forall (fun K => 0 <= K) Ks -> Forall (fun h => 0 <= h) hs ->
  along_axes sloped gs Ks F -> in_box gs p ->
  exists o n, rgn_make gs a = Ok o /\ rgn_nearest bm o p = Ok n /\ Rabs (gn_val n - F p) <= total (fun K h => K * h / 2) Ks hs.
Proof. exact nearest_error. Qed.
Print Assumptions C136_nearest_error.

(** One variable in double, samples known to within [delta]: discretisation,
    data and rounding errors add.  [i] is the cell of [x]. *)
Theorem C136_interp1d_double_error : forall bm m xs ys x i f f1 f2 K delta, is_linear m -> all_finite xs -> is_finite x = true ->
  increasing (dvalues xs) -> length ys = length xs -> (S i < length xs)%nat ->
  let x0 := nth i (dvalues xs) 0 in let x1 := nth (S i) (dvalues xs) 0 in
  let y0 := nth i (dvalues ys) 0 in let y1 := nth (S i) (dvalues ys) 0 in
  let Y := Rabs y0 + Rabs y1 in let M := Rmax (Rabs x0) (Rabs x1) in let D := x1 - x0 in
  x0 < dvalue x <= x1 \/ i = 0%nat /\ dvalue x = x0 -> D <= dmax ->
  twice_derivable f f1 f2 x0 x1 K -> Rabs (y0 - f x0) <= delta -> Rabs (y1 - f x1) <= delta ->
  exists o v, new1d bm m xs ys = Ok o /\ eval1d o x = Ok v /\
    (is_finite v = true ->
       Rabs (dvalue v - f (dvalue x)) <= K * D ^ 2 / 8 + delta + (11 * uround * (Y * M / D) + 4 * uflow * (1 + M + / D))) /\
    (all_finite ys -> Y * (1 + M) * (1 + / D) <= 2 ^ 1000 -> is_finite v = true).
Proof. exact interp1d_double_error. Qed.
Print Assumptions C136_interp1d_double_error.

(** *** Non-vacuity; the constants 1/8 and 1/2 are attained *)
Lemma square_curved g c : curved (fun x => x * x + c) g 2.
Proof.
  exists (fun x => 2 * x), (fun _ => 2). repeat split; intros x Hx.
  - replace (2 * x) with ((1 * x + x * 1) + 0) by ring.
    apply (derivable_pt_lim_plus (fun x => x * x) (fun _ => c)); [|apply derivable_pt_lim_const].
    apply (derivable_pt_lim_mult (fun x => x) (fun x => x)); apply derivable_pt_lim_id.
  - pose proof (derivable_pt_lim_scal (fun x => x) 2 x 1 (derivable_pt_lim_id x)) as E. rewrite Rmult_1_r in E. exact E.
  - rewrite Rabs_pos_eq; lra.
Qed.
Lemma square_curved_l g c : curved (fun x => c + x * x) g 2.
Proof.
  exists (fun x => 2 * x), (fun _ => 2). repeat split; intros x Hx.
  - replace (2 * x) with (0 + (1 * x + x * 1)) by ring.
    apply (derivable_pt_lim_plus (fun _ => c) (fun x => x * x)); [apply derivable_pt_lim_const|].
    apply (derivable_pt_lim_mult (fun x => x) (fun x => x)); apply derivable_pt_lim_id.
  - pose proof (derivable_pt_lim_scal (fun x => x) 2 x 1 (derivable_pt_lim_id x)) as E. rewrite Rmult_1_r in E. exact E.
  - rewrite Rabs_pos_eq; lra.
Qed.
Lemma axis_a : increasing [0; 1; 3]. Proof. exact (proj1 (Forall_inv exg_good)). Qed.
Lemma axis_b : increasing [0; 2]. Proof. exact (proj1 (Forall_inv (Forall_inv_tail exg_good))). Qed.
Lemma spacing_a : spacing 2 [0; 1; 3].
Proof. intros [|[|i]] H; simpl in *; try lia; lra. Qed.
Lemma spacing_b : spacing 2 [0; 2].
Proof. intros [|i] H; simpl in *; try lia; lra. Qed.

(** x^2 + 0 on 0, 1, 3: at 2 the value is 5, the function 4, the bound 1. *)
Example C136_example_1d : exists o v, new1d Release LINEAR [0; 1; 3] (map (fun x => x * x + 0) [0; 1; 3]) = Ok o /\ eval1d o 2 = Ok v /\
  Rabs (v - (2 * 2 + 0)) <= 1 /\ v = 5.
Proof.
  destruct (square_curved [0; 1; 3] 0) as (f1 & f2 & D).
  destruct (C136_interp1d_error Release LINEAR [0; 1; 3] (fun x => x * x + 0) f1 f2 2 2 2 ltac:(left; reflexivity) axis_a ltac:(simpl; lia) spacing_a D ltac:(unfold first, final; simpl; lra))
    as (o & v & H1 & H2 & H3).
  exists o, v. split; [exact H1|]. split; [exact H2|]. split; [lra|].
  destruct (L_Interp1d.chord_lemma Release LINEAR [0; 1; 3] (map (fun x => x * x + 0) [0; 1; 3]) 1 2) as (o' & v' & H1' & H2' & H3' & _);
    [left; reflexivity|exact axis_a|simpl; lia|reflexivity|simpl; lia|simpl; lra|].
  rewrite H1 in H1'. injection H1' as <-. rewrite H2 in H2'. injection H2' as <-. unfold on_line in H3'. simpl in H3'. lra.
Qed.
(** Three variables are not needed to see the sum over the axes: x^2 + y^2 at (2, 1): 7 instead of 5. *)
Definition exsq : list R := [0; 4; 1; 5; 9; 13].
Lemma exsq_samples : samples2 [0; 1; 3] [0; 2] exsq (fun x y => x * x + y * y).
Proof. intros [|[|[|i]]] [|[|j]] Hi Hj; simpl in *; try lia; lra. Qed.
Lemma exsq_curved : along2 curved [0; 1; 3] [0; 2] (fun x y => x * x + y * y) 2 2.
Proof. split; intros c _; [apply (square_curved _ (c * c))|apply (square_curved_l _ (c * c))]. Qed.
Example C136_example_2d : exists o v, new2d Release LINEAR [0; 1; 3] [0; 2] exsq = Ok o /\ eval2d Release o 2 1 = Ok v /\ Rabs (v - 5) <= 2.
Proof.
  destruct (C136_interp2d_error Release [0; 1; 3] [0; 2] exsq (fun x y => x * x + y * y) 2 2 2 2 2 1 axis_a axis_b ltac:(simpl; lia) ltac:(simpl; lia)
    eq_refl exsq_samples spacing_a spacing_b exsq_curved ltac:(unfold inside; simpl; lra)) as (o & v & H1 & H2 & H3).
  exists o, v. split; [exact H1|]. split; [exact H2|]. cbv beta in H3. replace (2 * 2 + 1 * 1) with 5 in H3 by ring. lra.
Qed.
Example C136_example_grid : exists o v, rgi_make exg (mkND [3; 2]%nat exsq) = Ok o /\ rgi_interp Debug o [2; 7] false = Ok v /\ Rabs (v - 8) <= 2.
Proof.
  destruct (C136_grid_error Debug exg (mkND [3; 2]%nat exsq) (fun p => nth 0 p 0 * nth 0 p 0 + nth 1 p 0 * nth 1 p 0) [2; 2] [2; 2] [2; 7] exg_good eq_refl eq_refl
    (samples2_grid _ _ _ _ exsq_samples) eq_refl ltac:(apply Forall2_cons; [exact spacing_a|]; apply Forall2_cons; [exact spacing_b|apply Forall2_nil])
    (along2_axes _ _ _ _ _ _ exsq_curved)) as (o & v & H1 & H2 & H3).
  exists o, v. split; [exact H1|]. split; [exact H2|].
  unfold clamp_point, clamp, total, sum in H3. cbn [exg map2 nth length Nat.sub fold_right] in H3.
  rewrite (Rmin_right 3 2), (Rmax_right 0 2), (Rmin_left 2 7), (Rmax_right 0 2) in H3 by lra.
  replace (2 * 2 + 2 * 2) with 8 in H3 by ring. lra.
Qed.
(** |x| on -1, 1: at 0 the value is 1, the function 0, the bound 1. *)
Lemma axis_c : increasing [-1; 1].
Proof. intros [|[|i]] [|[|j]] H; simpl in *; try lia; lra. Qed.
Example C136_example_lipschitz : exists o v, new1d Debug LINEAR [-1; 1] (map Rabs [-1; 1]) = Ok o /\ eval1d o 0 = Ok v /\ Rabs (v - Rabs 0) <= 1 /\ v = 1.
Proof.
  destruct (C136_interp1d_error_lipschitz Debug LINEAR [-1; 1] Rabs 1 2 0 ltac:(left; reflexivity) axis_c ltac:(simpl; lia)) as (o & v & H1 & H2 & H3).
  - intros [|i] H; simpl in *; try lia; lra.
  - intros x y _ _. rewrite Rmult_1_l. apply Rabs_triang_inv2.
  - unfold first, final; simpl; lra.
  - exists o, v. split; [exact H1|]. split; [exact H2|]. split; [lra|].
    destruct (L_Interp1d.chord_lemma Debug LINEAR [-1; 1] (map Rabs [-1; 1]) 0 0) as (o' & v' & H1' & H2' & H3' & _);
      [left; reflexivity|exact axis_c|simpl; lia|reflexivity|simpl; lia|simpl; lra|].
    rewrite H1 in H1'. injection H1' as <-. rewrite H2 in H2'. injection H2' as <-. unfold on_line in H3'. simpl in H3'.
    rewrite (Rabs_left (-1)), (Rabs_pos_eq 1) in H3' by lra. lra.
Qed.
(** Nearest node: the coordinate sum, at (1.5, 0.5). *)
Example C136_example_nearest : exists o n, rgn_make exg (mkND [3; 2]%nat [0; 2; 1; 3; 3; 5]) = Ok o /\ rgn_nearest Debug o [3 / 2; 1 / 2] = Ok n /\ Rabs (gn_val n - 2) <= 2.
Proof.
  destruct (C136_nearest_error Debug exg (mkND [3; 2]%nat [0; 2; 1; 3; 3; 5]) (fun p => nth 0 p 0 + nth 1 p 0) [1; 1] [2; 2] [3 / 2; 1 / 2] exg_good eq_refl eq_refl) as (o & n & H1 & H2 & H3).
  - apply (samples2_grid [0; 1; 3] [0; 2] _ (fun x y => x + y)). intros [|[|[|i]]] [|[|j]] Hi Hj; simpl in *; try lia; lra.
  - reflexivity.
  - apply Forall2_cons; [exact spacing_a|]. apply Forall2_cons; [exact spacing_b|apply Forall2_nil].
  - repeat constructor; lra.
  - repeat constructor; lra.
  - apply (along2_axes sloped [0; 1; 3] [0; 2] (fun x y => x + y)). split; intros c _ x y _ _; rewrite Rmult_1_l; right; f_equal; ring.
  - apply Forall2_cons; [unfold first, final; simpl; lra|]. apply Forall2_cons; [unfold first, final; simpl; lra|apply Forall2_nil].
  - exists o, n. split; [exact H1|]. split; [exact H2|]. unfold total, sum in H3. cbn [map2 fold_right nth] in H3.
    replace (3 / 2 + 1 / 2) with 2 in H3 by field. lra.
Qed.
(** In double: the same table and query as C136_example_1d. *)
Example C136_example_double : exists o v, new1d Debug LINEAR [f64_ofZ 0; f64_ofZ 1; f64_ofZ 3] [f64_ofZ 0; f64_ofZ 1; f64_ofZ 9] = Ok o /\
  eval1d o (f64_ofZ 2) = Ok v /\ is_finite v = true /\ Rabs (dvalue v - 4) <= 1 + (11 * uround * 15 + 4 * uflow * (1 + 3 + / 2)).
Proof.
  assert (V : forall z, (Z.abs z < 2 ^ 53)%Z -> dvalue (f64_ofZ z) = IZR z) by (intros z Hz; apply (ofZ_ok z Hz)).
  destruct (square_curved [1; 3] 0) as (f1 & f2 & D).
  pose proof (C136_interp1d_double_error Debug LINEAR [f64_ofZ 0; f64_ofZ 1; f64_ofZ 3] [f64_ofZ 0; f64_ofZ 1; f64_ofZ 9] (f64_ofZ 2) 1 (fun x => x * x + 0) f1 f2 2 0) as H.
  cbn [dvalues map nth] in H. rewrite !V in H by lia. cbv zeta beta in H.
  rewrite (Rabs_pos_eq 1), (Rabs_pos_eq 3), (Rabs_pos_eq 9), (Rmax_right 1 3) in H by lra.
  destruct H as (o & v & H1 & H2 & H3 & H4).
  - left. reflexivity.
  - repeat constructor.
  - reflexivity.
  - intros i j Hij. destruct i as [|[|[|i]]]; destruct j as [|[|[|j]]]; simpl in *; try lia; lra.
  - reflexivity.
  - simpl. lia.
  - left. lra.
  - unfold dmax. apply Rle_trans with (2 * 1); [lra|]. apply Rmult_le_compat; [lra|lra|apply IZR_le; lia|].
    apply (pow_R1_Rle 2 (Pos.to_nat 971)). lra.
  - exact D.
  - replace (1 - (1 * 1 + 0)) with 0 by ring. rewrite Rabs_R0. lra.
  - replace (9 - (3 * 3 + 0)) with 0 by ring. rewrite Rabs_R0. lra.
  - assert (F : is_finite v = true).
    { apply H4; [repeat constructor|]. apply Rle_trans with (2 ^ 10); [simpl; lra|]. apply Rle_pow; [lra|lia]. }
    exists o, v. split; [exact H1|]. split; [exact H2|]. split; [exact F|].
    specialize (H3 F). replace (2 * 2 + 0) with 4 in H3 by ring. replace (3 - 1) with 2 in H3 by ring.
    replace ((1 + 9) * 3 / 2) with 15 in H3 by field. lra.
Qed.
