(** Sufficient condition for the second order bound; examples. *)
From Coq Require Import List Arith ZArith Reals Lra Lia Bool Permutation.
From Coquelicot Require Import Coquelicot.
From Verif Require Import Outcome Num S_Interp1d M_Grid S_Grid S_Integ S_Err S_Lim S_GShape L_Search L_Grid L_GridSimplex L_GridExamples L_Err L_GShape L_GShape2 L_GShape3.
Import ListNotations.
Local Open Scope R_scope.

Lemma taylor1 f f1 f2 M : twice_derivable f f1 f2 0 1 M -> Rabs (f 1 - f 0 - f1 0) <= M / 2.
Proof.
  intros (D1 & D2 & DM).
  assert (B : forall t, 0 <= t <= 1 -> Rabs (f1 t - f1 0) <= M * t).
  { intros t Ht. destruct (Req_dec t 0) as [->|Hn]; [rewrite Rminus_diag_eq, Rabs_R0 by reflexivity; lra|].
    destruct (MVT_cor2 f1 f2 0 t ltac:(lra)) as (c & E & Hc); [intros c Hc; apply D2; lra|].
    rewrite E, Rabs_mult, (Rabs_pos_eq (t - 0)) by lra. rewrite Rminus_0_r. apply Rmult_le_compat_r; [lra|]. apply DM. lra. }
  assert (S : forall s, s = 1 \/ s = -1 -> s * (f 1 - f 0 - f1 0) <= M / 2).
  { intros s Hs. set (g := fun t => M / 2 * t ^ 2 - s * (f t - f1 0 * t)). set (g1 := fun t => M * t - s * (f1 t - f1 0)).
    destruct (MVT_cor2 g g1 0 1 ltac:(lra)) as (c & E & Hc).
    - intros t Ht. unfold g, g1. apply derivable_pt_lim_minus.
      + replace (M * t) with (M / 2 * (INR 2 * t ^ Nat.pred 2)) by (simpl; field). apply derivable_pt_lim_scal. apply derivable_pt_lim_pow.
      + apply derivable_pt_lim_scal. apply derivable_pt_lim_minus; [now apply D1|].
        replace (f1 0) with (f1 0 * 1) at 2 by ring. apply derivable_pt_lim_scal. apply derivable_pt_lim_id.
    - specialize (B c ltac:(lra)). apply Rabs_le_between in B.
      assert (0 <= g1 c) by (unfold g1; destruct Hs; subst s; lra). unfold g in E. lra. }
  apply Rabs_le. pose proof (S 1 (or_introl eq_refl)). pose proof (S (-1) (or_intror eq_refl)). lra.
Qed.
Lemma towards0 : forall q x, length x = length q -> towards q x 0 = q.
Proof. induction q as [|u q IH]; intros [|v x] H; try discriminate; [reflexivity|]. unfold towards. cbn [map2]. fold (towards q x 0). rewrite IH by (simpl in H; lia). f_equal. ring. Qed.
Lemma towards1 : forall q x, length x = length q -> towards q x 1 = x.
Proof. induction q as [|u q IH]; intros [|v x] H; try discriminate; [reflexivity|]. unfold towards. cbn [map2]. fold (towards q x 1). rewrite IH by (simpl in H; lia). f_equal. ring. Qed.
Lemma dot_sub : forall a x q, length x = length a -> length q = length a -> dot a (map2 Rminus x q) = dot a x - dot a q.
Proof. induction a as [|c a IH]; intros [|u x] [|v q] H1 H2; try discriminate; [simpl; ring|]. cbn [map2 dot]. rewrite IH by (simpl in *; lia). ring. Qed.
Lemma total_half : forall Ms ds, total (fun M d => M / 2 * d ^ 2) Ms ds = total (fun M d => M * d ^ 2) Ms ds / 2.
Proof.
  induction Ms as [|M Ms IH]; intros [|d ds]; try (unfold total; simpl; field).
  change (M / 2 * d ^ 2 + total (fun M d => M / 2 * d ^ 2) Ms ds = (M * d ^ 2 + total (fun M d => M * d ^ 2) Ms ds) / 2). rewrite IH. field.
Qed.
Lemma smooth_osculates : forall gs Ms a F q, length a = length gs -> length q = length gs -> smooth_from gs Ms a F q -> osculates gs Ms F q.
Proof.
  intros gs Ms a F q La Lq H. exists a, (F q - dot a q). split; [exact La|]. split; [unfold affine; ring|]. intros x Hx.
  assert (Lx : length x = length gs) by (symmetry; eapply Forall2_length; exact Hx).
  destruct (H x Hx) as (f1 & f2 & E & D). pose proof (taylor1 _ _ _ _ D) as T. cbv beta in T. rewrite towards0, towards1, E, dot_sub in T by lia.
  rewrite total_half. unfold affine. replace (F x - (F q - dot a q + dot a x)) with (F x - F q - (dot a x - dot a q)) by ring. exact T.
Qed.

(** *** Examples *)
Definition exxy : list R := [0; 0; 0; 2; 0; 6].
Definition pxy (p : list R) : R := nth 0 p 0 * nth 1 p 0.
Lemma exxy_samples : samples exg exxy pxy.
Proof. apply (samples2_grid [0; 1; 3] [0; 2] exxy (fun x y => x * y)). intros [|[|[|i]]] [|[|j]] Hi Hj; simpl in *; try lia; lra. Qed.
Lemma exxy_smooth : smooth_from exg [1; 1] [1; 2] pxy [2; 1].
Proof.
  intros x Hx. inversion Hx as [|? u ? x' Hu Hx']; subst. inversion Hx' as [|? v ? x'' Hv Hx'']; subst. inversion Hx''; subst.
  exists (fun t => (u - 2) * (1 + t * (v - 1)) + (2 + t * (u - 2)) * (v - 1)), (fun t => 2 * ((u - 2) * (v - 1))).
  split; [simpl; ring|]. split; [|split].
  - intros t _. apply is_derive_Reals. unfold pxy, towards. cbn [map2 nth]. auto_derive; [exact I|ring].
  - intros t _. apply is_derive_Reals. auto_derive; [exact I|ring].
  - intros t _. unfold total, apart, sum. cbn [map2 fold_right]. rewrite <- !Rsqr_pow2, <- !Rsqr_abs. unfold Rsqr.
    apply Rabs_le. pose proof (Rle_0_sqr (u - 2 - (v - 1))) as A. pose proof (Rle_0_sqr (u - 2 + (v - 1))) as B. unfold Rsqr in A, B. lra.
Qed.
Lemma exg_spacings : spacings [2; 2] exg.
Proof.
  constructor; [|constructor; [|constructor]].
  - intros [|[|i]] Hi; simpl in *; try lia; lra.
  - intros [|i] Hi; simpl in *; try lia; lra.
Qed.
Lemma clamp21 : clamp_point exg [2; 1] = [2; 1].
Proof. unfold clamp_point, clamp. cbn [exg map2 nth length Nat.sub]. rewrite (Rmin_right 3 2), (Rmax_right 0 2), (Rmin_right 2 1), (Rmax_right 0 1) by lra. reflexivity. Qed.
Lemma ex_simplex : exists v, interp_simplex Debug exg exxy [2; 1] isort = Ok v /\ Rabs (v - 2) <= 1.
Proof.
  destruct (simplex_error Debug exg exxy isort pxy [1; 1] [2; 2] [2; 1] exg_good eq_refl eq_refl isort_sorts exxy_samples eq_refl exg_spacings) as (v & E & B).
  - repeat (constructor; [lra|]). constructor.
  - repeat (constructor; [lra|]). constructor.
  - rewrite clamp21. apply (smooth_osculates _ _ [1; 2]); [reflexivity|reflexivity|exact exxy_smooth].
  - exists v. split; [exact E|]. rewrite clamp21 in B. unfold pxy, total, sum in B. cbn [nth map2 fold_right] in B. replace (2 * 1) with 2 in B by ring. lra.
Qed.
(** The slopes of x*y along the first axis are between 0 and 2. *)
Lemma ex_slopes : slopes exg exxy 0 0 2 /\ slopes exg exxy 1 0 3.
Proof.
  split; intros idx i Hidx Hi; inversion Hidx as [|? a ? idx' Ha H1]; subst; inversion H1 as [|? b ? idx'' Hb H2]; subst; inversion H2; subst; simpl in Ha, Hb, Hi.
  - destruct i as [|[|i]]; [| |lia]; destruct b as [|[|b]]; try lia; unfold element, put; simpl; lra.
  - destruct i as [|i]; [|lia]; destruct a as [|[|[|a]]]; try lia; unfold element, put; simpl; lra.
Qed.
(** Moving from (1, 1) to (4, 1): the first coordinate ends at 3. *)
Lemma onto4 : onto [0; 1; 3] 4 = 3 /\ onto [0; 1; 3] 1 = 1.
Proof. unfold onto, first, final, clamp. cbn [nth length Nat.sub]. rewrite (Rmin_left 3 4), (Rmin_right 3 1), (Rmax_right 0 3), (Rmax_right 0 1) by lra. split; reflexivity. Qed.
Lemma ex_slope : exists v v', interp_simplex Debug exg exxy [1; 1] isort = Ok v /\ interp_simplex Debug exg exxy [4; 1] isort = Ok v' /\ 0 <= v' - v <= 4.
Proof.
  destruct (simplex_slope Debug exg exxy isort 0 0 2 [0; 1] 1 4 exg_good eq_refl eq_refl isort_sorts ltac:(simpl; lia) (proj1 ex_slopes) ltac:(lra)) as (v & v' & A & B & C).
  exists v, v'. split; [exact A|]. split; [exact B|]. cbn [exg nth] in C. destruct onto4 as [E1 E2]. rewrite E1, E2 in C. lra.
Qed.
(** The bound of [ex_simplex] is attained. *)
Lemma jx_a t : jx [0; 1; 3] 2 t = (1 + bit t (/ 2))%nat.
Proof.
  destruct (jx_cases [0; 1; 3] 2) as [(A & _)|[(A & _)|(i & y & Hi & A & Ey & _ & _ & E)]]; [exact (List.Forall_inv exg_good)|simpl in A; lra|simpl in A; lra|].
  simpl in Hi. destruct i as [|[|i]]; [simpl in A; lra| |lia]. rewrite E. replace y with (/ 2); [reflexivity|]. rewrite Ey. simpl. field.
Qed.
Lemma jx_b t : jx [0; 2] 1 t = bit t (/ 2).
Proof.
  destruct (jx_cases [0; 2] 1) as [(A & _)|[(A & _)|(i & y & Hi & A & Ey & _ & _ & E)]]; [exact (List.Forall_inv (List.Forall_inv_tail exg_good))|simpl in A; lra|simpl in A; lra|].
  simpl in Hi. destruct i as [|i]; [|lia]. rewrite E. replace y with (/ 2); [reflexivity|]. rewrite Ey. simpl. field.
Qed.
Lemma ex_three : interp_simplex Debug exg exxy [2; 1] isort = Ok 3.
Proof.
  destruct (simplex_int Debug exg exxy [2; 1] isort exg_good eq_refl eq_refl isort_sorts) as (v & E & I). rewrite E. f_equal.
  assert (I' : is_RInt (fun t => element (map (@length R) exg) exxy (J exg [2; 1] t)) 0 1 3).
  { eapply int_eq; [apply (int_two _ 0 1 (/ 2) 6 0); [lra| |]|lra]; intros t Ht; unfold J, exg; cbn [map2]; rewrite jx_a, jx_b; unfold bit; destruct Rlt_dec; try lra; reflexivity. }
  rewrite <- (is_RInt_unique _ _ _ _ I). now apply is_RInt_unique.
Qed.
Lemma ex_differs : exists gs a p s o v w, good_axes gs /\ length (nd_flat a) = count (map (@length R) gs) /\ length p = length gs /\ sorts_axes s /\
  rgi_make gs a = Ok o /\ rgi_interp Debug o p false = Ok v /\ interp_simplex Debug gs (nd_flat a) p s = Ok w /\ v <> w.
Proof.
  destruct (grid_error Debug exg (mkND [3; 2]%nat exxy) pxy [0; 0] [2; 2] [2; 1] exg_good eq_refl eq_refl exxy_samples eq_refl exg_spacings) as (o & v & A & B & C).
  - apply (along2_axes curved [0; 1; 3] [0; 2] (fun x y => x * y)). split; intros c _.
    + exists (fun _ => c), (fun _ => 0). split; [|split]; intros x _; [apply is_derive_Reals; auto_derive; [exact I|ring]|apply derivable_pt_lim_const|rewrite Rabs_R0; lra].
    + exists (fun _ => c), (fun _ => 0). split; [|split]; intros x _; [apply is_derive_Reals; auto_derive; [exact I|ring]|apply derivable_pt_lim_const|rewrite Rabs_R0; lra].
  - rewrite clamp21 in C. unfold pxy, total, sum in C. cbn [nth map2 fold_right] in C.
    exists exg, (mkND [3; 2]%nat exxy), [2; 1], isort, o, v, 3. split; [exact exg_good|]. do 2 (split; [reflexivity|]). split; [exact isort_sorts|]. split; [exact A|]. split; [exact B|]. split; [exact ex_three|].
    apply Rabs_le_between in C. lra.
Qed.
