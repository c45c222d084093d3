(** Example grid, and the witnesses of the refuted claims about grids. *)
From Coq Require Import List Arith ZArith Lia Bool Reals Lra.
From Verif Require Import Outcome Num StdAlgo M_Interp1d S_Interp1d M_Interp2d S_Interp2d
  M_Grid S_Grid S_GridHistory L_Grid L_GridLow L_GridHistory L_GridNearest L_GridSimplex.
Import ListNotations.
Open Scope R_scope.

(** Grid of the examples: 3 x 2. *)
Definition exg : list (list R) := [[0; 1; 3]; [0; 2]].
Definition exd : list R := [1; 2; 3; 5; 8; 13].
Definition exa : ndarray R := mkND [3%nat; 2%nat] exd.
Lemma exg_good : good_axes exg.
Proof.
  constructor; [|constructor; [|constructor]]; (split; [|discriminate]);
  intros i j Hij; simpl in Hij; destruct i as [|[|[|i]]]; destruct j as [|[|[|j]]]; simpl; try lia; lra.
Qed.
Lemma exg_extents i j : (i < 3)%nat -> (j < 2)%nat -> in_extents [3%nat; 2%nat] [i; j].
Proof. intros. constructor; [auto|constructor; [auto|constructor]]. Qed.

Lemma C29_is_valid_means_usable_refuted_pf : exists h o,
  rgi_run 1 (rgi_new 1) h = Ok o /\ rgi_is_valid o = true /\
  forall bm p, rgi_interp bm o p false = UB.
Proof.
  exists [RAddCoord [0; 1]; RAddVar (mkND [2%nat] [5; 6]); RAddVar (mkND [1%nat] [5])].
  eexists. split; [|split].
  - simpl. unfold rgi_add_coord. simpl. rewrite (proj2 (Rleb_false 1 0)) by lra. simpl. reflexivity.
  - reflexivity.
  - reflexivity.
Qed.

Lemma C33_below_saturates_refuted_pf : exists (gs : list (list R)) (a : ndarray R) p o nodes,
  good_axes gs /\ length p = length gs /\ rgn_make gs a = Ok o /\ rgn_around Debug o p = Ok nodes /\
  nth 0 p 0 < nth 0 (nth 0 gs []) 0 /\
  forall n, In n nodes -> ~ nearest_on (nth 0 gs []) (nth 0 p 0) (nth 0 (gn_indices n) 0%nat).
Proof.
  destruct (around_outside_lemma R Debug exg exa [-1; 1] 0 exg_good) as (o & nodes & H1 & H2 & _ & H3).
  - repeat constructor; unfold small; simpl; lia.
  - reflexivity.
  - reflexivity.
  - reflexivity.
  - simpl; lia.
  - simpl. lra.
  - exists exg, exa, [-1; 1], o, nodes. split; [exact exg_good|]. split; [reflexivity|].
    split; [exact H1|]. split; [exact H2|]. split; [simpl; lra|].
    intros n Hn [_ HN]. destruct (H3 n Hn) as [E _]. rewrite E in HN. simpl in HN.
    destruct (HN 0%nat ltac:(lia)) as [HN1 _]. simpl in HN1.
    revert HN1. repeat (unfold Rabs; destruct (Rcase_abs _)); lra.
Qed.

Lemma C85_interp_agrees_with_eval_at_indice_refuted_pf : exists gs a o idx v w,
  good_axes gs /\ length (nd_flat a) = count (nd_shape a) /\ rgi_make gs a = Ok o /\
  rgi_interp Debug o (node_at gs idx) true = Ok v /\ rgi_at Debug o idx = Ok w /\ v <> w.
Proof.
  exists exg, (mkND [2; 3]%nat exd).
  destruct (grid_shape_lemma Debug exg (mkND [2; 3]%nat exd) [1; 0]%nat exg_good eq_refl
    (exg_extents 1 0 ltac:(lia) ltac:(lia))) as (o & H1 & H2).
  exists o, [1; 0]%nat, 3, 5.
  split; [exact exg_good|]. split; [reflexivity|]. split; [exact H1|]. split; [|split; [|lra]].
  - destruct (grid_bound_check_lemma Debug exg (mkND [2; 3]%nat exd) (node_at exg [1; 0]%nat) exg_good eq_refl eq_refl)
      as (o' & v & H1' & H2' & _ & H3').
    rewrite H1 in H1'. injection H1' as <-. rewrite H3'; [rewrite <- H2', H2; reflexivity|].
    apply (node_not_outside exg [1; 0]%nat exg_good). apply exg_extents; lia.
  - rewrite rgi_make_ok in H1 by (exact exg_good || reflexivity). injection H1 as <-. reflexivity.
Qed.
