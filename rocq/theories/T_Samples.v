(** C151: interpolants as functions of their samples. *)
From Coq Require Import List Arith ZArith Reals Lra Lia Bool.
From Verif Require Import Outcome Num StdAlgo M_Interp1d S_Interp1d L_Interp1d M_Interp2d S_Interp2d L_Interp2d M_Grid S_Grid L_Grid
  L_GridExamples L_Samples.
Import ListNotations.
Local Open Scope R_scope.

(** The interpolator of a linear combination of samples is the combination of
    the interpolators. *)
Theorem C151_interp1d_combination : forall bm m xs ys zs us oy oz ou al be x,
  is_linear m -> increasing xs -> (2 <= length xs)%nat ->
  length ys = length xs -> length zs = length xs -> length us = length xs ->
  (forall i, (i < length xs)%nat -> nth i us 0 = al * nth i ys 0 + be * nth i zs 0) ->
  new1d bm m xs ys = Ok oy -> new1d bm m xs zs = Ok oz -> new1d bm m xs us = Ok ou ->
  nth 0 xs 0 <= x <= nth (length xs - 1) xs 0 ->
  exists v w, eval1d oy x = Ok v /\ eval1d oz x = Ok w /\ eval1d ou x = Ok (al * v + be * w).
Proof. exact combine1. Qed.
Print Assumptions C151_interp1d_combination.
Theorem C151_interp2d_combination : forall bm xs ys ds es us od oe ou al be x y,
  increasing xs -> increasing ys -> (2 <= length xs)%nat -> (2 <= length ys)%nat ->
  length ds = (length xs * length ys)%nat -> length es = (length xs * length ys)%nat -> length us = (length xs * length ys)%nat ->
  (forall k, (k < length xs * length ys)%nat -> nth k us 0 = al * nth k ds 0 + be * nth k es 0) ->
  new2d bm LINEAR xs ys ds = Ok od -> new2d bm LINEAR xs ys es = Ok oe -> new2d bm LINEAR xs ys us = Ok ou ->
  inside xs ys x y ->
  exists v w, eval2d bm od x y = Ok v /\ eval2d bm oe x y = Ok w /\ eval2d bm ou x y = Ok (al * v + be * w).
Proof. exact combine2. Qed.
Print Assumptions C151_interp2d_combination.
Theorem C151_grid_combination : forall bm gs a b c oa ob oc al be cell p, good_axes gs ->
  length (nd_flat a) = count (map (@length R) gs) -> length (nd_flat b) = count (map (@length R) gs) ->
  length (nd_flat c) = count (map (@length R) gs) ->
  (forall k, (k < count (map (@length R) gs))%nat -> nth k (nd_flat c) 0 = al * nth k (nd_flat a) 0 + be * nth k (nd_flat b) 0) ->
  rgi_make gs a = Ok oa -> rgi_make gs b = Ok ob -> rgi_make gs c = Ok oc -> in_cell gs cell p ->
  exists v w, rgi_interp bm oa p false = Ok v /\ rgi_interp bm ob p false = Ok w /\
    rgi_interp bm oc p false = Ok (al * v + be * w).
Proof. exact combine_grid. Qed.
Print Assumptions C151_grid_combination.

(** Larger samples give larger values, and perturbed samples perturb the values
    no more than themselves. *)
Theorem C151_interp1d_order : forall bm m xs ys zs oy oz x,
  is_linear m -> increasing xs -> (2 <= length xs)%nat -> length ys = length xs -> length zs = length xs ->
  (forall i, (i < length xs)%nat -> nth i ys 0 <= nth i zs 0) ->
  new1d bm m xs ys = Ok oy -> new1d bm m xs zs = Ok oz ->
  nth 0 xs 0 <= x <= nth (length xs - 1) xs 0 ->
  exists v w, eval1d oy x = Ok v /\ eval1d oz x = Ok w /\ v <= w.
Proof. exact order1. Qed.
Print Assumptions C151_interp1d_order.
Theorem C151_interp1d_perturbation : forall bm m xs ys zs oy oz x e,
  is_linear m -> increasing xs -> (2 <= length xs)%nat -> length ys = length xs -> length zs = length xs ->
  (forall i, (i < length xs)%nat -> Rabs (nth i ys 0 - nth i zs 0) <= e) ->
  new1d bm m xs ys = Ok oy -> new1d bm m xs zs = Ok oz ->
  nth 0 xs 0 <= x <= nth (length xs - 1) xs 0 ->
  exists v w, eval1d oy x = Ok v /\ eval1d oz x = Ok w /\ Rabs (v - w) <= e.
Proof. exact stable1. Qed.
Print Assumptions C151_interp1d_perturbation.
(** (lo = 0, or hi = 0, is the order; lo = - e and hi = e the perturbation.) *)
Theorem C151_interp2d_difference : forall bm xs ys ds es od oe lo hi x y,
  increasing xs -> increasing ys -> (2 <= length xs)%nat -> (2 <= length ys)%nat ->
  length ds = (length xs * length ys)%nat -> length es = (length xs * length ys)%nat ->
  (forall k, (k < length xs * length ys)%nat -> lo <= nth k ds 0 - nth k es 0 <= hi) ->
  new2d bm LINEAR xs ys ds = Ok od -> new2d bm LINEAR xs ys es = Ok oe -> inside xs ys x y ->
  exists v w, eval2d bm od x y = Ok v /\ eval2d bm oe x y = Ok w /\ lo <= v - w <= hi.
Proof. exact stable2. Qed.
Print Assumptions C151_interp2d_difference.
Theorem C151_grid_difference : forall bm gs a b oa ob lo hi cell p, good_axes gs ->
  length (nd_flat a) = count (map (@length R) gs) -> length (nd_flat b) = count (map (@length R) gs) ->
  (forall k, (k < count (map (@length R) gs))%nat -> lo <= nth k (nd_flat a) 0 - nth k (nd_flat b) 0 <= hi) ->
  rgi_make gs a = Ok oa -> rgi_make gs b = Ok ob -> in_cell gs cell p ->
  exists v w, rgi_interp bm oa p false = Ok v /\ rgi_interp bm ob p false = Ok w /\ lo <= v - w <= hi.
Proof. exact stable_grid. Qed.
Print Assumptions C151_grid_difference.

(** One more sample, taken from the interpolant itself, changes nothing. *)
Theorem C151_interp1d_insertion : forall bm m p q a b r s oy oz x, is_linear m -> increasing (p ++ q) ->
  p <> [] -> q <> [] -> length r = length p -> length s = length q ->
  nth (length p - 1) (p ++ q) 0 < a < nth (length p) (p ++ q) 0 ->
  new1d bm m (p ++ q) (r ++ s) = Ok oy -> eval1d oy a = Ok b ->
  new1d bm m (p ++ a :: q) (r ++ b :: s) = Ok oz ->
  nth 0 (p ++ q) 0 <= x <= nth (length (p ++ q) - 1) (p ++ q) 0 ->
  exists v, eval1d oy x = Ok v /\ eval1d oz x = Ok v.
Proof. exact insert1. Qed.
Print Assumptions C151_interp1d_insertion.
(** Changing the unit and the origin of the abscissae changes nothing. *)
Theorem C151_interp1d_rescaling : forall bm m xs xs' ys o o' c d x,
  is_linear m -> increasing xs -> (2 <= length xs)%nat -> length ys = length xs ->
  0 < c -> xs' = map (fun t => c * t + d) xs ->
  new1d bm m xs ys = Ok o -> new1d bm m xs' ys = Ok o' ->
  nth 0 xs 0 <= x <= nth (length xs - 1) xs 0 ->
  exists v, eval1d o x = Ok v /\ eval1d o' (c * x + d) = Ok v.
Proof. exact rescale1. Qed.
Print Assumptions C151_interp1d_rescaling.
(** Exchanging the axes, and transposing the table, changes nothing. *)
Theorem C151_interp2d_transposition : forall bm xs ys ds es od oe x y,
  increasing xs -> increasing ys -> (2 <= length xs)%nat -> (2 <= length ys)%nat ->
  length ds = (length xs * length ys)%nat -> length es = (length xs * length ys)%nat ->
  (forall i j, (i < length xs)%nat -> (j < length ys)%nat -> nth (length xs * j + i) es 0 = nth (length ys * i + j) ds 0) ->
  new2d bm LINEAR xs ys ds = Ok od -> new2d bm LINEAR ys xs es = Ok oe -> inside xs ys x y ->
  exists v, eval2d bm od x y = Ok v /\ eval2d bm oe y x = Ok v.
Proof. exact transpose2. Qed.
Print Assumptions C151_interp2d_transposition.

(** Cases: the samples 1, 3, 2 at 0, 1, 3, and the table of C14. *)
Lemma axis3 : increasing [0; 1; 3]. Proof. exact (proj1 (Forall_inv exg_good)). Qed.
Lemma axis2 : increasing [0; 2]. Proof. exact (proj1 (Forall_inv (Forall_inv_tail exg_good))). Qed.
Example C151_combination_example : exists ou,
  new1d Debug LINEAR [0; 1; 3] [2; 5; 3] = Ok ou /\ eval1d ou 2 = Ok (2 * (5 / 2) + (- 1) * 1).
Proof.
  destruct (chord_lemma Debug LINEAR [0; 1; 3] [1; 3; 2] 1 2) as (oy & v & Hy & Ey & Ly & _);
    try (left; reflexivity); try exact axis3; try (simpl; lia); try (simpl; lra).
  destruct (chord_lemma Debug LINEAR [0; 1; 3] [0; 1; 1] 1 2) as (oz & w & Hz & Ez & Lz & _);
    try (left; reflexivity); try exact axis3; try (simpl; lia); try (simpl; lra).
  destruct (chord_lemma Debug LINEAR [0; 1; 3] [2; 5; 3] 1 2) as (ou & u & Hu & _);
    try (left; reflexivity); try exact axis3; try (simpl; lia); try (simpl; lra).
  exists ou. split; [exact Hu|].
  destruct (C151_interp1d_combination Debug LINEAR [0; 1; 3] [1; 3; 2] [0; 1; 1] [2; 5; 3] oy oz ou 2 (-1) 2) as (v' & w' & E1 & E2 & E3);
    auto; try (left; reflexivity); try exact axis3; try (simpl; lia); try (simpl; lra).
  - intros [|[|[|i]]] Hi; simpl in Hi |- *; try lia; lra.
  - rewrite E3. rewrite Ey in E1. rewrite Ez in E2. injection E1 as <-. injection E2 as <-.
    unfold on_line in Ly, Lz. simpl in Ly, Lz. f_equal. lra.
Qed.
Example C151_insertion_example : exists oz,
  new1d Release LINEAR_SATURATE [0; 1; 2; 3] [1; 3; 5 / 2; 2] = Ok oz /\ eval1d oz (3 / 2) = Ok (11 / 4).
Proof.
  assert (L : is_linear LINEAR_SATURATE) by (right; right; reflexivity).
  destruct (chord_lemma Release LINEAR_SATURATE [0; 1; 3] [1; 3; 2] 1 2 L axis3) as (oy & v & Hy & Ey & Ly & _);
    try (simpl; lia); try (simpl; lra).
  destruct (chord_lemma Release LINEAR_SATURATE [0; 1; 3] [1; 3; 2] 1 (3 / 2) L axis3) as (oy' & v' & Hy' & Ey' & Ly' & _);
    try (simpl; lia); try (simpl; lra).
  rewrite Hy in Hy'. injection Hy' as <-.
  assert (I4 : increasing [0; 1; 2; 3]).
  { intros [|[|[|[|i]]]] [|[|[|[|j]]]] Hij; simpl in Hij |- *; try lia; lra. }
  destruct (chord_lemma Release LINEAR_SATURATE [0; 1; 2; 3] [1; 3; 5 / 2; 2] 1 2 L I4) as (oz & u & Hz & _);
    try (simpl; lia); try (simpl; lra).
  exists oz. split; [exact Hz|].
  unfold on_line in Ly, Ly'. simpl in Ly, Ly'. assert (v = 5 / 2) by lra. assert (v' = 11 / 4) by lra. subst v v'.
  destruct (C151_interp1d_insertion Release LINEAR_SATURATE [0; 1] [3] 2 (5 / 2) [1; 3] [2] oy oz (3 / 2) L axis3)
    as (w & E1 & E2); try discriminate; try reflexivity; try assumption; try (simpl; lra).
  rewrite E2, <- E1. exact Ey'.
Qed.
Example C151_transposition_example : exists od oe v,
  new2d Debug LINEAR [0; 1; 3] [0; 2] [1; 2; 3; 5; 8; 13] = Ok od /\ new2d Debug LINEAR [0; 2] [0; 1; 3] [1; 3; 8; 2; 5; 13] = Ok oe /\
  eval2d Debug od 2 1 = Ok v /\ eval2d Debug oe 1 2 = Ok v.
Proof.
  destruct (bilinear_cell_lemma Debug [0; 1; 3] [0; 2] [1; 2; 3; 5; 8; 13] 1 0 2 1 axis3 axis2) as (od & u & Hd & _);
    try (simpl; lia); try (simpl; lra); try reflexivity.
  destruct (bilinear_cell_lemma Debug [0; 2] [0; 1; 3] [1; 3; 8; 2; 5; 13] 0 1 1 2 axis2 axis3) as (oe & u' & He & _);
    try (simpl; lia); try (simpl; lra); try reflexivity.
  destruct (C151_interp2d_transposition Debug [0; 1; 3] [0; 2] [1; 2; 3; 5; 8; 13] [1; 3; 8; 2; 5; 13] od oe 2 1 axis3 axis2) as (v & E1 & E2);
    try (simpl; lia); try reflexivity; try assumption.
  - intros [|[|[|i]]] [|[|j]] Hi Hj; simpl in Hi, Hj |- *; try lia; reflexivity.
  - split; simpl; lra.
  - exists od, oe, v. auto.
Qed.
(** Raising every value of the table by between 0 and 1 raises the result by
    between 0 and 1. *)
Example C151_difference_example : exists oa ob v w,
  rgi_make exg (mkND [3%nat; 2%nat] [1; 3; 3; 6; 9; 13]) = Ok oa /\ rgi_make exg exa = Ok ob /\
  rgi_interp Release oa [2; 1] false = Ok v /\ rgi_interp Release ob [2; 1] false = Ok w /\ 0 <= v - w <= 1.
Proof.
  assert (C : in_cell exg [1; 0]%nat [2; 1]) by (simpl; repeat split; try lia; lra).
  destruct (grid_blend_lemma Release exg (mkND [3%nat; 2%nat] [1; 3; 3; 6; 9; 13]) [1; 0]%nat [2; 1] exg_good eq_refl C) as (oa & Ha & _).
  destruct (grid_blend_lemma Release exg exa [1; 0]%nat [2; 1] exg_good eq_refl C) as (ob & Hb & _).
  destruct (C151_grid_difference Release exg (mkND [3%nat; 2%nat] [1; 3; 3; 6; 9; 13]) exa oa ob 0 1 [1; 0]%nat [2; 1] exg_good)
    as (v & w & E1 & E2 & E3); auto.
  - intros [|[|[|[|[|[|k]]]]]] Hk; simpl in Hk |- *; try lia; lra.
  - exists oa, ob, v, w. auto.
Qed.
