(** Property C141: accuracy of the simplex interpolation of the bundled linterp
    for a function sampled on a grid; independence of the order in which
    [std::sort] leaves equal local coordinates.  [osculates gs Ms F q]: near [q],
    [F] is affine up to the sum of M_k (x_k - q_k)^2 / 2. *)
From Coq Require Import List Arith ZArith Reals Lra Lia Bool.
From Verif Require Import Outcome Num S_Interp1d M_Grid S_Grid S_Integ S_Err S_Lim S_GShape L_GridSimplex L_GridExamples L_GShape2 L_GShape3 L_GShape4 L_Lim.
Import ListNotations.
Local Open Scope R_scope.

(** Any two ways of sorting give the same value. *)
Theorem C141_simplex_any_sort : forall bm gs data p s s', good_axes gs -> length p = length gs -> length data = count (map (@length R) gs) -> sorts_axes s -> sorts_axes s' ->
  interp_simplex bm gs data p s = interp_simplex bm gs data p s'.
Proof. exact simplex_any_sort. Qed.
Print Assumptions C141_simplex_any_sort.
(** Second order accuracy. *)
Theorem C141_simplex_error : forall bm gs data s F Ms hs p, good_axes gs -> length data = count (map (@length R) gs) -> length p = length gs -> sorts_axes s ->
  samples gs data F -> length Ms = length gs -> spacings hs gs -> List.Forall (fun M => 0 <= M) Ms -> List.Forall (fun h => 0 <= h) hs -> osculates gs Ms F (clamp_point gs p) ->
  exists v, interp_simplex bm gs data p s = Ok v /\ Rabs (v - F (clamp_point gs p)) <= total (fun M h => M * h ^ 2 / 8) Ms hs.
Proof. exact simplex_error. Qed.
Print Assumptions C141_simplex_error.
(** Functions with bounded second derivatives meet the hypothesis. *)
Theorem C141_smooth_functions : forall gs Ms a F q, length a = length gs -> length q = length gs -> smooth_from gs Ms a F q -> osculates gs Ms F q.
Proof. exact smooth_osculates. Qed.
Print Assumptions C141_smooth_functions.
(** Lipschitz functions. *)
Theorem C141_simplex_error_lipschitz : forall bm gs data s F Ks hs p, good_axes gs -> length data = count (map (@length R) gs) -> length p = length gs -> sorts_axes s ->
  samples gs data F -> length Ks = length gs -> spacings hs gs -> List.Forall (fun K => 0 <= K) Ks -> List.Forall (fun h => 0 <= h) hs -> along_axes sloped gs Ks F ->
  exists v, interp_simplex bm gs data p s = Ok v /\ Rabs (v - F (clamp_point gs p)) <= total (fun K h => K * h / 2) Ks hs.
Proof. exact simplex_error_lip. Qed.
Print Assumptions C141_simplex_error_lipschitz.
(** Continuous functions: convergence, uniformly over the points, the grids and the sorts. *)
Theorem C141_simplex_converges : forall b F, continuous_box b F -> forall eps, 0 < eps -> exists h, 0 < h /\
  forall bm gs data s, refines h b gs -> length data = count (map (@length R) gs) -> samples gs data F -> sorts_axes s ->
  forall p, length p = length b -> exists v, interp_simplex bm gs data p s = Ok v /\ Rabs (v - F (clamp_point gs p)) <= eps.
Proof. exact simplex_converges. Qed.
Print Assumptions C141_simplex_converges.
(** The two interpolation methods do not agree in general. *)
Theorem C141_same_as_multilinear_refuted : exists gs a p s o v w, good_axes gs /\ length (nd_flat a) = count (map (@length R) gs) /\ length p = length gs /\ sorts_axes s /\
  rgi_make gs a = Ok o /\ rgi_interp Debug o p false = Ok v /\ interp_simplex Debug gs (nd_flat a) p s = Ok w /\ v <> w.
Proof. exact ex_differs. Qed.
Print Assumptions C141_same_as_multilinear_refuted.

(** *** Concrete cases *)
(** x*y on the axes 0, 1, 3 and 0, 2: at (2, 1) the function is 2, the bound 1, the value 3. *)
Example C141_example_product : smooth_from exg [1; 1] [1; 2] pxy [2; 1] /\ samples exg exxy pxy /\ sorts_axes isort /\
  (exists v, interp_simplex Debug exg exxy [2; 1] isort = Ok v /\ Rabs (v - 2) <= 1) /\ interp_simplex Debug exg exxy [2; 1] isort = Ok 3.
Proof. exact (conj exxy_smooth (conj exxy_samples (conj isort_sorts (conj ex_simplex ex_three)))). Qed.
Example C141_example_box : continuous_box [(0, 1); (0, 2)] (fun p => sqrt (nth 0 p 0) + nth 1 p 0) /\
  refines (1 / 2) [(0, 1); (0, 2)] [quarters; [0; 1 / 2; 1; 3 / 2; 2]].
Proof. exact ex_box. Qed.
