(** Property C143: accuracy in IEEE double of the two grid interpolations for a
    function sampled on the grid, from the nodes to the returned value.
    [near_table delta gs data F]: each stored value is within [delta] of [F] at
    its node; [saturated g x] is the coordinate of the axis nearest to [x]. *)
From Coq Require Import List Arith ZArith Reals Lra Lia Bool.
From Flocq Require Import IEEE754.BinarySingleNaN.
From Verif Require Import Outcome Num F64 S_Interp1d M_Grid S_Grid S_Integ S_Err S_Angles S_Double S_Grid64 S_Simplex64 S_GShape S_GErr64
  L_Simplex64 L_GridExamples L_GShape4 L_GErr64 L_GErr64b.
Import ListNotations.
Local Open Scope R_scope.

(** Simplex interpolation in double against the same in exact arithmetic, whatever the data. *)
Theorem C143_simplex_double_exact : forall bm gs data p s s' K, good_axes64 gs -> (length gs <= 1000)%nat -> moderate_axes gs -> length p = length gs ->
  length data = count (map (@length f64) gs) -> all_finite data -> magnitude_le K data -> K <= 2 ^ 1000 -> sorts_axes64 s -> sorts_axes s' ->
  exists v w, interp_simplex bm gs data p s = Ok v /\ is_finite v = true /\ interp_simplex bm (map dvalues gs) (dvalues data) (map2 saturated gs p) s' = Ok w /\
    Rabs (dvalue v - w) <= INR (length gs) * (16 * uround * K + 2 * uflow).
Proof. exact simplex_double_real. Qed.
Print Assumptions C143_simplex_double_exact.
(** The order in which equal coordinates are left matters only to rounding. *)
Theorem C143_simplex_double_any_sort : forall bm gs data p s s' K, good_axes64 gs -> (length gs <= 1000)%nat -> moderate_axes gs -> length p = length gs ->
  length data = count (map (@length f64) gs) -> all_finite data -> magnitude_le K data -> K <= 2 ^ 1000 -> sorts_axes64 s -> sorts_axes64 s' ->
  exists v v', interp_simplex bm gs data p s = Ok v /\ interp_simplex bm gs data p s' = Ok v' /\ is_finite v = true /\ is_finite v' = true /\
    Rabs (dvalue v - dvalue v') <= INR (length gs) * (32 * uround * K + 4 * uflow).
Proof. exact simplex_double_sorts. Qed.
Print Assumptions C143_simplex_double_any_sort.
(** Sampled functions: discretisation, data and rounding errors. *)
Theorem C143_simplex_double_error : forall bm gs data p s F Ms hs K delta, good_axes64 gs -> (length gs <= 1000)%nat -> moderate_axes gs -> length p = length gs ->
  length data = count (map (@length f64) gs) -> all_finite data -> magnitude_le K data -> K <= 2 ^ 1000 -> sorts_axes64 s -> near_table delta gs data F ->
  length Ms = length gs -> spacings hs (map dvalues gs) -> List.Forall (fun M => 0 <= M) Ms -> List.Forall (fun h => 0 <= h) hs -> osculates (map dvalues gs) Ms F (map2 saturated gs p) ->
  exists v, interp_simplex bm gs data p s = Ok v /\ is_finite v = true /\
    Rabs (dvalue v - F (map2 saturated gs p)) <= total (fun M h => M * h ^ 2 / 8) Ms hs + delta + INR (length gs) * (16 * uround * K + 2 * uflow).
Proof. exact simplex_double_error. Qed.
Print Assumptions C143_simplex_double_error.
Theorem C143_simplex_double_error_lipschitz : forall bm gs data p s F Ks hs K delta, good_axes64 gs -> (length gs <= 1000)%nat -> moderate_axes gs -> length p = length gs ->
  length data = count (map (@length f64) gs) -> all_finite data -> magnitude_le K data -> K <= 2 ^ 1000 -> sorts_axes64 s -> near_table delta gs data F ->
  length Ks = length gs -> spacings hs (map dvalues gs) -> List.Forall (fun M => 0 <= M) Ks -> List.Forall (fun h => 0 <= h) hs -> along_axes sloped (map dvalues gs) Ks F ->
  exists v, interp_simplex bm gs data p s = Ok v /\ is_finite v = true /\
    Rabs (dvalue v - F (map2 saturated gs p)) <= total (fun K h => K * h / 2) Ks hs + delta + INR (length gs) * (16 * uround * K + 2 * uflow).
Proof. exact simplex_double_error_lip. Qed.
Print Assumptions C143_simplex_double_error_lipschitz.
Theorem C143_grid_double_error : forall bm gs a F Ms hs K delta, good_axes64 gs -> (length gs <= 1000)%nat -> moderate_axes gs ->
  length (nd_flat a) = count (map (@length f64) gs) -> all_finite (nd_flat a) -> magnitude_le K (nd_flat a) -> K <= 2 ^ 1000 -> near_table delta gs (nd_flat a) F ->
  length Ms = length gs -> spacings hs (map dvalues gs) -> along_axes curved (map dvalues gs) Ms F ->
  exists o, rgi_make gs a = Ok o /\ forall p, length p = length gs -> exists v, rgi_interp bm o p false = Ok v /\ is_finite v = true /\
    Rabs (dvalue v - F (map2 saturated gs p)) <= total (fun M h => M * h ^ 2 / 8) Ms hs + delta + INR (length gs) * (14 * uround * K + 2 * uflow).
Proof. exact grid_double_error. Qed.
Print Assumptions C143_grid_double_error.
Theorem C143_grid_double_error_lipschitz : forall bm gs a F Ks hs K delta, good_axes64 gs -> (length gs <= 1000)%nat -> moderate_axes gs ->
  length (nd_flat a) = count (map (@length f64) gs) -> all_finite (nd_flat a) -> magnitude_le K (nd_flat a) -> K <= 2 ^ 1000 -> near_table delta gs (nd_flat a) F ->
  length Ks = length gs -> spacings hs (map dvalues gs) -> List.Forall (fun K => 0 <= K) Ks -> List.Forall (fun h => 0 <= h) hs -> along_axes sloped (map dvalues gs) Ks F ->
  exists o, rgi_make gs a = Ok o /\ forall p, length p = length gs -> exists v, rgi_interp bm o p false = Ok v /\ is_finite v = true /\
    Rabs (dvalue v - F (map2 saturated gs p)) <= total (fun K h => K * h / 2) Ks hs + delta + INR (length gs) * (14 * uround * K + 2 * uflow).
Proof. exact grid_double_error_lip. Qed.
Print Assumptions C143_grid_double_error_lipschitz.

(** *** Concrete cases: x*y on the axes 0, 1, 3 and 0, 2, at (2, 1). *)
Example C143_example_hypotheses : good_axes64 exg64 /\ moderate_axes exg64 /\ all_finite exd64 /\ magnitude_le 6 exd64 /\ near_table 0 exg64 exd64 pxy /\
  sorts_axes64 isort64 /\ along_axes curved (map dvalues exg64) [0; 0] pxy.
Proof. rewrite exg64_real. exact (conj exg64_good (conj exg64_moderate (conj exd64_finite (conj exd64_magnitude (conj exd64_near (conj isort64_sorts exxy_curved)))))). Qed.
Example C143_example_simplex : exists v, interp_simplex Debug exg64 exd64 exp64 isort64 = Ok v /\ is_finite v = true /\ Rabs (dvalue v - 2) <= 1 + / 1000000000000.
Proof. exact ex_simplex64. Qed.
Example C143_example_grid : exists o v, rgi_make exg64 (mkND [3; 2]%nat exd64) = Ok o /\ rgi_interp Debug o exp64 false = Ok v /\ is_finite v = true /\ Rabs (dvalue v - 2) <= / 1000000000000.
Proof. exact ex_grid64. Qed.
