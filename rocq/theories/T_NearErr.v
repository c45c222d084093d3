(** Property C146: accuracy in double of the value at the nearest node, and of
    the 2D table for Lipschitz functions; values read from the lookup tables
    tend to the tabulated function as the tables are refined.
    [node_excess hs Ms]: per axis, half the spacing and two roundings. *)
From Coq Require Import List Arith ZArith Reals Lra Lia Bool.
From Coq Require String.
From Flocq Require Import IEEE754.BinarySingleNaN.
From Verif Require Import Outcome Num F64 M_Grid M_Interp1d M_Interp2d M_Lookup S_Interp1d S_Interp2d S_Lookup S_Grid S_Integ S_Angles S_Double S_Grid64 S_Near64 S_Err S_Lim S_GErr64 S_NearErr
  L_GErr64b L_Lim L_NearErr L_NearErr2.
Import ListNotations.
Import String.StringSyntax.
Local Open Scope R_scope.
Local Open Scope string_scope.

(** The value at the nearest node, in double; data within [delta] of [F] at the nodes. *)
Theorem C146_nearest_double_error : forall bm gs (a : ndarray f64) F Ks hs Ms delta p, good_axes64 gs -> Forall doubling_ok gs -> nd_shape a = map (@length f64) gs -> length (nd_flat a) = count (nd_shape a) ->
  near_table delta gs (nd_flat a) F -> length Ks = length gs -> spacings hs (map dvalues gs) -> Forall2 magnitude_le Ms gs -> Forall (fun K => 0 <= K) Ks -> Forall (fun h => 0 <= h) hs ->
  along_axes sloped (map dvalues gs) Ks F -> all_finite p -> in_box (map dvalues gs) (dvalues p) ->
  exists o n, rgn_make gs a = Ok o /\ rgn_nearest bm o p = Ok n /\ Rabs (dvalue (gn_val n) - F (dvalues p)) <= total (fun K e => K * e) Ks (node_excess hs Ms) + delta.
Proof. exact nearest_double_error. Qed.
Print Assumptions C146_nearest_double_error.
(** LookupTable2d in double, Lipschitz functions. *)
Theorem C146_table2d_double_error_lipschitz : forall bm ops (t : lut2 f64) name xs ys data x y i j f delta Kx Ky, lut2_run bm lut2_new ops = Ok t ->
  registered2 LINEAR None None ops name = Some (LINEAR, Some xs, Some ys, data) ->
  all_finite xs -> all_finite ys -> all_finite data -> is_finite x = true -> is_finite y = true ->
  increasing (dvalues xs) -> increasing (dvalues ys) -> length data = (length xs * length ys)%nat ->
  inside (dvalues xs) (dvalues ys) (dvalue x) (dvalue y) ->
  clamped_cell (dvalues xs) (dvalue x) i -> clamped_cell (dvalues ys) (dvalue y) j ->
  let x1 := nth i (dvalues xs) 0 in let x2 := nth (S i) (dvalues xs) 0 in
  let y1 := nth j (dvalues ys) 0 in let y2 := nth (S j) (dvalues ys) 0 in
  let d a b := nth (length ys * a + b) (dvalues data) 0 in
  let X := Rmax (Rabs x1) (Rabs x2) in let Y := Rmax (Rabs y1) (Rabs y2) in
  let D := Rabs (d i j) + Rabs (d i (S j)) + Rabs (d (S i) j) + Rabs (d (S i) (S j)) in
  X <= 2 ^ 100 -> Y <= 2 ^ 100 -> D <= 2 ^ 400 -> / 2 ^ 100 <= x2 - x1 -> / 2 ^ 100 <= y2 - y1 ->
  Rabs (d i j - f x1 y1) <= delta -> Rabs (d i (S j) - f x1 y2) <= delta -> Rabs (d (S i) j - f x2 y1) <= delta -> Rabs (d (S i) (S j) - f x2 y2) <= delta ->
  along2 sloped [x1; x2] [y1; y2] f Kx Ky ->
  exists v, lut2_eval bm t name x y = Ok v /\ is_finite v = true /\
    Rabs (dvalue v - f (dvalue x) (dvalue y)) <= (Kx * (x2 - x1) + Ky * (y2 - y1)) / 2 + delta + (57 * uround * (D * X * Y / ((x2 - x1) * (y2 - y1))) + / 2 ^ 200).
Proof. exact table2_double_error_lip. Qed.
Print Assumptions C146_table2d_double_error_lipschitz.
(** Convergence of the tables (exact arithmetic), uniformly over the points, the histories of calls and the tables. *)
Theorem C146_table1d_converges : forall f a b, continuous_on f a b -> forall eps, 0 < eps -> exists h, 0 < h /\
  forall bm m ops (t : lut1 R R) name xs, lut1_run bm (lut1_new m) ops = Ok t -> registered1 None ops name = Some (Some xs, map f xs) ->
  is_linear m -> increasing xs -> (2 <= length xs)%nat -> spacing h xs -> first xs = a -> final xs = b ->
  forall x, a <= x <= b -> exists v, lut1_eval t name x = Ok v /\ Rabs (v - f x) <= eps.
Proof. exact table1_converges. Qed.
Print Assumptions C146_table1d_converges.
Theorem C146_table2d_converges : forall f ax bx ay b_y, continuous_box [(ax, bx); (ay, b_y)] (fun p => f (nth 0 p 0) (nth 1 p 0)) -> forall eps, 0 < eps -> exists h, 0 < h /\
  forall bm ops (t : lut2 R) name xs ys data, lut2_run bm lut2_new ops = Ok t -> registered2 LINEAR None None ops name = Some (LINEAR, Some xs, Some ys, data) ->
  increasing xs -> increasing ys -> (2 <= length xs)%nat -> (2 <= length ys)%nat -> length data = (length xs * length ys)%nat ->
  samples2 xs ys data f -> spacing h xs -> spacing h ys -> first xs = ax -> final xs = bx -> first ys = ay -> final ys = b_y ->
  forall x y, inside xs ys x y -> exists v, lut2_eval bm t name x y = Ok v /\ Rabs (v - f x y) <= eps.
Proof. exact table2_converges. Qed.
Print Assumptions C146_table2d_converges.

(** *** Concrete cases *)
(** x*y on the axes 0, 1, 3 and 0, 2 in double, at (2, 1). *)
Example C146_example_nearest : exists o n, rgn_make exg64 (mkND [3; 2]%nat exd64) = Ok o /\ rgn_nearest Release o exp64 = Ok n /\ Rabs (dvalue (gn_val n) - 2) <= 5 + / 1000000000000.
Proof. exact ex_near64. Qed.
(** The square root, tabulated after another series on the same abscissae. *)
Example C146_example_table : (exists t, lut1_run Release (lut1_new LINEAR) sqrt_ops = Ok t /\ registered1 None sqrt_ops "root" = Some (Some quarters, map sqrt quarters)) /\
  exists h, 0 < h /\ forall bm m ops (t : lut1 R R) name xs, lut1_run bm (lut1_new m) ops = Ok t -> registered1 None ops name = Some (Some xs, map sqrt xs) ->
  is_linear m -> increasing xs -> (2 <= length xs)%nat -> spacing h xs -> first xs = 0 -> final xs = 1 ->
  forall x, 0 <= x <= 1 -> exists v, lut1_eval t name x = Ok v /\ Rabs (v - sqrt x) <= / 1000.
Proof. exact (conj ex_root ex_root_limit). Qed.
