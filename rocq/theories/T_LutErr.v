(** Property C144: accuracy of tabulated functions: Interp2d in double, the two
    lookup tables in exact arithmetic and in double, after any sequence of calls
    that registered the table; slopes of Interp2d. *)
From Coq Require Import List Arith ZArith Reals Lra Lia Bool.
From Coq Require String.
From Flocq Require Import IEEE754.BinarySingleNaN.
From Verif Require Import Outcome Num F64 M_Interp1d M_Interp2d M_Lookup S_Interp1d S_Interp2d S_Lookup S_Integ S_Angles S_Double S_Err L_LutErr L_LutErr2 L_GErr64b L_GShape4.
Import ListNotations.
Import String.StringSyntax.
Local Open Scope R_scope.
Local Open Scope string_scope.

(** Interp2d in double, samples known to within [delta]; [i], [j] is the cell of the point. *)
Theorem C144_interp2d_double_error : forall bm xs ys data x y i j f delta Mx My,
  all_finite xs -> all_finite ys -> all_finite data -> is_finite x = true -> is_finite y = true ->
  increasing (dvalues xs) -> increasing (dvalues ys) -> length data = (length xs * length ys)%nat ->
  inside (dvalues xs) (dvalues ys) (dvalue x) (dvalue y) ->
  clamped_cell (dvalues xs) (dvalue x) i -> clamped_cell (dvalues ys) (dvalue y) j ->
  let x1 := nth i (dvalues xs) 0 in let x2 := nth (S i) (dvalues xs) 0 in
  let y1 := nth j (dvalues ys) 0 in let y2 := nth (S j) (dvalues ys) 0 in
  let d a b := nth (length ys * a + b) (dvalues data) 0 in
  let X := Rmax (Rabs x1) (Rabs x2) in let Y := Rmax (Rabs y1) (Rabs y2) in
  let D := Rabs (d i j) + Rabs (d i (S j)) + Rabs (d (S i) j) + Rabs (d (S i) (S j)) in
  X <= 2 ^ 100 -> Y <= 2 ^ 100 -> D <= 2 ^ 400 -> / 2 ^ 100 <= x2 - x1 -> / 2 ^ 100 <= y2 - y1 ->
  Rabs (d i j - f x1 y1) <= delta -> Rabs (d i (S j) - f x1 y2) <= delta -> Rabs (d (S i) j - f x2 y1) <= delta -> Rabs (d (S i) (S j) - f x2 y2) <= delta ->
  along2 curved [x1; x2] [y1; y2] f Mx My ->
  exists o v, new2d bm LINEAR xs ys data = Ok o /\ eval2d bm o x y = Ok v /\ is_finite v = true /\
    Rabs (dvalue v - f (dvalue x) (dvalue y)) <= (Mx * (x2 - x1) ^ 2 + My * (y2 - y1) ^ 2) / 8 + delta + (57 * uround * (D * X * Y / ((x2 - x1) * (y2 - y1))) + / 2 ^ 200).
Proof. exact interp2d_double_error. Qed.
Print Assumptions C144_interp2d_double_error.
Theorem C144_interp2d_double_error_lipschitz : forall bm xs ys data x y i j f delta Kx Ky,
  all_finite xs -> all_finite ys -> all_finite data -> is_finite x = true -> is_finite y = true ->
  increasing (dvalues xs) -> increasing (dvalues ys) -> length data = (length xs * length ys)%nat ->
  inside (dvalues xs) (dvalues ys) (dvalue x) (dvalue y) ->
  clamped_cell (dvalues xs) (dvalue x) i -> clamped_cell (dvalues ys) (dvalue y) j ->
  let x1 := nth i (dvalues xs) 0 in let x2 := nth (S i) (dvalues xs) 0 in
  let y1 := nth j (dvalues ys) 0 in let y2 := nth (S j) (dvalues ys) 0 in
  let d a b := nth (length ys * a + b) (dvalues data) 0 in
  let X := Rmax (Rabs x1) (Rabs x2) in let Y := Rmax (Rabs y1) (Rabs y2) in
  let D := Rabs (d i j) + Rabs (d i (S j)) + Rabs (d (S i) j) + Rabs (d (S i) (S j)) in
  X <= 2 ^ 100 -> Y <= 2 ^ 100 -> D <= 2 ^ 400 -> / 2 ^ 100 <= x2 - x1 -> / 2 ^ 100 <= y2 - y1 ->
  Rabs (d i j - f x1 y1) <= delta -> Rabs (d i (S j) - f x1 y2) <= delta -> Rabs (d (S i) j - f x2 y1) <= delta -> Rabs (d (S i) (S j) - f x2 y2) <= delta ->
  along2 sloped [x1; x2] [y1; y2] f Kx Ky ->
  exists o v, new2d bm LINEAR xs ys data = Ok o /\ eval2d bm o x y = Ok v /\ is_finite v = true /\
    Rabs (dvalue v - f (dvalue x) (dvalue y)) <= (Kx * (x2 - x1) + Ky * (y2 - y1)) / 2 + delta + (57 * uround * (D * X * Y / ((x2 - x1) * (y2 - y1))) + / 2 ^ 200).
Proof. exact interp2d_double_error_lip. Qed.
Print Assumptions C144_interp2d_double_error_lipschitz.
(** Slopes of the table bound the slopes of the interpolant, across cells. *)
Theorem C144_interp2d_slopes_x : forall bm xs ys data m M x x' y, increasing xs -> increasing ys -> (2 <= length xs)%nat -> (2 <= length ys)%nat -> length data = (length xs * length ys)%nat ->
  (forall i j, (S i < length xs)%nat -> (j < length ys)%nat -> let d := nth (length ys * S i + j) data 0 - nth (length ys * i + j) data 0 in
     m * (nth (S i) xs 0 - nth i xs 0) <= d <= M * (nth (S i) xs 0 - nth i xs 0)) ->
  inside xs ys x y -> inside xs ys x' y -> x <= x' ->
  exists o v v', new2d bm LINEAR xs ys data = Ok o /\ eval2d bm o x y = Ok v /\ eval2d bm o x' y = Ok v' /\ m * (x' - x) <= v' - v <= M * (x' - x).
Proof. exact interp2d_slope_x. Qed.
Print Assumptions C144_interp2d_slopes_x.
Theorem C144_interp2d_slopes_y : forall bm xs ys data m M x y y', increasing xs -> increasing ys -> (2 <= length xs)%nat -> (2 <= length ys)%nat -> length data = (length xs * length ys)%nat ->
  (forall i j, (i < length xs)%nat -> (S j < length ys)%nat -> let d := nth (length ys * i + S j) data 0 - nth (length ys * i + j) data 0 in
     m * (nth (S j) ys 0 - nth j ys 0) <= d <= M * (nth (S j) ys 0 - nth j ys 0)) ->
  inside xs ys x y -> inside xs ys x y' -> y <= y' ->
  exists o v v', new2d bm LINEAR xs ys data = Ok o /\ eval2d bm o x y = Ok v /\ eval2d bm o x y' = Ok v' /\ m * (y' - y) <= v' - v <= M * (y' - y).
Proof. exact interp2d_slope_y. Qed.
Print Assumptions C144_interp2d_slopes_y.
(** LookupTable1D, exact arithmetic: [registered1 None ops name] is what the calls [ops] registered under [name]. *)
Theorem C144_table1d_error : forall bm m ops (t : lut1 R R) name xs f f1 f2 M h x, lut1_run bm (lut1_new m) ops = Ok t -> registered1 None ops name = Some (Some xs, map f xs) ->
  is_linear m -> increasing xs -> (2 <= length xs)%nat -> spacing h xs -> twice_derivable f f1 f2 (first xs) (final xs) M -> first xs <= x <= final xs ->
  exists v, lut1_eval t name x = Ok v /\ Rabs (v - f x) <= M * h ^ 2 / 8.
Proof. exact table1_error. Qed.
Print Assumptions C144_table1d_error.
Theorem C144_table1d_error_lipschitz : forall bm m ops (t : lut1 R R) name xs f K h x, lut1_run bm (lut1_new m) ops = Ok t -> registered1 None ops name = Some (Some xs, map f xs) ->
  is_linear m -> increasing xs -> (2 <= length xs)%nat -> spacing h xs -> lipschitz f (first xs) (final xs) K -> first xs <= x <= final xs ->
  exists v, lut1_eval t name x = Ok v /\ Rabs (v - f x) <= K * h / 2.
Proof. exact table1_error_lip. Qed.
Print Assumptions C144_table1d_error_lipschitz.
(** LookupTable2d, exact arithmetic. *)
Theorem C144_table2d_error : forall bm ops (t : lut2 R) name xs ys data f Mx My hx hy x y, lut2_run bm lut2_new ops = Ok t ->
  registered2 LINEAR None None ops name = Some (LINEAR, Some xs, Some ys, data) ->
  increasing xs -> increasing ys -> (2 <= length xs)%nat -> (2 <= length ys)%nat -> length data = (length xs * length ys)%nat ->
  samples2 xs ys data f -> spacing hx xs -> spacing hy ys -> along2 curved xs ys f Mx My -> inside xs ys x y ->
  exists v, lut2_eval bm t name x y = Ok v /\ Rabs (v - f x y) <= (Mx * hx ^ 2 + My * hy ^ 2) / 8.
Proof. exact table2_error. Qed.
Print Assumptions C144_table2d_error.
Theorem C144_table2d_error_lipschitz : forall bm ops (t : lut2 R) name xs ys data f Kx Ky hx hy x y, lut2_run bm lut2_new ops = Ok t ->
  registered2 LINEAR None None ops name = Some (LINEAR, Some xs, Some ys, data) ->
  increasing xs -> increasing ys -> (2 <= length xs)%nat -> (2 <= length ys)%nat -> length data = (length xs * length ys)%nat ->
  samples2 xs ys data f -> spacing hx xs -> spacing hy ys -> along2 sloped xs ys f Kx Ky -> inside xs ys x y ->
  exists v, lut2_eval bm t name x y = Ok v /\ Rabs (v - f x y) <= (Kx * hx + Ky * hy) / 2.
Proof. exact table2_error_lip. Qed.
Print Assumptions C144_table2d_error_lipschitz.
(** The tables in double. *)
Theorem C144_table1d_double_error : forall bm m ops (t : lut1 f64 f64) name xs ys x i f f1 f2 K delta, lut1_run bm (lut1_new m) ops = Ok t -> registered1 None ops name = Some (Some xs, ys) ->
  is_linear m -> all_finite xs -> is_finite x = true -> increasing (dvalues xs) -> length ys = length xs -> (S i < length xs)%nat ->
  let x0 := nth i (dvalues xs) 0 in let x1 := nth (S i) (dvalues xs) 0 in
  let y0 := nth i (dvalues ys) 0 in let y1 := nth (S i) (dvalues ys) 0 in
  let Y := Rabs y0 + Rabs y1 in let M := Rmax (Rabs x0) (Rabs x1) in let D := x1 - x0 in
  x0 < dvalue x <= x1 \/ i = 0%nat /\ dvalue x = x0 -> D <= dmax ->
  twice_derivable f f1 f2 x0 x1 K -> Rabs (y0 - f x0) <= delta -> Rabs (y1 - f x1) <= delta ->
  exists v, lut1_eval t name x = Ok v /\
    (is_finite v = true ->
       Rabs (dvalue v - f (dvalue x)) <= K * D ^ 2 / 8 + delta + (11 * uround * (Y * M / D) + 4 * uflow * (1 + M + / D))) /\
    (all_finite ys -> Y * (1 + M) * (1 + / D) <= 2 ^ 1000 -> is_finite v = true).
Proof. exact table1_double_error. Qed.
Print Assumptions C144_table1d_double_error.
Theorem C144_table2d_double_error : forall bm ops (t : lut2 f64) name xs ys data x y i j f delta Mx My, lut2_run bm lut2_new ops = Ok t ->
  registered2 LINEAR None None ops name = Some (LINEAR, Some xs, Some ys, data) ->
  all_finite xs -> all_finite ys -> all_finite data -> is_finite x = true -> is_finite y = true ->
  increasing (dvalues xs) -> increasing (dvalues ys) -> length data = (length xs * length ys)%nat ->
  inside (dvalues xs) (dvalues ys) (dvalue x) (dvalue y) ->
  clamped_cell (dvalues xs) (dvalue x) i -> clamped_cell (dvalues ys) (dvalue y) j ->
  let x1 := nth i (dvalues xs) 0 in let x2 := nth (S i) (dvalues xs) 0 in
  let y1 := nth j (dvalues ys) 0 in let y2 := nth (S j) (dvalues ys) 0 in
  let d a b := nth (length ys * a + b) (dvalues data) 0 in
  let X := Rmax (Rabs x1) (Rabs x2) in let Y := Rmax (Rabs y1) (Rabs y2) in
  let D := Rabs (d i j) + Rabs (d i (S j)) + Rabs (d (S i) j) + Rabs (d (S i) (S j)) in
  X <= 2 ^ 100 -> Y <= 2 ^ 100 -> D <= 2 ^ 400 -> / 2 ^ 100 <= x2 - x1 -> / 2 ^ 100 <= y2 - y1 ->
  Rabs (d i j - f x1 y1) <= delta -> Rabs (d i (S j) - f x1 y2) <= delta -> Rabs (d (S i) j - f x2 y1) <= delta -> Rabs (d (S i) (S j) - f x2 y2) <= delta ->
  along2 curved [x1; x2] [y1; y2] f Mx My ->
  exists v, lut2_eval bm t name x y = Ok v /\ is_finite v = true /\
    Rabs (dvalue v - f (dvalue x) (dvalue y)) <= (Mx * (x2 - x1) ^ 2 + My * (y2 - y1) ^ 2) / 8 + delta + (57 * uround * (D * X * Y / ((x2 - x1) * (y2 - y1))) + / 2 ^ 200).
Proof. exact table2_double_error. Qed.
Print Assumptions C144_table2d_double_error.

(** *** Concrete cases: x^2 on 0, 1, 3 at 2; x*y on the axes 0, 1, 3 and 0, 2, at (2, 1), in double. *)
Example C144_example_table1d : exists t v, lut1_run Release (lut1_new LINEAR) sq_ops = Ok t /\ lut1_eval t "square" 2 = Ok v /\ Rabs (v - 4) <= 1.
Proof. exact ex_table1. Qed.
Example C144_example_table2d : exists t v, lut2_run Release lut2_new xy_ops = Ok t /\ lut2_eval Release t "xy" (f64_ofZ 2) (f64_ofZ 1) = Ok v /\ Rabs (dvalue v - 2) <= / 1000000000000.
Proof. exact ex_table2. Qed.
Example C144_example_slopes : exists o v v', new2d Debug LINEAR [0; 1; 3] [0; 2] exxy = Ok o /\ eval2d Debug o (1 / 2) 1 = Ok v /\ eval2d Debug o 3 1 = Ok v' /\ 0 <= v' - v <= 5.
Proof. exact ex_slope2. Qed.
