(** Accuracy of the lookup tables, and of two-dimensional interpolation in binary64. *)
From Coq Require Import List Arith ZArith Reals Lra Lia Bool.
From Coq Require String.
From Flocq Require Import Core.Core IEEE754.BinarySingleNaN.
From Verif Require Import Outcome Num NumFun StdAlgo F64 M_Interp1d M_Interp2d M_Lookup M_Grid S_Interp1d S_Interp2d S_Lookup S_Grid S_Integ S_Angles S_Basics S_Series S_Double S_Err S_GShape
  L_Lookup L_Interp1d L_Interp64 L_Interp2d64 L_Grid L_GridLow L_Err L_Err64 L_GShape3.
Import ListNotations.
Local Open Scope R_scope.

(** *** One cell *)
Lemma bilinear_blend x1 x2 y1 y2 d11 d12 d21 d22 x y e : x1 < x2 -> y1 < y2 -> bilinear x1 x2 y1 y2 d11 d12 d21 d22 x y e ->
  e = blend1 x1 x2 x (blend1 y1 y2 y d11 d12) (blend1 y1 y2 y d21 d22).
Proof.
  unfold bilinear, blend1. intros Hx Hy E. apply Rmult_eq_reg_r with ((x2 - x1) * (y2 - y1)); [|apply Rmult_integral_contrapositive; split; lra]. rewrite E. field. lra.
Qed.
Lemma cell2_err x1 x2 y1 y2 d11 d12 d21 d22 x y e f delta Ex Ey : x1 < x2 -> y1 < y2 -> x1 <= x <= x2 -> y1 <= y <= y2 ->
  bilinear x1 x2 y1 y2 d11 d12 d21 d22 x y e ->
  Rabs (d11 - f x1 y1) <= delta -> Rabs (d12 - f x1 y2) <= delta -> Rabs (d21 - f x2 y1) <= delta -> Rabs (d22 - f x2 y2) <= delta ->
  Rabs (blend1 x1 x2 x (f x1 y) (f x2 y) - f x y) <= Ex ->
  (forall u, x1 <= u <= x2 -> Rabs (blend1 y1 y2 y (f u y1) (f u y2) - f u y) <= Ey) ->
  Rabs (e - f x y) <= Ex + Ey + delta.
Proof.
  intros Hx Hy Rx Ry E A B C D X Y. rewrite (bilinear_blend _ _ _ _ _ _ _ _ _ _ _ Hx Hy E).
  assert (P : forall u a b, x1 <= u <= x2 -> Rabs (a - f u y1) <= delta -> Rabs (b - f u y2) <= delta -> Rabs (blend1 y1 y2 y a b - f u y) <= Ey + delta).
  { intros u a b Hu Ha Hb. specialize (Y u Hu). pose proof (blend_samples y1 y2 y a b (f u y1) (f u y2) delta Hy Ry Ha Hb) as Q.
    replace (blend1 y1 y2 y a b - f u y) with ((blend1 y1 y2 y a b - blend1 y1 y2 y (f u y1) (f u y2)) + (blend1 y1 y2 y (f u y1) (f u y2) - f u y)) by ring.
    apply Rle_trans with (1 := Rabs_triang _ _). lra. }
  pose proof (blend_samples x1 x2 x _ _ (f x1 y) (f x2 y) (Ey + delta) Hx Rx (P x1 d11 d12 ltac:(lra) A B) (P x2 d21 d22 ltac:(lra) C D)) as Q.
  set (w := blend1 x1 x2 x (blend1 y1 y2 y d11 d12) (blend1 y1 y2 y d21 d22)) in *.
  replace (w - f x y) with ((w - blend1 x1 x2 x (f x1 y) (f x2 y)) + (blend1 x1 x2 x (f x1 y) (f x2 y) - f x y)) by ring.
  apply Rle_trans with (1 := Rabs_triang _ _). lra.
Qed.
Lemma pair_curved f a b M x : a < b -> a <= x <= b -> curved f [a; b] M -> Rabs (blend1 a b x (f a) (f b) - f x) <= M * (b - a) ^ 2 / 8.
Proof. intros H Hx (f1 & f2 & D). exact (chord_curved f f1 f2 a b M x H Hx D). Qed.
Lemma pair_sloped f a b K x : a < b -> a <= x <= b -> sloped f [a; b] K -> Rabs (blend1 a b x (f a) (f b) - f x) <= K * (b - a) / 2.
Proof. intros H Hx D. exact (chord_sloped f a b K x H Hx D). Qed.

(** *** Two variables in double *)
Lemma cell_exists xs ys (data : list f64) i j x y : increasing xs -> increasing ys -> inside xs ys x y -> clamped_cell xs x i -> clamped_cell ys y j ->
  nth i xs 0 < nth (S i) xs 0 /\ nth i xs 0 <= x <= nth (S i) xs 0 /\ nth j ys 0 < nth (S j) ys 0 /\ nth j ys 0 <= y <= nth (S j) ys 0.
Proof.
  intros Hx Hy [A B] (C1 & C2 & C3) (D1 & D2 & D3). split; [apply Hx; lia|]. split; [split; [destruct C3 as [->|?]; lra|lra]|]. split; [apply Hy; lia|].
  split; [destruct D3 as [->|?]; lra|lra].
Qed.
Lemma interp2d_double_gen : forall bm xs ys data x y i j f delta Ex Ey,
  all_finite xs -> all_finite ys -> all_finite data -> is_finite x = true -> is_finite y = true ->
  increasing (dvalues xs) -> increasing (dvalues ys) -> length data = (length xs * length ys)%nat ->
  inside (dvalues xs) (dvalues ys) (dvalue x) (dvalue y) ->
  clamped_cell (dvalues xs) (dvalue x) i -> clamped_cell (dvalues ys) (dvalue y) j ->
  let x1 := nth i (dvalues xs) 0 in let x2 := nth (S i) (dvalues xs) 0 in
  let y1 := nth j (dvalues ys) 0 in let y2 := nth (S j) (dvalues ys) 0 in
  let d a b := nth (length ys * a + b) (dvalues data) 0 in
  let X := Rmax (Rabs x1) (Rabs x2) in let Y := Rmax (Rabs y1) (Rabs y2) in
  let D := Rabs (d i j) + Rabs (d i (S j)) + Rabs (d (S i) j) + Rabs (d (S i) (S j)) in
  X <= 2 ^ 100 -> Y <= 2 ^ 100 -> D <= 2 ^ 400 -> / 2 ^ 100 <= x2 - x1 -> / 2 ^ 100 <= y2 - y1 ->
  Rabs (d i j - f x1 y1) <= delta -> Rabs (d i (S j) - f x1 y2) <= delta -> Rabs (d (S i) j - f x2 y1) <= delta -> Rabs (d (S i) (S j) - f x2 y2) <= delta ->
  Rabs (blend1 x1 x2 (dvalue x) (f x1 (dvalue y)) (f x2 (dvalue y)) - f (dvalue x) (dvalue y)) <= Ex ->
  (forall u, x1 <= u <= x2 -> Rabs (blend1 y1 y2 (dvalue y) (f u y1) (f u y2) - f u (dvalue y)) <= Ey) ->
  exists o v, new2d bm LINEAR xs ys data = Ok o /\ eval2d bm o x y = Ok v /\ is_finite v = true /\
    Rabs (dvalue v - f (dvalue x) (dvalue y)) <= Ex + Ey + delta + (57 * uround * (D * X * Y / ((x2 - x1) * (y2 - y1))) + / 2 ^ 200).
Proof.
  intros bm xs ys data x y i j f delta Ex Ey Fx Fy Fd Qx Qy Ix Iy Hl Hi Cx Cy x1 x2 y1 y2 d X Y D BX BY BD Wx Wy E11 E12 E21 E22 HX HY.
  destruct (interp2d_double_lemma bm xs ys data x y i j Fx Fy Fd Qx Qy Ix Iy Hl Hi Cx Cy BX BY BD Wx Wy) as (o & v & A & B & Fv & C).
  exists o, v. split; [exact A|]. split; [exact B|]. split; [exact Fv|].
  destruct (cell_exists _ _ data i j _ _ Ix Iy Hi Cx Cy) as (L1 & R1 & L2 & R2). fold x1 x2 in L1, R1. fold y1 y2 in L2, R2.
  set (e := blend1 x1 x2 (dvalue x) (blend1 y1 y2 (dvalue y) (d i j) (d i (S j))) (blend1 y1 y2 (dvalue y) (d (S i) j) (d (S i) (S j)))).
  assert (P : bilinear x1 x2 y1 y2 (d i j) (d i (S j)) (d (S i) j) (d (S i) (S j)) (dvalue x) (dvalue y) e) by (unfold bilinear, e, blend1; field; lra).
  assert (Q := C e ltac:(unfold patch, dvalues; rewrite map_length; exact P)). fold x1 x2 y1 y2 X Y in Q. change (Rabs (dvalue v - e) <= 57 * uround * (D * X * Y / ((x2 - x1) * (y2 - y1))) + / 2 ^ 200) in Q.
  pose proof (cell2_err x1 x2 y1 y2 _ _ _ _ (dvalue x) (dvalue y) e f delta Ex Ey L1 L2 R1 R2 P E11 E12 E21 E22 HX HY) as S.
  replace (dvalue v - f (dvalue x) (dvalue y)) with ((dvalue v - e) + (e - f (dvalue x) (dvalue y))) by ring. apply Rle_trans with (1 := Rabs_triang _ _). lra.
Qed.
Lemma interp2d_double_error : forall bm xs ys data x y i j f delta Mx My,
  all_finite xs -> all_finite ys -> all_finite data -> is_finite x = true -> is_finite y = true ->
  increasing (dvalues xs) -> increasing (dvalues ys) -> length data = (length xs * length ys)%nat ->
  inside (dvalues xs) (dvalues ys) (dvalue x) (dvalue y) ->
  clamped_cell (dvalues xs) (dvalue x) i -> clamped_cell (dvalues ys) (dvalue y) j ->
  let x1 := nth i (dvalues xs) 0 in let x2 := nth (S i) (dvalues xs) 0 in
  let y1 := nth j (dvalues ys) 0 in let y2 := nth (S j) (dvalues ys) 0 in
  let d a b := nth (length ys * a + b) (dvalues data) 0 in
  let X := Rmax (Rabs x1) (Rabs x2) in let Y := Rmax (Rabs y1) (Rabs y2) in
  let D := Rabs (d i j) + Rabs (d i (S j)) + Rabs (d (S i) j) + Rabs (d (S i) (S j)) in
  X <= 2 ^ 100 -> Y <= 2 ^ 100 -> D <= 2 ^ 400 -> / 2 ^ 100 <= x2 - x1 -> / 2 ^ 100 <= y2 - y1 ->
  Rabs (d i j - f x1 y1) <= delta -> Rabs (d i (S j) - f x1 y2) <= delta -> Rabs (d (S i) j - f x2 y1) <= delta -> Rabs (d (S i) (S j) - f x2 y2) <= delta ->
  along2 curved [x1; x2] [y1; y2] f Mx My ->
  exists o v, new2d bm LINEAR xs ys data = Ok o /\ eval2d bm o x y = Ok v /\ is_finite v = true /\
    Rabs (dvalue v - f (dvalue x) (dvalue y)) <= (Mx * (x2 - x1) ^ 2 + My * (y2 - y1) ^ 2) / 8 + delta + (57 * uround * (D * X * Y / ((x2 - x1) * (y2 - y1))) + / 2 ^ 200).
Proof.
  intros bm xs ys data x y i j f delta Mx My Fx Fy Fd Qx Qy Ix Iy Hl Hi Cx Cy x1 x2 y1 y2 d X Y D BX BY BD Wx Wy E11 E12 E21 E22 [HX HY].
  destruct (cell_exists _ _ data i j _ _ Ix Iy Hi Cx Cy) as (L1 & R1 & L2 & R2). fold x1 x2 in L1, R1. fold y1 y2 in L2, R2.
  destruct (interp2d_double_gen bm xs ys data x y i j f delta (Mx * (x2 - x1) ^ 2 / 8) (My * (y2 - y1) ^ 2 / 8) Fx Fy Fd Qx Qy Ix Iy Hl Hi Cx Cy BX BY BD Wx Wy E11 E12 E21 E22) as (o & v & A & B & Fv & C).
  - apply (pair_curved (fun u => f u (dvalue y)) x1 x2); [exact L1|exact R1|]. apply HX. exact R2.
  - intros u Hu. apply (pair_curved (f u) y1 y2); [exact L2|exact R2|]. apply HY. exact Hu.
  - exists o, v. split; [exact A|]. split; [exact B|]. split; [exact Fv|]. apply Rle_trans with (1 := C). apply Req_le. unfold D, X, Y, d, x1, x2, y1, y2. field. fold x1 x2 y1 y2. lra.
Qed.
Lemma interp2d_double_error_lip : forall bm xs ys data x y i j f delta Kx Ky,
  all_finite xs -> all_finite ys -> all_finite data -> is_finite x = true -> is_finite y = true ->
  increasing (dvalues xs) -> increasing (dvalues ys) -> length data = (length xs * length ys)%nat ->
  inside (dvalues xs) (dvalues ys) (dvalue x) (dvalue y) ->
  clamped_cell (dvalues xs) (dvalue x) i -> clamped_cell (dvalues ys) (dvalue y) j ->
  let x1 := nth i (dvalues xs) 0 in let x2 := nth (S i) (dvalues xs) 0 in
  let y1 := nth j (dvalues ys) 0 in let y2 := nth (S j) (dvalues ys) 0 in
  let d a b := nth (length ys * a + b) (dvalues data) 0 in
  let X := Rmax (Rabs x1) (Rabs x2) in let Y := Rmax (Rabs y1) (Rabs y2) in
  let D := Rabs (d i j) + Rabs (d i (S j)) + Rabs (d (S i) j) + Rabs (d (S i) (S j)) in
  X <= 2 ^ 100 -> Y <= 2 ^ 100 -> D <= 2 ^ 400 -> / 2 ^ 100 <= x2 - x1 -> / 2 ^ 100 <= y2 - y1 ->
  Rabs (d i j - f x1 y1) <= delta -> Rabs (d i (S j) - f x1 y2) <= delta -> Rabs (d (S i) j - f x2 y1) <= delta -> Rabs (d (S i) (S j) - f x2 y2) <= delta ->
  along2 sloped [x1; x2] [y1; y2] f Kx Ky ->
  exists o v, new2d bm LINEAR xs ys data = Ok o /\ eval2d bm o x y = Ok v /\ is_finite v = true /\
    Rabs (dvalue v - f (dvalue x) (dvalue y)) <= (Kx * (x2 - x1) + Ky * (y2 - y1)) / 2 + delta + (57 * uround * (D * X * Y / ((x2 - x1) * (y2 - y1))) + / 2 ^ 200).
Proof.
  intros bm xs ys data x y i j f delta Mx My Fx Fy Fd Qx Qy Ix Iy Hl Hi Cx Cy x1 x2 y1 y2 d X Y D BX BY BD Wx Wy E11 E12 E21 E22 [HX HY].
  destruct (cell_exists _ _ data i j _ _ Ix Iy Hi Cx Cy) as (L1 & R1 & L2 & R2). fold x1 x2 in L1, R1. fold y1 y2 in L2, R2.
  destruct (interp2d_double_gen bm xs ys data x y i j f delta (Mx * (x2 - x1) / 2) (My * (y2 - y1) / 2) Fx Fy Fd Qx Qy Ix Iy Hl Hi Cx Cy BX BY BD Wx Wy E11 E12 E21 E22) as (o & v & A & B & Fv & C).
  - apply (pair_sloped (fun u => f u (dvalue y)) x1 x2); [exact L1|exact R1|]. apply HX. exact R2.
  - intros u Hu. apply (pair_sloped (f u) y1 y2); [exact L2|exact R2|]. apply HY. exact Hu.
  - exists o, v. split; [exact A|]. split; [exact B|]. split; [exact Fv|]. apply Rle_trans with (1 := C). apply Req_le. unfold D, X, Y, d, x1, x2, y1, y2. field. fold x1 x2 y1 y2. lra.
Qed.

(** *** Slopes of the two-dimensional interpolant *)
Lemma onto_in g x : nth 0 g 0 <= x <= nth (length g - 1) g 0 -> onto g x = x.
Proof. intros H. unfold onto, first, final, clamp. rewrite Rmin_right, Rmax_right by lra. reflexivity. Qed.
Lemma interp2d_slope_x : forall bm xs ys data m M x x' y, increasing xs -> increasing ys -> (2 <= length xs)%nat -> (2 <= length ys)%nat -> length data = (length xs * length ys)%nat ->
  (forall i j, (S i < length xs)%nat -> (j < length ys)%nat -> let d := nth (length ys * S i + j) data 0 - nth (length ys * i + j) data 0 in
     m * (nth (S i) xs 0 - nth i xs 0) <= d <= M * (nth (S i) xs 0 - nth i xs 0)) ->
  inside xs ys x y -> inside xs ys x' y -> x <= x' ->
  exists o v v', new2d bm LINEAR xs ys data = Ok o /\ eval2d bm o x y = Ok v /\ eval2d bm o x' y = Ok v' /\ m * (x' - x) <= v' - v <= M * (x' - x).
Proof.
  intros bm xs ys data m M x x' y Ix Iy Lx Ly Hl HS H H' Hx.
  destruct (grid_slope bm [xs; ys] (mkND [length xs; length ys] data) 0 m M [x; y] x x') as (o & v & v' & A & B & B' & C); auto.
  - constructor; [|constructor; [|constructor]]; apply good_of; auto.
  - cbn. lia.
  - cbn. lia.
  - intros idx i Hidx Hi. inversion Hidx as [|? a ? idx' Ha H1]; subst. inversion H1 as [|? b ? idx'' Hb H2]; subst. inversion H2; subst. cbn [nth] in *.
    unfold element, put. cbn [firstn skipn app map nd_flat pos count]. specialize (HS i b Hi Hb). cbv zeta in HS. rewrite !Nat.mul_1_r, !Nat.add_0_r, !(Nat.mul_comm _ (length ys)). exact HS.
  - unfold put in B, B'. cbn [firstn skipn app] in B, B'. cbn [nth] in C. rewrite !onto_in in C by (first [apply H|apply H']).
    destruct (grid_2d_lemma bm bm xs ys data x y Ix Iy Lx Ly Hl H) as (o1 & o2 & w & A1 & N & B1 & E).
    destruct (grid_2d_lemma bm bm xs ys data x' y Ix Iy Lx Ly Hl H') as (o1' & o2' & w' & A1' & N' & B1' & E').
    rewrite A in A1, A1'. injection A1 as <-. injection A1' as <-. rewrite N in N'. injection N' as <-. rewrite B in B1. injection B1 as <-. rewrite B' in B1'. injection B1' as <-.
    exists o2, v, v'. auto.
Qed.
Lemma interp2d_slope_y : forall bm xs ys data m M x y y', increasing xs -> increasing ys -> (2 <= length xs)%nat -> (2 <= length ys)%nat -> length data = (length xs * length ys)%nat ->
  (forall i j, (i < length xs)%nat -> (S j < length ys)%nat -> let d := nth (length ys * i + S j) data 0 - nth (length ys * i + j) data 0 in
     m * (nth (S j) ys 0 - nth j ys 0) <= d <= M * (nth (S j) ys 0 - nth j ys 0)) ->
  inside xs ys x y -> inside xs ys x y' -> y <= y' ->
  exists o v v', new2d bm LINEAR xs ys data = Ok o /\ eval2d bm o x y = Ok v /\ eval2d bm o x y' = Ok v' /\ m * (y' - y) <= v' - v <= M * (y' - y).
Proof.
  intros bm xs ys data m M x y y' Ix Iy Lx Ly Hl HS H H' Hx.
  destruct (grid_slope bm [xs; ys] (mkND [length xs; length ys] data) 1 m M [x; y] y y') as (o & v & v' & A & B & B' & C); auto.
  - constructor; [|constructor; [|constructor]]; apply good_of; auto.
  - cbn. lia.
  - intros idx j Hidx Hj. inversion Hidx as [|? a ? idx' Ha H1]; subst. inversion H1 as [|? b ? idx'' Hb H2]; subst. inversion H2; subst. cbn [nth] in *.
    unfold element, put. cbn [firstn skipn app map nd_flat pos count]. specialize (HS a j Ha Hj). cbv zeta in HS. rewrite !Nat.mul_1_r, !Nat.add_0_r, !(Nat.mul_comm _ (length ys)). exact HS.
  - unfold put in B, B'. cbn [firstn skipn app] in B, B'. cbn [nth] in C. rewrite !onto_in in C by (first [apply H|apply H']).
    destruct (grid_2d_lemma bm bm xs ys data x y Ix Iy Lx Ly Hl H) as (o1 & o2 & w & A1 & N & B1 & E).
    destruct (grid_2d_lemma bm bm xs ys data x y' Ix Iy Lx Ly Hl H') as (o1' & o2' & w' & A1' & N' & B1' & E').
    rewrite A in A1, A1'. injection A1 as <-. injection A1' as <-. rewrite N in N'. injection N' as <-. rewrite B in B1. injection B1 as <-. rewrite B' in B1'. injection B1' as <-.
    exists o2, v, v'. auto.
Qed.

(** *** Tables *)
Lemma table1_value {T V} `{NT : Num T} `{VT : VNum T V} bm m ops (t : lut1 T V) name xs ys o x v : lut1_run bm (lut1_new m) ops = Ok t ->
  registered1 None ops name = Some (Some xs, ys) -> new1d bm m xs ys = Ok o -> eval1d o x = Ok v -> lut1_eval t name x = Ok v.
Proof.
  intros Hr Hg N E. destruct (map_eval_lemma bm m ops t Hr) as [H _]. specialize (H name). rewrite Hg in H. destruct H as (o' & N' & H & _). rewrite N in N'. injection N' as <-. rewrite H. exact E.
Qed.
Lemma table2_value {T} `{NT : Num T} bm ops (t : lut2 T) name m xs ys d o x y v : lut2_run bm lut2_new ops = Ok t ->
  registered2 LINEAR None None ops name = Some (m, Some xs, Some ys, d) -> new2d bm m xs ys d = Ok o -> eval2d bm o x y = Ok v -> lut2_eval bm t name x y = Ok v.
Proof.
  intros Hr Hg N E. destruct (map2_lemma bm ops t Hr) as [H _]. specialize (H name). rewrite Hg in H. destruct H as (o' & N' & H & _). rewrite N in N'. injection N' as <-. rewrite H. exact E.
Qed.
Lemma table1_error : forall bm m ops (t : lut1 R R) name xs f f1 f2 M h x, lut1_run bm (lut1_new m) ops = Ok t -> registered1 None ops name = Some (Some xs, map f xs) ->
  is_linear m -> increasing xs -> (2 <= length xs)%nat -> spacing h xs -> twice_derivable f f1 f2 (first xs) (final xs) M -> first xs <= x <= final xs ->
  exists v, lut1_eval t name x = Ok v /\ Rabs (v - f x) <= M * h ^ 2 / 8.
Proof.
  intros bm m ops t name xs f f1 f2 M h x Hr Hg Hm Hi Hl Hh TD Hx. destruct (interp1d_error bm m xs f f1 f2 M h x Hm Hi Hl Hh TD Hx) as (o & v & A & B & C).
  exists v. split; [exact (table1_value bm m ops t name xs (map f xs) o x v Hr Hg A B)|exact C].
Qed.
Lemma table1_error_lip : forall bm m ops (t : lut1 R R) name xs f K h x, lut1_run bm (lut1_new m) ops = Ok t -> registered1 None ops name = Some (Some xs, map f xs) ->
  is_linear m -> increasing xs -> (2 <= length xs)%nat -> spacing h xs -> lipschitz f (first xs) (final xs) K -> first xs <= x <= final xs ->
  exists v, lut1_eval t name x = Ok v /\ Rabs (v - f x) <= K * h / 2.
Proof.
  intros bm m ops t name xs f K h x Hr Hg Hm Hi Hl Hh TD Hx. destruct (interp1d_error_lip bm m xs f K h x Hm Hi Hl Hh TD Hx) as (o & v & A & B & C).
  exists v. split; [exact (table1_value bm m ops t name xs (map f xs) o x v Hr Hg A B)|exact C].
Qed.
Lemma table2_error : forall bm ops (t : lut2 R) name xs ys data f Mx My hx hy x y, lut2_run bm lut2_new ops = Ok t ->
  registered2 LINEAR None None ops name = Some (LINEAR, Some xs, Some ys, data) ->
  increasing xs -> increasing ys -> (2 <= length xs)%nat -> (2 <= length ys)%nat -> length data = (length xs * length ys)%nat ->
  samples2 xs ys data f -> spacing hx xs -> spacing hy ys -> along2 curved xs ys f Mx My -> inside xs ys x y ->
  exists v, lut2_eval bm t name x y = Ok v /\ Rabs (v - f x y) <= (Mx * hx ^ 2 + My * hy ^ 2) / 8.
Proof.
  intros bm ops t name xs ys data f Mx My hx hy x y Hr Hg Ix Iy Lx Ly Hl HS Sx Sy HA Hi.
  destruct (interp2d_error bm xs ys data f Mx My hx hy x y Ix Iy Lx Ly Hl HS Sx Sy HA Hi) as (o & v & A & B & C).
  exists v. split; [exact (table2_value bm ops t name LINEAR xs ys data o x y v Hr Hg A B)|exact C].
Qed.
Lemma table2_error_lip : forall bm ops (t : lut2 R) name xs ys data f Kx Ky hx hy x y, lut2_run bm lut2_new ops = Ok t ->
  registered2 LINEAR None None ops name = Some (LINEAR, Some xs, Some ys, data) ->
  increasing xs -> increasing ys -> (2 <= length xs)%nat -> (2 <= length ys)%nat -> length data = (length xs * length ys)%nat ->
  samples2 xs ys data f -> spacing hx xs -> spacing hy ys -> along2 sloped xs ys f Kx Ky -> inside xs ys x y ->
  exists v, lut2_eval bm t name x y = Ok v /\ Rabs (v - f x y) <= (Kx * hx + Ky * hy) / 2.
Proof.
  intros bm ops t name xs ys data f Mx My hx hy x y Hr Hg Ix Iy Lx Ly Hl HS Sx Sy HA Hi.
  destruct (interp2d_error_lip bm xs ys data f Mx My hx hy x y Ix Iy Lx Ly Hl HS Sx Sy HA Hi) as (o & v & A & B & C).
  exists v. split; [exact (table2_value bm ops t name LINEAR xs ys data o x y v Hr Hg A B)|exact C].
Qed.
Lemma table1_double_error : forall bm m ops (t : lut1 f64 f64) name xs ys x i f f1 f2 K delta, lut1_run bm (lut1_new m) ops = Ok t -> registered1 None ops name = Some (Some xs, ys) ->
  is_linear m -> all_finite xs -> is_finite x = true -> increasing (dvalues xs) -> length ys = length xs -> (S i < length xs)%nat ->
  let x0 := nth i (dvalues xs) 0 in let x1 := nth (S i) (dvalues xs) 0 in
  let y0 := nth i (dvalues ys) 0 in let y1 := nth (S i) (dvalues ys) 0 in
  let Y := Rabs y0 + Rabs y1 in let M := Rmax (Rabs x0) (Rabs x1) in let D := x1 - x0 in
  x0 < dvalue x <= x1 \/ i = 0%nat /\ dvalue x = x0 -> D <= dmax ->
  twice_derivable f f1 f2 x0 x1 K -> Rabs (y0 - f x0) <= delta -> Rabs (y1 - f x1) <= delta ->
  exists v, lut1_eval t name x = Ok v /\
    (is_finite v = true ->
       Rabs (dvalue v - f (dvalue x)) <= K * D ^ 2 / 8 + delta + (11 * uround * (Y * M / D) + 4 * uflow * (1 + M + / D))) /\
    (all_finite ys -> Y * (1 + M) * (1 + / D) <= 2 ^ 1000 -> is_finite v = true).
Proof.
  intros bm m ops t name xs ys x i f f1 f2 K delta Hr Hg Hm Fx Fq Hinc Hl Hi x0 x1 y0 y1 Y M D Hx HD TD E0 E1.
  destruct (interp1d_double_error bm m xs ys x i f f1 f2 K delta Hm Fx Fq Hinc Hl Hi Hx HD TD E0 E1) as (o & v & A & B & C).
  exists v. split; [exact (table1_value bm m ops t name xs ys o x v Hr Hg A B)|exact C].
Qed.
Lemma table2_double_error : forall bm ops (t : lut2 f64) name xs ys data x y i j f delta Mx My, lut2_run bm lut2_new ops = Ok t ->
  registered2 LINEAR None None ops name = Some (LINEAR, Some xs, Some ys, data) ->
  all_finite xs -> all_finite ys -> all_finite data -> is_finite x = true -> is_finite y = true ->
  increasing (dvalues xs) -> increasing (dvalues ys) -> length data = (length xs * length ys)%nat ->
  inside (dvalues xs) (dvalues ys) (dvalue x) (dvalue y) ->
  clamped_cell (dvalues xs) (dvalue x) i -> clamped_cell (dvalues ys) (dvalue y) j ->
  let x1 := nth i (dvalues xs) 0 in let x2 := nth (S i) (dvalues xs) 0 in
  let y1 := nth j (dvalues ys) 0 in let y2 := nth (S j) (dvalues ys) 0 in
  let d a b := nth (length ys * a + b) (dvalues data) 0 in
  let X := Rmax (Rabs x1) (Rabs x2) in let Y := Rmax (Rabs y1) (Rabs y2) in
  let D := Rabs (d i j) + Rabs (d i (S j)) + Rabs (d (S i) j) + Rabs (d (S i) (S j)) in
  X <= 2 ^ 100 -> Y <= 2 ^ 100 -> D <= 2 ^ 400 -> / 2 ^ 100 <= x2 - x1 -> / 2 ^ 100 <= y2 - y1 ->
  Rabs (d i j - f x1 y1) <= delta -> Rabs (d i (S j) - f x1 y2) <= delta -> Rabs (d (S i) j - f x2 y1) <= delta -> Rabs (d (S i) (S j) - f x2 y2) <= delta ->
  along2 curved [x1; x2] [y1; y2] f Mx My ->
  exists v, lut2_eval bm t name x y = Ok v /\ is_finite v = true /\
    Rabs (dvalue v - f (dvalue x) (dvalue y)) <= (Mx * (x2 - x1) ^ 2 + My * (y2 - y1) ^ 2) / 8 + delta + (57 * uround * (D * X * Y / ((x2 - x1) * (y2 - y1))) + / 2 ^ 200).
Proof.
  intros bm ops t name xs ys data x y i j f delta Mx My Hr Hg Fx Fy Fd Qx Qy Ix Iy Hl Hi Cx Cy x1 x2 y1 y2 d X Y D BX BY BD Wx Wy E11 E12 E21 E22 HA.
  destruct (interp2d_double_error bm xs ys data x y i j f delta Mx My Fx Fy Fd Qx Qy Ix Iy Hl Hi Cx Cy BX BY BD Wx Wy E11 E12 E21 E22 HA) as (o & v & A & B & C).
  exists v. split; [exact (table2_value bm ops t name LINEAR xs ys data o x y v Hr Hg A B)|exact C].
Qed.
