(** Accuracy of one-dimensional interpolation in binary64 with respect to the sampled function. *)
From Coq Require Import List Arith ZArith Reals Lra Lia Bool.
From Flocq Require Import Core.Core IEEE754.BinarySingleNaN.
From Verif Require Import Outcome Num NumFun StdAlgo F64 M_Interp1d S_Interp1d S_Integ S_Angles S_Basics S_Series S_Double S_Err L_Interp1d L_Interp64 L_Err.
Import ListNotations.
Local Open Scope R_scope.

Lemma blend_samples a b x ya yb za zb d : a < b -> a <= x <= b -> Rabs (ya - za) <= d -> Rabs (yb - zb) <= d ->
  Rabs (blend1 a b x ya yb - blend1 a b x za zb) <= d.
Proof.
  intros Hab Hx A B. unfold blend1.
  assert (T : 0 <= (x - a) / (b - a)) by (apply Rmult_le_pos; [lra|left; apply Rinv_0_lt_compat; lra]).
  assert (U : 0 <= (b - x) / (b - a)) by (apply Rmult_le_pos; [lra|left; apply Rinv_0_lt_compat; lra]).
  assert (S1 : (b - x) / (b - a) + (x - a) / (b - a) = 1) by (field; lra).
  set (t := (x - a) / (b - a)) in *. set (u := (b - x) / (b - a)) in *. clearbody t u.
  replace (u * ya + t * yb - (u * za + t * zb)) with (u * (ya - za) + t * (yb - zb)) by ring.
  apply Rle_trans with (1 := Rabs_triang _ _). rewrite !Rabs_mult, (Rabs_pos_eq t), (Rabs_pos_eq u) by assumption. nra.
Qed.

Lemma interp1d_double_error : forall bm m xs ys x i f f1 f2 K delta, is_linear m -> all_finite xs -> is_finite x = true ->
  increasing (dvalues xs) -> length ys = length xs -> (S i < length xs)%nat ->
  let x0 := nth i (dvalues xs) 0 in let x1 := nth (S i) (dvalues xs) 0 in
  let y0 := nth i (dvalues ys) 0 in let y1 := nth (S i) (dvalues ys) 0 in
  let Y := Rabs y0 + Rabs y1 in let M := Rmax (Rabs x0) (Rabs x1) in let D := x1 - x0 in
  x0 < dvalue x <= x1 \/ i = 0%nat /\ dvalue x = x0 -> D <= dmax ->
  twice_derivable f f1 f2 x0 x1 K -> Rabs (y0 - f x0) <= delta -> Rabs (y1 - f x1) <= delta ->
  exists o v, new1d bm m xs ys = Ok o /\ eval1d o x = Ok v /\
    (is_finite v = true ->
       Rabs (dvalue v - f (dvalue x)) <= K * D ^ 2 / 8 + delta + (11 * uround * (Y * M / D) + 4 * uflow * (1 + M + / D))) /\
    (all_finite ys -> Y * (1 + M) * (1 + / D) <= 2 ^ 1000 -> is_finite v = true).
Proof.
  intros bm m xs ys x i f f1 f2 K delta Hm Fx Fq Hinc Hl Hi x0 x1 y0 y1 Y M D Hx HD TD E0 E1.
  destruct (interp_double_lemma bm m xs ys x i Hm Fx Fq Hinc Hl Hi Hx HD) as (o & v & A & B & C & C').
  exists o, v. split; [exact A|]. split; [exact B|]. split; [|exact C']. intros Fv.
  assert (L01 : x0 < x1) by (apply Hinc; unfold dvalues; rewrite map_length; lia).
  assert (Rx : x0 <= dvalue x <= x1) by (destruct Hx as [?|[_ ?]]; lra).
  set (e := blend1 x0 x1 (dvalue x) y0 y1).
  assert (OL : on_line x0 y0 x1 y1 (dvalue x) e) by (unfold on_line, e, blend1; field; lra).
  specialize (C Fv e OL). fold x0 x1 y0 y1 Y M D in C.
  pose proof (blend_samples x0 x1 (dvalue x) y0 y1 (f x0) (f x1) delta L01 Rx E0 E1) as S.
  pose proof (chord_curved f f1 f2 x0 x1 K (dvalue x) L01 Rx TD) as T. fold D in T. fold e in S.
  replace (dvalue v - f (dvalue x)) with ((dvalue v - e) + ((e - blend1 x0 x1 (dvalue x) (f x0) (f x1)) + (blend1 x0 x1 (dvalue x) (f x0) (f x1) - f (dvalue x)))) by ring.
  apply Rle_trans with (1 := Rabs_triang _ _).
  pose proof (Rabs_triang (e - blend1 x0 x1 (dvalue x) (f x0) (f x1)) (blend1 x0 x1 (dvalue x) (f x0) (f x1) - f (dvalue x))). lra.
Qed.
