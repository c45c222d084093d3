(** Theorems about the bilinear interpolation in binary64 (C112). *)
From Coq Require Import List Arith ZArith Reals Bool Lia Lra.
From Flocq Require Import IEEE754.BinarySingleNaN.
From Verif Require Import Outcome Num NumFun F64 L_F64 M_Interp1d S_Interp1d StdAlgo M_Interp2d S_Interp2d
  S_Angles S_Double L_Interp2d64.
Import ListNotations.
Local Open Scope R_scope.

(** C112: 2D interpolation in double.  [(i, j)] is the cell of [(x, y)]; the result is
    finite and 57 roundings of D*X*Y over the cell area from the blend. *)
Theorem C112_interp2d_double : forall bm xs ys data x y i j,
  all_finite xs -> all_finite ys -> all_finite data -> is_finite x = true -> is_finite y = true ->
  increasing (dvalues xs) -> increasing (dvalues ys) -> length data = (length xs * length ys)%nat ->
  inside (dvalues xs) (dvalues ys) (dvalue x) (dvalue y) ->
  clamped_cell (dvalues xs) (dvalue x) i -> clamped_cell (dvalues ys) (dvalue y) j ->
  let x1 := nth i (dvalues xs) 0 in let x2 := nth (S i) (dvalues xs) 0 in
  let y1 := nth j (dvalues ys) 0 in let y2 := nth (S j) (dvalues ys) 0 in
  let d a b := nth (length ys * a + b) (dvalues data) 0 in
  let X := Rmax (Rabs x1) (Rabs x2) in let Y := Rmax (Rabs y1) (Rabs y2) in
  let D := Rabs (d i j) + Rabs (d i (S j)) + Rabs (d (S i) j) + Rabs (d (S i) (S j)) in
  X <= 2 ^ 100 -> Y <= 2 ^ 100 -> D <= 2 ^ 400 -> / 2 ^ 100 <= x2 - x1 -> / 2 ^ 100 <= y2 - y1 ->
  exists o v, new2d bm LINEAR xs ys data = Ok o /\ eval2d bm o x y = Ok v /\ is_finite v = true /\
    forall e, patch (dvalues xs) (dvalues ys) (dvalues data) i j (dvalue x) (dvalue y) e ->
    Rabs (dvalue v - e) <= 57 * uround * (D * X * Y / ((x2 - x1) * (y2 - y1))) + / 2 ^ 200.
Proof. exact interp2d_double_lemma. Qed.
Print Assumptions C112_interp2d_double.

(** Integer tables with cells whose sides are powers of two: no error at all. *)
Theorem C112_interp2d_integers_exact : forall bm xs ys data x y i j X1 X2 Y1 Y2 D11 D12 D21 D22 X Y k l,
  all_finite xs -> all_finite ys -> all_finite data -> is_finite x = true -> is_finite y = true ->
  increasing (dvalues xs) -> increasing (dvalues ys) -> length data = (length xs * length ys)%nat ->
  inside (dvalues xs) (dvalues ys) (dvalue x) (dvalue y) ->
  clamped_cell (dvalues xs) (dvalue x) i -> clamped_cell (dvalues ys) (dvalue y) j ->
  let d a b := nth (length ys * a + b) (dvalues data) 0 in
  nth i (dvalues xs) 0 = IZR X1 -> nth (S i) (dvalues xs) 0 = IZR X2 ->
  nth j (dvalues ys) 0 = IZR Y1 -> nth (S j) (dvalues ys) 0 = IZR Y2 ->
  d i j = IZR D11 -> d i (S j) = IZR D12 -> d (S i) j = IZR D21 -> d (S i) (S j) = IZR D22 ->
  dvalue x = IZR X -> dvalue y = IZR Y ->
  (0 <= k)%Z -> (0 <= l)%Z -> (k + l <= 53)%Z -> (X2 - X1 = 2 ^ k)%Z -> (Y2 - Y1 = 2 ^ l)%Z ->
  ((Z.abs D11 + Z.abs D12 + Z.abs D21 + Z.abs D22) * (Z.max (Z.abs X1) (Z.abs X2) * Z.max (Z.abs Y1) (Z.abs Y2)) <= 2 ^ 51)%Z ->
  (Z.abs X1 <= 2 ^ 53)%Z -> (Z.abs X2 <= 2 ^ 53)%Z -> (Z.abs Y1 <= 2 ^ 53)%Z -> (Z.abs Y2 <= 2 ^ 53)%Z ->
  exists o v, new2d bm LINEAR xs ys data = Ok o /\ eval2d bm o x y = Ok v /\ is_finite v = true /\
    patch (dvalues xs) (dvalues ys) (dvalues data) i j (dvalue x) (dvalue y) (dvalue v).
Proof. exact interp2d_exact_lemma. Qed.
Print Assumptions C112_interp2d_integers_exact.

(** A coordinate that is not a number: abort in a debug build, NaN otherwise. *)
Theorem C112_interp2d_nan_query : forall xs ys data x y, (2 <= length xs)%nat -> (2 <= length ys)%nat ->
  length data = (length xs * length ys)%nat -> all_finite xs -> all_finite ys -> is_sorted xs = true -> is_sorted ys = true ->
  (is_nan x = true /\ (is_nan y = true \/ is_finite y = true /\ dvalue y <= nth (length ys - 1) (dvalues ys) 0) \/
   is_nan y = true /\ is_finite x = true /\ dvalue x <= nth (length xs - 1) (dvalues xs) 0) ->
  exists o, (forall bm, new2d bm LINEAR xs ys data = Ok o) /\ eval2d Debug o x y = Abort /\ eval2d Release o x y = Ok B754_nan.
Proof. exact interp2d_nan_lemma. Qed.
Print Assumptions C112_interp2d_nan_query.

(** "A node is reproduced": false in double. *)
Theorem C112_interp2d_nodes_refuted : exists xs ys data, all_finite xs /\ all_finite ys /\ all_finite data /\
  increasing (dvalues xs) /\ increasing (dvalues ys) /\ length data = (length xs * length ys)%nat /\
  dvalues xs = [1; 4] /\ dvalues ys = [0; 1] /\ dvalues data = [1; 1; 8; 8] /\
  forall bm, exists o v, new2d bm LINEAR xs ys data = Ok o /\
    eval2d bm o (nth 0 xs (f64_ofZ 0)) (nth 0 ys (f64_ofZ 0)) = Ok v /\ dvalue v = 1 - / 2 ^ 52.
Proof. exact node2_refuted_pf. Qed.
Print Assumptions C112_interp2d_nodes_refuted.

(** "A constant table is reproduced": false, 0.1 becomes 0.100006103515625 on a unit
    cell a million units from the origin. *)
Theorem C112_interp2d_constant_refuted : exists xs ys data c x y, all_finite xs /\ all_finite ys /\
  increasing (dvalues xs) /\ increasing (dvalues ys) /\
  dvalues xs = [1000000; 1000001] /\ dvalues ys = [1000000; 1000001] /\ data = [c; c; c; c] /\ is_finite c = true /\
  1 / 10 <= dvalue c <= 1000001 / 10000000 /\ In x xs /\ In y ys /\
  forall bm, exists o v, new2d bm LINEAR xs ys data = Ok o /\ eval2d bm o x y = Ok v /\ dvalue v = 6554 / 65536.
Proof. exact constant2_refuted_pf. Qed.
Print Assumptions C112_interp2d_constant_refuted.

(** The table 1, 2; 5, -3 on the cell [2, 4] x [-1, 7]: it gives 17/8 at (3, 1), exactly. *)
Example C112_example : exists o v,
  new2d Debug LINEAR [f64_ofZ 2; f64_ofZ 4] [f64_ofZ (-1); f64_ofZ 7] [f64_ofZ 1; f64_ofZ 2; f64_ofZ 5; f64_ofZ (-3)] = Ok o /\
  eval2d Debug o (f64_ofZ 3) (f64_ofZ 1) = Ok v /\ is_finite v = true /\ dvalue v = 17 / 8.
Proof.
  assert (V : forall z, (Z.abs z < 2 ^ 53)%Z -> dvalue (f64_ofZ z) = IZR z) by (intros z Hz; apply (ofZ_ok z Hz)).
  assert (VX : dvalues [f64_ofZ 2; f64_ofZ 4] = [2; 4]) by (unfold dvalues; cbn [map]; rewrite !V by lia; reflexivity).
  assert (VY : dvalues [f64_ofZ (-1); f64_ofZ 7] = [-1; 7]) by (unfold dvalues; cbn [map]; rewrite !V by lia; reflexivity).
  assert (VD : dvalues [f64_ofZ 1; f64_ofZ 2; f64_ofZ 5; f64_ofZ (-3)] = [1; 2; 5; -3]) by (unfold dvalues; cbn [map]; rewrite !V by lia; reflexivity).
  destruct (C112_interp2d_integers_exact Debug [f64_ofZ 2; f64_ofZ 4] [f64_ofZ (-1); f64_ofZ 7]
    [f64_ofZ 1; f64_ofZ 2; f64_ofZ 5; f64_ofZ (-3)] (f64_ofZ 3) (f64_ofZ 1) 0 0 2 4 (-1) 7 1 2 5 (-3) 3 1 1 3)
    as (o & v & H1 & H2 & H3 & H4); rewrite ?VX, ?VY, ?VD, ?V by lia; try reflexivity; try (repeat constructor; fail); try lia.
  - intros i j Hij. simpl in Hij. destruct i as [|[|i]]; destruct j as [|[|j]]; simpl; try lia; lra.
  - intros i j Hij. simpl in Hij. destruct i as [|[|i]]; destruct j as [|[|j]]; simpl; try lia; lra.
  - unfold inside. simpl. lra.
  - unfold clamped_cell. simpl. split; [lia|]. split; [lra|auto].
  - unfold clamped_cell. simpl. split; [lia|]. split; [lra|auto].
  - exists o, v. split; [exact H1|]. split; [exact H2|]. split; [exact H3|].
    unfold patch, bilinear in H4. rewrite VX, VY, VD, !V in H4 by lia. simpl in H4. lra.
Qed.

(** The same table with the general bound. *)
Example C112_example_bound : exists o v,
  new2d Release LINEAR [f64_ofZ 2; f64_ofZ 4] [f64_ofZ (-1); f64_ofZ 7] [f64_ofZ 1; f64_ofZ 2; f64_ofZ 5; f64_ofZ (-3)] = Ok o /\
  eval2d Release o (f64_ofZ 3) (f64_ofZ 1) = Ok v /\ is_finite v = true /\
  Rabs (dvalue v - 17 / 8) <= 57 * uround * (11 * 4 * 7 / 16) + / 2 ^ 200.
Proof.
  assert (V : forall z, (Z.abs z < 2 ^ 53)%Z -> dvalue (f64_ofZ z) = IZR z) by (intros z Hz; apply (ofZ_ok z Hz)).
  assert (VX : dvalues [f64_ofZ 2; f64_ofZ 4] = [2; 4]) by (unfold dvalues; cbn [map]; rewrite !V by lia; reflexivity).
  assert (VY : dvalues [f64_ofZ (-1); f64_ofZ 7] = [-1; 7]) by (unfold dvalues; cbn [map]; rewrite !V by lia; reflexivity).
  assert (VD : dvalues [f64_ofZ 1; f64_ofZ 2; f64_ofZ 5; f64_ofZ (-3)] = [1; 2; 5; -3]) by (unfold dvalues; cbn [map]; rewrite !V by lia; reflexivity).
  assert (AX : Rmax (Rabs 2) (Rabs 4) = 4) by (rewrite !Rabs_pos_eq, Rmax_right by lra; reflexivity).
  assert (AY : Rmax (Rabs (-1)) (Rabs 7) = 7).
  { rewrite (Rabs_left (-1)), (Rabs_pos_eq 7), Rmax_right by lra. reflexivity. }
  assert (AD : Rabs 1 + Rabs 2 + Rabs 5 + Rabs (-3) = 11).
  { rewrite (Rabs_left (-3)), !Rabs_pos_eq by lra. lra. }
  assert (P1 : forall n, 1 <= 2 ^ n) by (intros n; apply pow_R1_Rle; lra).
  assert (P11 : forall n, (4 <= n)%nat -> 11 <= 2 ^ n).
  { intros n Hn. apply Rle_trans with (2 ^ 4); [simpl; lra|]. apply Rle_pow; [lra|auto]. }
  assert (PI : forall n, / 2 ^ n <= 1) by (intros n; rewrite <- Rinv_1; apply Rinv_le_contravar; [lra|apply P1]).
  destruct (C112_interp2d_double Release [f64_ofZ 2; f64_ofZ 4] [f64_ofZ (-1); f64_ofZ 7]
    [f64_ofZ 1; f64_ofZ 2; f64_ofZ 5; f64_ofZ (-3)] (f64_ofZ 3) (f64_ofZ 1) 0 0)
    as (o & v & H1 & H2 & H3 & H4); rewrite ?VX, ?VY, ?VD, ?V by lia; try reflexivity; try (repeat constructor; fail).
  - intros i j Hij. simpl in Hij. destruct i as [|[|i]]; destruct j as [|[|j]]; simpl; try lia; lra.
  - intros i j Hij. simpl in Hij. destruct i as [|[|i]]; destruct j as [|[|j]]; simpl; try lia; lra.
  - unfold inside. simpl. lra.
  - unfold clamped_cell. simpl. split; [lia|]. split; [lra|auto].
  - unfold clamped_cell. simpl. split; [lia|]. split; [lra|auto].
  - cbn [nth]. rewrite AX. assert (K := P11 100%nat ltac:(lia)). lra.
  - cbn [nth]. rewrite AY. assert (K := P11 100%nat ltac:(lia)). lra.
  - cbn [nth Nat.mul Nat.add length]. rewrite AD. apply P11. lia.
  - cbn [nth]. assert (K := PI 100%nat). lra.
  - cbn [nth]. assert (K := PI 100%nat). lra.
  - exists o, v. split; [exact H1|]. split; [exact H2|]. split; [exact H3|].
    specialize (H4 (17 / 8)). rewrite VX, VY, VD, !V in H4 by lia. cbn [nth Nat.mul Nat.add length] in H4.
    rewrite AX, AY, AD in H4. replace ((4 - 2) * (7 - -1)) with 16 in H4 by ring. apply H4.
    unfold patch, bilinear. simpl. lra.
Qed.
