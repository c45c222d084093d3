(** C103: Dirac.  C104: Spline. *)
From Coq Require Import List Arith ZArith Bool Reals Lra Lia Sorted.
From Flocq Require Import Core.Raux.
From Verif Require Import Outcome Num NumFun M_Dirac S_Dirac S_Special L_Dirac.
Import ListNotations.
Local Open Scope R_scope.

(** C103. On a regular increasing grid the sample closest to the impulse, if
    it is strictly closer than half a step, is the only one set. *)
Theorem C103_impulse : forall a h n k imp height, 0 < h -> (2 <= n)%nat -> (k < n)%nat ->
  Rabs (a + INR k * h - imp) < h / 2 ->
  Dirac AbsReal (uniform a h n) imp height = Ok (impulse n k height).
Proof. exact dirac_uniform. Qed.
Print Assumptions C103_impulse.
(** Midway between two samples the impulse is lost; so it is on a
    decreasing grid. *)
Theorem C103_midway : forall a h n k height, 0 < h -> (2 <= n)%nat ->
  Dirac AbsReal (uniform a h n) (a + (INR k + / 2) * h) height = Ok (repeat 0 n).
Proof. exact dirac_midway. Qed.
Print Assumptions C103_midway.
Theorem C103_decreasing : forall x imp height, (2 <= length x)%nat -> nth 1 x 0 <= nth 0 x 0 ->
  Dirac AbsReal x imp height = Ok (repeat 0 (length x)).
Proof. exact dirac_decreasing. Qed.
Print Assumptions C103_decreasing.
(** Any samples: those within half the first step. *)
Theorem C103_values : forall x imp h, (2 <= length x)%nat ->
  Dirac AbsReal x imp h =
  Ok (map (fun xi => if Rltb (Rabs (xi - imp)) ((nth 1 x 0 - nth 0 x 0) / 2) then h else 0) x).
Proof. exact dirac_values. Qed.
Print Assumptions C103_values.
(** "At most one sample is set on increasing samples" is false. *)
Theorem C103_irregular_refuted : exists x imp, StronglySorted Rlt x /\ In imp x /\
  Dirac AbsReal x imp 1 = Ok [0; 1; 1; 1].
Proof. exact dirac_irregular. Qed.
Print Assumptions C103_irregular_refuted.
(** Fewer than two samples: out-of-bounds access. *)
Theorem C103_short : forall o x imp (h : R), (length x < 2)%nat -> Dirac o x imp h = UB.
Proof. exact dirac_short. Qed.
Print Assumptions C103_short.
(** With C's [abs(int)]: the distance is truncated, so every sample closer
    than 1 to the impulse is set. *)
Theorem C103_integer_abs : forall x imp h, (2 <= length x)%nat ->
  (forall xi, In xi x -> Rabs (xi - imp) < 2147483648) ->
  Dirac AbsInt x imp h =
  Ok (map (fun xi => if Rltb (IZR (Z.abs (Ztrunc (xi - imp)))) ((nth 1 x 0 - nth 0 x 0) / 2) then h else 0) x).
Proof. exact dirac_int. Qed.
Print Assumptions C103_integer_abs.
Theorem C103_integer_abs_wide : forall x imp h, (2 <= length x)%nat -> nth 0 x 0 < nth 1 x 0 ->
  (forall xi, In xi x -> Rabs (xi - imp) < 1) -> Dirac AbsInt x imp h = Ok (repeat h (length x)).
Proof. exact dirac_int_wide. Qed.
Print Assumptions C103_integer_abs_wide.
Example C103_example : Dirac AbsReal (uniform 0 (1 / 10) 5) (22 / 100) 3 = Ok [0; 0; 3; 0; 0] /\
  Dirac AbsInt (uniform 0 (1 / 10) 5) (22 / 100) 3 = Ok [3; 3; 3; 3; 3].
Proof.
  split.
  - rewrite (C103_impulse 0 (1 / 10) 5 2) by (try lia; try lra; cbn [INR]; rewrite Rabs_left1; lra). reflexivity.
  - rewrite C103_integer_abs_wide; [reflexivity|cbn; lia|cbn; lra|].
    intros xi H. cbn in H. unfold Rabs. repeat (destruct H as [<-|H]; [destruct Rcase_abs; lra|]). destruct H.
Qed.

(** C104. The spline takes the given values at the given abscissae; both
    constructors agree. *)
Theorem C104_nodes : forall fit bm deg xs ys, interpolating fit -> strictly_increasing xs ->
  (2 <= length xs)%nat -> length ys = length xs ->
  exists s, make_spline fit bm deg xs ys = Ok s /\ make_spline_vector fit bm deg xs ys = Ok s /\
    forall i, (i < length xs)%nat -> spline_eval s (nth i xs 0) = nth i ys 0.
Proof. exact spline_nodes. Qed.
Print Assumptions C104_nodes.
(** Origin and scale of the abscissae do not matter, whatever the fitting. *)
Theorem C104_affine : forall fit bm deg xs ys a b, 0 < a -> strictly_increasing xs -> (2 <= length xs)%nat ->
  exists s s', make_spline fit bm deg xs ys = Ok s /\
    make_spline fit bm deg (map (fun x => a * x + b) xs) ys = Ok s' /\
    forall x, spline_eval s' (a * x + b) = spline_eval s x.
Proof. exact spline_affine. Qed.
Print Assumptions C104_affine.
(** A single sample: every parameter, at construction and at evaluation, is a
    division by zero. *)
Theorem C104_single : forall fit bm deg (x : R) ys,
  exists s, make_spline (NT := PNum) fit bm deg [Some x] ys = Ok s /\
    forall t, spline_eval (NT := PNum) s (Some t) = fit ys 0%nat [None] None.
Proof. exact spline_single. Qed.
Print Assumptions C104_single.
Theorem C104_empty : forall fit deg ys, make_spline (T := R) fit Debug deg [] ys = Abort /\
  make_spline (T := R) fit Release deg [] ys = UB.
Proof. exact spline_empty. Qed.
Print Assumptions C104_empty.
Example C104_example : exists s, make_spline (fun pts _ par u => table pts par u) Debug 3 [-1; 2; 10] [5; 7; 6] = Ok s /\
  spline_eval s 2 = 7.
Proof.
  destruct (C104_nodes _ Debug 3%nat [-1; 2; 10] [5; 7; 6] table_interpolating) as [s [E [_ H]]];
    [repeat constructor; lra|cbn; lia|reflexivity|]. exists s. split; [exact E|]. apply (H 1%nat). cbn. lia.
Qed.
