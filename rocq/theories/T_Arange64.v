(** Property C113: arange in IEEE double. *)
From Coq Require Import List Arith ZArith Reals Lia Lra.
From Flocq Require Import IEEE754.BinarySingleNaN.
From Verif Require Import Outcome Num NumFun F64 M_Basics S_Angles S_Double S_Arange64 L_F64 L_Arange64.
Import ListNotations.
Local Open Scope R_scope.

(** The number of values is the integer part of (stop-start)/step up to three
    roundings of that quotient; two or more values run from start to
    count*step, evenly spaced up to rounding. *)
Theorem C113_arange_double : forall bm start stop step, arange_ready start stop step ->
  exists n : nat, floor_within_rounding ((dvalue stop - dvalue start) / dvalue step) n /\
    (n = 0%nat -> arange bm start stop step = match bm with Debug => Abort | Release => UB end) /\
    (n = 1%nat -> match bm with
       | Debug => arange bm start stop step = Abort
       | Release => exists v, arange bm start stop step = Ok [v] /\ dvalue v = dvalue step end) /\
    ((2 <= n)%nat -> / 2 ^ 900 <= dvalue step -> dvalue start <= INR n * dvalue step ->
     exists l, arange bm start stop step = Ok l /\ length l = n /\
       dvalue (nth 0 l stop) = dvalue start /\
       Rabs (dvalue (nth (n - 1) l start) - INR n * dvalue step) <= uround * (INR n * dvalue step) /\
       (forall i j, (i <= j < n)%nat -> dvalue (nth i l start) <= dvalue (nth j l start)) /\
       (forall k, (k < n)%nat -> is_finite (nth k l start) = true /\
          Rabs (dvalue (nth k l start) - (dvalue start + INR k * ((INR n * dvalue step - dvalue start) / INR (n - 1)))) <=
            7 * uround * (Rabs (dvalue start) + INR n * dvalue step))).
Proof. exact arange_double_lemma. Qed.
Print Assumptions C113_arange_double.

(** With integer arguments the count is exact. *)
Theorem C113_arange_integers_exact : forall bm start stop step (A B S : Z),
  is_finite start = true -> is_finite stop = true -> is_finite step = true ->
  dvalue start = IZR A -> dvalue stop = IZR B -> dvalue step = IZR S ->
  (0 < S)%Z -> (A < B)%Z -> (Z.abs A < 2 ^ 53)%Z -> (Z.abs B < 2 ^ 53)%Z -> (B - A < 2 ^ 53)%Z ->
  (2 <= (B - A) / S <= 2 ^ 32 - 3)%Z -> (A <= (B - A) / S * S)%Z ->
  exists l, arange bm start stop step = Ok l /\ length l = Z.to_nat ((B - A) / S) /\
    dvalue (nth 0 l stop) = IZR A /\ dvalue (last l start) = IZR ((B - A) / S * S).
Proof. exact arange_integers_lemma. Qed.
Print Assumptions C113_arange_integers_exact.

(** NaN: an assertion in debug, undefined behaviour in release. *)
Theorem C113_arange_nan : forall start stop step : f64,
  is_nan start = true \/ is_nan stop = true \/ is_nan step = true ->
  arange Debug start stop step = Abort /\ arange Release start stop step = UB.
Proof. exact arange_nan_lemma. Qed.
Print Assumptions C113_arange_nan.

(** The count is not the integer part of the exact quotient: arange(0, 1, 0.1)
    has ten elements although 10*0.1 exceeds 1. *)
Theorem C113_count_refuted : exists (start stop step : f64) l, arange_ready start stop step /\
  arange Debug start stop step = Ok l /\ (dvalue stop - dvalue start) / dvalue step < INR (length l).
Proof. exact arange_count_refuted_pf. Qed.
Print Assumptions C113_count_refuted.

(** Nor the one written in decimal: arange(0, 0.6, 0.2) has two elements. *)
Theorem C113_decimal_count_refuted : exists (stop step : f64) l, dvalue stop = dround (6 / 10) /\ dvalue step = dround (2 / 10) /\
  arange Debug (f64_ofZ 0) stop step = Ok l /\ length l = 2%nat.
Proof. exact arange_decimal_refuted_pf. Qed.
Print Assumptions C113_decimal_count_refuted.

(** arange(-3, 20, 2) has (20+3)/2 = 11 elements and ends at 22. *)
Example C113_example : exists l, arange Release (f64_ofZ (-3)) (f64_ofZ 20) (f64_ofZ 2) = Ok l /\ length l = 11%nat /\
  dvalue (last l (f64_ofZ (-3))) = 22.
Proof.
  destruct (C113_arange_integers_exact Release (f64_ofZ (-3)) (f64_ofZ 20) (f64_ofZ 2) (-3) 20 2) as (l & A & B & _ & C);
    try (apply ofZ_ok; lia); try lia; try reflexivity; try (split; discriminate); try discriminate.
  exists l. split; [exact A|]. split; [exact B|]. rewrite C. reflexivity.
Qed.
