(** Property C115: frequencies and sample points built by repeated addition, in IEEE double. *)
From Coq Require Import List Arith ZArith Reals Lia Lra.
From Flocq Require Import IEEE754.BinarySingleNaN.
From Verif Require Import Outcome Num NumFun F64 M_Basics M_Integ S_Basics S_Series S_Integ S_Angles S_Double S_Trapz64 S_Sampled64 L_F64 L_Sampled64.
Import ListNotations.
Local Open Scope R_scope.

(** Entry k of the frequency vector, in any unit: within 2k+15 roundings. *)
Theorem C115_frequency_double : forall half nfft fs u, is_finite fs = true -> / 2 ^ 400 <= dvalue fs <= 2 ^ 400 ->
  (0 < nfft)%nat -> (Z.of_nat nfft <= 2 ^ 40)%Z ->
  let out := frequency_vector half nfft fs u in
  length out = (if half then nfft / 2 + 1 else nfft)%nat /\
  forall k y, (0 < k < length out)%nat -> denotes_hertz PI u y (INR k * dvalue fs / INR nfft) ->
    is_finite (nth k out fs) = true /\ Rabs (dvalue (nth k out fs) - y) <= (2 * INR k + 15) * uround * Rabs y.
Proof. exact frequency_vector_double_lemma. Qed.
Print Assumptions C115_frequency_double.

(** In hertz: starts at zero and increases. *)
Theorem C115_frequency_increasing : forall half nfft fs, is_finite fs = true -> / 2 ^ 400 <= dvalue fs <= 2 ^ 400 ->
  (0 < nfft)%nat -> (Z.of_nat nfft <= 2 ^ 40)%Z ->
  let out := frequency_vector half nfft fs HERTZ in dvalue (nth 0 out fs) = 0 /\
  forall k, (S k < length out)%nat -> dvalue (nth k out fs) < dvalue (nth (S k) out fs).
Proof. exact frequency_increasing_lemma. Qed.
Print Assumptions C115_frequency_increasing.

(** Integrate1d over given samples. *)
Theorem C115_integrate_vector_double : forall (y : list f64) (xmin xmax : f64),
  (2 <= length y)%nat -> (Z.of_nat (length y) <= 2 ^ 32)%Z -> ordinary (2 ^ 400) (xmin :: xmax :: y) ->
  let n := length y in let h := (dvalue xmax - dvalue xmin) / INR (n - 1) in let g := grid (dvalue xmin) h n in
  exists s v, integ1_get (integ1_vector y xmin xmax n) = (s, Ok v) /\ is_finite v = true /\
    Rabs (dvalue v - areas g (dvalues y)) <= 2 * (INR n + 2) * uround * areas_abs g (dvalues y) + 4 * uflow * (Rabs h + abs_sum (dvalues y) + 1).
Proof. exact integ1_vector_double_lemma. Qed.
Print Assumptions C115_integrate_vector_double.

(** Integrate1d over a function: where it is evaluated, and the result. *)
Theorem C115_integrate_function_double : forall (f : f64 -> f64) (xmin xmax : f64) (nb : nat),
  (2 <= nb)%nat -> (Z.of_nat nb <= 2 ^ 32)%Z -> ordinary (2 ^ 400) [xmin; xmax] ->
  (forall x, is_finite x = true -> is_finite (f x) = true /\ Rabs (dvalue (f x)) <= 2 ^ 400) ->
  let h := (dvalue xmax - dvalue xmin) / INR (nb - 1) in let g := grid (dvalue xmin) h nb in
  exists xs s v, integ1_get (integ1_function f xmin xmax nb) = (s, Ok v) /\ i_y s = map f xs /\ length xs = nb /\ is_finite v = true /\
    (forall k, (k < nb)%nat -> is_finite (nth k xs xmax) = true /\
       Rabs (dvalue (nth k xs xmax) - (dvalue xmin + INR k * h)) <=
         (2 * INR k + 3) * uround * (Rabs (dvalue xmin) + Rabs (dvalue xmax - dvalue xmin)) + 2 * INR k * uflow) /\
    Rabs (dvalue v - areas g (dvalues (map f xs))) <=
      2 * (INR nb + 2) * uround * areas_abs g (dvalues (map f xs)) + 4 * uflow * (Rabs h + abs_sum (dvalues (map f xs)) + 1).
Proof. exact integ1_function_double_lemma. Qed.
Print Assumptions C115_integrate_function_double.

(** The middle bin is not half the sampling frequency: 12 points at 1 Hz. *)
Theorem C115_nyquist_refuted : exists (nfft : nat) (fs : f64), (Nat.even nfft = true) /\ dvalue fs = 1 /\
  dvalue (nth (nfft / 2) (frequency_vector true nfft fs HERTZ) fs) < dvalue fs / 2.
Proof. exact nyquist_refuted_pf. Qed.
Print Assumptions C115_nyquist_refuted.

(** The integrand is not evaluated within [xmin, xmax] only: ten points on [0, 1]. *)
Theorem C115_inside_interval_refuted : exists (xmin xmax : f64) nb s v, dvalue xmin = 0 /\ dvalue xmax = 1 /\
  integ1_get (integ1_function (fun x => x) xmin xmax nb) = (s, Ok v) /\ dvalue xmax < dvalue (last (i_y s) xmin).
Proof. exact overshoot_refuted_pf. Qed.
Print Assumptions C115_inside_interval_refuted.

(** 1000 points at 48 kHz: bin 100 is 4800 Hz, 288000 rpm. *)
Example C115_example : let fs := f64_ofZ 48000 in
  Rabs (dvalue (nth 100 (frequency_vector true 1000 fs RPM) fs) - 288000) <= 215 * uround * 288000.
Proof.
  intros fs. destruct (ofZ_ok 48000 ltac:(lia)) as (F & V). fold fs in F, V.
  assert (B : 1 <= 2 ^ 400 /\ 48000 <= 2 ^ 400).
  { assert (2 ^ 16 <= 2 ^ 400) by (apply Rle_pow; [lra|lia]). replace (2 ^ 16) with 65536 in H by lra. lra. }
  assert (I : / 2 ^ 400 <= 1) by (rewrite <- Rinv_1; apply Rinv_le_contravar; lra).
  destruct (C115_frequency_double true 1000 fs RPM F) as (L & H); try lia.
  { unfold dvalue. rewrite V. lra. }
  assert (K : INR 100 = 100) by (rewrite INR_IZR_INZ; reflexivity). assert (K2 : INR 1000 = 1000) by (rewrite INR_IZR_INZ; reflexivity).
  destruct (H 100%nat 288000) as (_ & E).
  - rewrite L. split; [lia|]. apply Nat.ltb_lt. vm_compute. reflexivity.
  - cbn [denotes_hertz]. unfold dvalue. rewrite V, K, K2. lra.
  - rewrite K, (Rabs_pos_eq 288000) in E by lra. lra.
Qed.
