(** C64-C66, C69, C70, C90: one-dimensional integration, convolution, frequencies. *)
From Coq Require Import List Arith ZArith Bool Sorted Reals Lra Lia.
From Coquelicot Require Import Coquelicot.
From Verif Require Import Outcome Num M_Basics S_Basics M_Integ S_Series S_Integ L_Series L_Integ L_Integ2.
Import ListNotations.
Local Open Scope R_scope.

(** C64. Trapezoidal rule: values of both overloads ... *)
Theorem C64_trapz_uniform : forall a h (y : list R), (2 <= length y)%nat ->
  trapz_uniform y h = Ok (areas (grid a h (length y)) y).
Proof. exact trapz_uniform_lemma. Qed.
Print Assumptions C64_trapz_uniform.
Theorem C64_trapz_uniform_short : forall (h y0 : R), trapz_uniform [y0] h = Ok (h * y0) /\ trapz_uniform (T := R) [] h = UB.
Proof. exact (fun h y0 => conj (trapz_uniform_one y0 h) (trapz_uniform_nil h)). Qed.
Print Assumptions C64_trapz_uniform_short.
Theorem C64_trapz : forall bm (x y : list R), (2 <= length y)%nat -> length x = length y -> trapz_xy bm x y = Ok (areas x y).
Proof. exact trapz_xy_ok. Qed.
Print Assumptions C64_trapz.
(** ... preconditions ... *)
Theorem C64_trapz_debug_guard : forall (x y : list R), ((length y < 2)%nat \/ length x <> length y) -> trapz_xy Debug x y = Abort.
Proof. exact trapz_xy_debug. Qed.
Print Assumptions C64_trapz_debug_guard.
Theorem C64_trapz_release_short : forall (x y : list R), ((length y < 2)%nat \/ (length x < length y)%nat) -> trapz_xy Release x y = UB.
Proof. exact trapz_xy_release_short. Qed.
Print Assumptions C64_trapz_release_short.
(** ... agreement, linearity, additivity, exactness, monotonicity ... *)
Theorem C64_trapz_agree : forall a h (y : list R) bm, (2 <= length y)%nat ->
  trapz_uniform y h = trapz_xy bm (grid a h (length y)) y.
Proof. exact trapz_agree. Qed.
Print Assumptions C64_trapz_agree.
Theorem C64_trapz_linear : forall bm x y z a b, (2 <= length x)%nat -> length y = length x -> length z = length x ->
  exists vy vz, trapz_xy bm x y = Ok vy /\ trapz_xy bm x z = Ok vz /\ trapz_xy bm x (axpy a b y z) = Ok (a * vy + b * vz).
Proof. exact trapz_linear. Qed.
Print Assumptions C64_trapz_linear.
Theorem C64_trapz_uniform_linear : forall y z h a b, (1 <= length y)%nat -> length y = length z ->
  exists vy vz, trapz_uniform y h = Ok vy /\ trapz_uniform z h = Ok vz /\ trapz_uniform (axpy a b y z) h = Ok (a * vy + b * vz).
Proof. exact trapz_linear_uniform. Qed.
Print Assumptions C64_trapz_uniform_linear.
Theorem C64_trapz_additive : forall bm xa p xb ya q yb, length xa = length ya -> length xb = length yb -> xa <> [] -> xb <> [] ->
  exists va vb, trapz_xy bm (xa ++ [p]) (ya ++ [q]) = Ok va /\ trapz_xy bm (p :: xb) (q :: yb) = Ok vb /\
    trapz_xy bm (xa ++ p :: xb) (ya ++ q :: yb) = Ok (va + vb).
Proof. exact trapz_additive. Qed.
Print Assumptions C64_trapz_additive.
Theorem C64_trapz_affine : forall bm (x : list R) m q, (2 <= length x)%nat ->
  trapz_xy bm x (map (fun t => m * t + q) x) = Ok (RInt (fun t => m * t + q) (hd 0 x) (last x 0)).
Proof. exact trapz_affine. Qed.
Print Assumptions C64_trapz_affine.
Theorem C64_trapz_monotone : forall bm (x y z : list R), (2 <= length x)%nat -> StronglySorted Rle x ->
  length y = length x -> Forall2 Rle y z ->
  exists vy vz, trapz_xy bm x y = Ok vy /\ trapz_xy bm x z = Ok vz /\ vy <= vz.
Proof. exact trapz_monotone. Qed.
Print Assumptions C64_trapz_monotone.
(** ... and error bound. *)
Theorem C64_trapz_error : forall bm x f f1 f2 M h, (2 <= length x)%nat -> steps h x ->
  twice_derivable f f1 f2 (hd 0 x) (last x 0) M ->
  exists v, trapz_xy bm x (map f x) = Ok v /\
    Rabs (v - RInt f (hd 0 x) (last x 0)) <= M * h ^ 2 * (last x 0 - hd 0 x) / 12.
Proof. exact trapz_error. Qed.
Print Assumptions C64_trapz_error.
Example C64_example : trapz_xy Debug [0; 1; 3] [2; 4; 1] = Ok 8 /\ trapz_uniform [2; 4; 1] 2 = Ok 11 /\
  trapz_xy Debug [0; 1] [1] = Abort /\ trapz_xy Release [0] [1; 2] = UB.
Proof.
  rewrite (C64_trapz Debug [0;1;3] [2;4;1] (le_S _ _ (le_n 2)) eq_refl), (C64_trapz_uniform 0 2 [2;4;1] (le_S _ _ (le_n 2))).
  rewrite (C64_trapz_debug_guard [0;1] [1] (or_introl (le_n 2))), (C64_trapz_release_short [0] [1;2] (or_intror (le_n 2))).
  cbn [areas grid length seq map]. simpl INR. repeat split; f_equal; lra.
Qed.
(** Three unequal panels of the square function: within 1 of the integral 9. *)
Example C64_error_example : exists v, trapz_xy Release [0; 1; 2; 3] (map (fun t => t ^ 2) [0; 1; 2; 3]) = Ok v /\
  Rabs (v - RInt (fun t => t ^ 2) 0 3) <= 1 / 2.
Proof.
  destruct (C64_trapz_error Release [0;1;2;3] (fun t => t ^ 2) (fun t => 2 * t) (fun _ => 2) 2 1) as (v & E & B).
  - cbn; lia.
  - cbn [steps]. repeat split; lra.
  - repeat split; intros t _.
    + apply is_derive_Reals. auto_derive; [exact I|ring].
    + apply is_derive_Reals. auto_derive; [exact I|ring].
    + rewrite Rabs_right; lra.
  - exists v. split; [exact E|]. cbn [hd last] in B. eapply Rle_trans; [exact B|lra].
Qed.

(** C65. Integrate1d: over every history of calls, Get returns the trapezoidal
    value for the current bounds, or throws with NEWTON_COTES.  Repeated Get is
    the case where the history ends with Get. *)
Theorem C65_integrate1d_function_history : forall f a b nb calls, (2 <= nb)%nat -> (Z.of_nat nb < 2 ^ 32)%Z ->
  let v := view_after a b calls in
  snd (integ1_get (fold_left iapply calls (integ1_function f a b nb))) = get_result (areas_of f (v_a v) (v_b v) nb) v.
Proof. exact hist_function. Qed.
Print Assumptions C65_integrate1d_function_history.
Theorem C65_integrate1d_vector_history : forall y a b nb calls, (2 <= nb)%nat -> (Z.of_nat nb < 2 ^ 32)%Z -> length y = nb ->
  let v := view_after a b calls in
  snd (integ1_get (fold_left iapply calls (integ1_vector y a b nb))) =
  get_result (areas (grid (v_a v) ((v_b v - v_a v) / INR (nb - 1)) nb) y) v.
Proof. exact hist_vector. Qed.
Print Assumptions C65_integrate1d_vector_history.
(** The value is within the usual bound of the integral. *)
Theorem C65_integrate1d_error : forall f f1 f2 M a b n, (2 <= n)%nat -> a <= b -> twice_derivable f f1 f2 a b M ->
  Rabs (areas_of f a b n - RInt f a b) <= M * ((b - a) / INR (n - 1)) ^ 2 * (b - a) / 12.
Proof. exact areas_of_error. Qed.
Print Assumptions C65_integrate1d_error.
Example C65_example : snd (integ1_get (fold_left iapply [CGet; CXmax 4; CGet; CGet] (integ1_function (fun t => t ^ 2) 0 2 3))) = Ok 24
  /\ snd (integ1_get (fold_left iapply [CMethod NEWTON_COTES] (integ1_function (fun t => t ^ 2) 0 2 3))) = Throw RuntimeError.
Proof.
  rewrite (C65_integrate1d_function_history (fun t => t ^ 2) 0 2 3 [CGet; CXmax 4; CGet; CGet] (le_S _ _ (le_n 2)) eq_refl).
  rewrite (C65_integrate1d_function_history (fun t => t ^ 2) 0 2 3 [CMethod NEWTON_COTES] (le_S _ _ (le_n 2)) eq_refl).
  cbn [view_after fold_left vapply v_a v_b v_m v_got get_result orb]. split; [|reflexivity]. unfold get_result, view_after.
  cbn [fold_left vapply v_a v_b v_m v_got orb]. f_equal.
  unfold areas_of. cbn [Nat.sub bsum]. simpl INR. lra.
Qed.

(** C66. Defect: changing the method after a successful Get does not invalidate
    the cached value. *)
Theorem C66_method_change_ignored : forall f a b nb calls ms, (2 <= nb)%nat -> (Z.of_nat nb < 2 ^ 32)%Z ->
  let v := view_after a b calls in v_got v = true ->
  snd (integ1_get (fold_left iapply (calls ++ map CMethod ms) (integ1_function f a b nb))) = Ok (areas_of f (v_a v) (v_b v) nb).
Proof. exact method_ignored. Qed.
Print Assumptions C66_method_change_ignored.
Theorem C66_get_follows_method_refuted : exists (f : R -> R) a b nb calls,
  snd (integ1_get (set_method NEWTON_COTES (fold_left iapply calls (integ1_function f a b nb)))) <>
  snd (integ1_get (set_method NEWTON_COTES (integ1_function f a b nb))).
Proof. exact method_refuted. Qed.
Print Assumptions C66_get_follows_method_refuted.
Example C66_example : v_got (view_after 0 1 [CXmin 2; CGet]) = true /\ v_got (view_after 0 1 [CGet; CXmin 2]) = false.
Proof. split; reflexivity. Qed.

(** C90. Defect: an Integrate1d object built on a vector does not compare the
    number of points with the size of the vector. *)
Theorem C90_vector_size_mismatch : forall y a b nb, (2 <= nb)%nat -> (Z.of_nat nb < 2 ^ 32)%Z ->
  snd (integ1_get (integ1_vector y a b nb)) =
  if ((length y =? 0) || (length y + 1 <? nb))%nat then UB
  else Ok ((b - a) / INR (nb - 1) * ((nth 0 y 0 + last y 0) / 2 + bsum (nb - 2) (fun j => nth (S j) y 0))).
Proof. exact vector_mismatch. Qed.
Print Assumptions C90_vector_size_mismatch.
Theorem C90_no_points : forall f a b, snd (integ1_get (integ1_function (T := R) f a b 0)) = UB.
Proof. exact function_few. Qed.
Print Assumptions C90_no_points.
Theorem C90_size_checked_refuted : exists y a b nb w,
  (2 <= nb)%nat /\ length y <> nb /\ snd (integ1_get (integ1_vector y a b nb)) = Ok w /\
  w <> areas (grid a ((b - a) / INR (length y - 1)) (length y)) y.
Proof. exact mismatch_refuted. Qed.
Print Assumptions C90_size_checked_refuted.
Example C90_example : snd (integ1_get (integ1_vector [1; 1; 1; 1; 7] 0 2 3)) = Ok 5 /\ snd (integ1_get (integ1_vector [1] 0 2 3)) = UB.
Proof.
  rewrite (C90_vector_size_mismatch [1; 1; 1; 1; 7] 0 2 3 (le_S _ _ (le_n 2)) eq_refl).
  rewrite (C90_vector_size_mismatch [1] 0 2 3 (le_S _ _ (le_n 2)) eq_refl).
  cbn [length Nat.eqb Nat.add Nat.ltb Nat.leb orb Nat.sub bsum nth last]. simpl INR. split; [|reflexivity]. f_equal. lra.
Qed.

(** C69. Naive convolution. *)
Theorem C69_convolution_value : forall bm (k s : list R) dt, (2 <= length k)%nat -> (length k <= length s)%nat ->
  naive_convolution bm k s dt true = Ok (dt * bsum (length k - 1) (fun i => (nth i k 0 * nth i s 0 + nth (S i) k 0 * nth (S i) s 0) / 2)) /\
  naive_convolution bm k s dt false = Ok (dt * bsum (length k - 1) (fun i =>
    (nth i k 0 * nth (length k - 1 - i) s 0 + nth (S i) k 0 * nth (length k - 1 - S i) s 0) / 2)).
Proof. exact conv_value. Qed.
Print Assumptions C69_convolution_value.
Theorem C69_convolution_degenerate : forall bm (k0 s0 : R) s dt r,
  naive_convolution bm [k0] (s0 :: s) dt r = Ok (dt * (k0 * s0)) /\ naive_convolution (T := R) bm [] s dt r = UB.
Proof. exact (fun bm k0 s0 s dt r => conj (conv_one bm k0 s0 s dt r) (conv_empty bm s dt r)). Qed.
Print Assumptions C69_convolution_degenerate.
Theorem C69_convolution_short : forall (k s : list R) dt r, (length s < length k)%nat ->
  naive_convolution Debug k s dt r = Abort /\ naive_convolution Release k s dt r = UB.
Proof. exact conv_short. Qed.
Print Assumptions C69_convolution_short.
Theorem C69_convolution_reverse : forall bm (k s : list R) dt, (1 <= length k)%nat -> (length k <= length s)%nat ->
  naive_convolution bm k s dt false =
  naive_convolution bm k (rev (firstn (length k) s) ++ skipn (length k) s) dt true.
Proof. exact conv_reverse. Qed.
Print Assumptions C69_convolution_reverse.
Theorem C69_convolution_linear_kernel : forall bm k1 k2 s dt r a b,
  (1 <= length k1)%nat -> length k1 = length k2 -> (length k1 <= length s)%nat ->
  exists v1 v2, naive_convolution bm k1 s dt r = Ok v1 /\ naive_convolution bm k2 s dt r = Ok v2 /\
    naive_convolution bm (axpy a b k1 k2) s dt r = Ok (a * v1 + b * v2).
Proof. exact conv_bilinear_k. Qed.
Print Assumptions C69_convolution_linear_kernel.
Theorem C69_convolution_linear_signal : forall bm k s1 s2 dt r a b,
  (1 <= length k)%nat -> length s1 = length s2 -> (length k <= length s1)%nat ->
  exists v1 v2, naive_convolution bm k s1 dt r = Ok v1 /\ naive_convolution bm k s2 dt r = Ok v2 /\
    naive_convolution bm k (axpy a b s1 s2) dt r = Ok (a * v1 + b * v2).
Proof. exact conv_bilinear_s. Qed.
Print Assumptions C69_convolution_linear_signal.
Theorem C69_convolution_commutes : forall bm (k s : list R) dt, length k = length s ->
  naive_convolution bm k s dt false = naive_convolution bm s k dt false.
Proof. exact conv_comm. Qed.
Print Assumptions C69_convolution_commutes.
Example C69_example : naive_convolution Debug [1; 2] [3; 5; 100] (1 / 2) true = Ok (13 / 4) /\
  naive_convolution Debug [1; 2] [3; 5; 100] (1 / 2) false = Ok (11 / 4).
Proof.
  destruct (C69_convolution_value Debug [1; 2] [3; 5; 100] (1 / 2) (le_n 2) (le_S _ _ (le_n 2))) as [-> ->].
  cbn [length Nat.sub bsum nth]. split; f_equal; lra.
Qed.

(** C70. Frequency vector of the FFT: length, and the k-th entry denotes
    k fs / nfft Hz in the requested unit (a period needs a non-zero frequency). *)
Theorem C70_frequency_vector : forall half nfft fs u, (0 < nfft)%nat ->
  let out := frequency_vector half nfft fs u in
  length out = (if half then nfft / 2 + 1 else nfft)%nat /\
  forall k, (k < length out)%nat -> (u = PERIOD_S -> (0 < k)%nat /\ fs <> 0) ->
    denotes_hertz PI u (nth k out 0) (INR k * fs / INR nfft).
Proof. exact freq_lemma. Qed.
Print Assumptions C70_frequency_vector.
Example C70_example : length (frequency_vector true 8 16 RPM) = 5%nat /\
  denotes_hertz PI RPM (nth 3 (frequency_vector true 8 16 RPM) 0) 6.
Proof.
  destruct (C70_frequency_vector true 8 16 RPM ltac:(lia)) as [L H]. split; [exact L|].
  replace 6 with (INR 3 * 16 / INR 8) by (simpl; lra). apply H; [rewrite L; cbn; lia|discriminate].
Qed.
