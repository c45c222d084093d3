(** C147: spectra of combined, delayed and convolved signals. *)
From Coq Require Import List Arith ZArith Bool Reals Lra Lia.
From Verif Require Import Outcome Num M_Basics S_Basics M_Integ S_Series S_Integ M_FFT S_FFT S_Spectra L_FFT L_Spectra.
Import ListNotations.
Local Open Scope R_scope.

(** C147: superposition. *)
Theorem C147_superposition : forall kfwd kinv, engine kfwd kinv -> forall fl a b (v w : list R), v <> [] -> length w = length v ->
  exists X Y, fft kfwd fl v = Ok X /\ fft kfwd fl w = Ok Y /\ length Y = length X /\
    fft kfwd fl (axpy a b v w) = Ok (map (fun p => mixed a b (fst p) (snd p)) (combine X Y)).
Proof. exact superposition_pf. Qed.
Print Assumptions C147_superposition.

(** C147: a cyclic delay of d samples turns the bin k by 2 pi k d / n. *)
Theorem C147_delay : forall kfwd kinv, engine kfwd kinv -> forall fl d (v : list R), v <> [] -> (d <= length v)%nat ->
  exists X Y, fft kfwd fl v = Ok X /\ fft kfwd fl (later d v) = Ok Y /\ length Y = length X /\
    forall k, (k < length X)%nat -> nth k Y (0, 0) = times (nth k X (0, 0)) (turn (2 * PI * INR k * INR d / INR (length v))).
Proof. exact delay_pf. Qed.
Print Assumptions C147_delay.

(** C147: the bin 0 is the sum of the samples. *)
Theorem C147_mean : forall kfwd kinv, engine kfwd kinv -> forall fl (v : list R), v <> [] ->
  exists X, fft kfwd fl v = Ok X /\ nth 0 X (0, 0) = (bsum (length v) (fun j => nth j v 0), 0).
Proof. exact dc_pf. Qed.
Print Assumptions C147_mean.

(** C147: in the complete spectrum the bins k and n - k are conjugate. *)
Theorem C147_mirror : forall kfwd kinv, engine kfwd kinv -> forall fl (v : list R), v <> [] -> has_flag fl flag_half = false ->
  exists X, fft kfwd fl v = Ok X /\ length X = length v /\
  forall k, (0 < k < length v)%nat -> nth (length v - k) X (0, 0) = (fst (nth k X (0, 0)), - snd (nth k X (0, 0))).
Proof. exact mirror_pf. Qed.
Print Assumptions C147_mirror.

(** C147: two signals of the same length with the same spectrum, even the half
    spectrum of an odd length, are equal. *)
Theorem C147_determines : forall kfwd kinv, engine kfwd kinv -> forall fl (v w : list R), v <> [] -> length w = length v ->
  fft kfwd fl v = fft kfwd fl w -> v = w.
Proof. exact determines_pf. Qed.
Print Assumptions C147_determines.

(** C147: the spectrum of a cyclic convolution is the product of the spectra. *)
Theorem C147_cyclic : forall kfwd kinv, engine kfwd kinv -> forall fl (v w : list R), v <> [] -> length w = length v ->
  exists X Y, fft kfwd fl v = Ok X /\ fft kfwd fl w = Ok Y /\ fft kfwd fl (cyclic v w) = Ok (products X Y).
Proof. exact cyclic_pf. Qed.
Print Assumptions C147_cyclic.

(** C147: two sequences are convolved by transforming them with enough zeros
    behind, multiplying and transforming back, whatever the calls made before. *)
Theorem C147_fast_convolution : forall kfwd kinv, engine kfwd kinv -> forall ops (v w : list R) N, v <> [] -> w <> [] ->
  (length v + length w - 1 <= N)%nat -> (last_half false ops = true -> Nat.even N = true) ->
  (let* X := fft kfwd (fft_run ops) (padded N v) in
   let* Y := fft kfwd (fft_run ops) (padded N w) in
   ifft kinv (fft_run ops) (products X Y)) =
  Ok (map (fun m => (if last_scaling true ops then 1 else INR N) * conv_term v w m) (seq 0 N)).
Proof. exact fast_pf. Qed.
Print Assumptions C147_fast_convolution.

(** C147: NaiveConvolution is the term of that convolution at the end of the
    kernel, times the step, with the two end products halved. *)
Theorem C147_naive_convolution : forall kfwd kinv, engine kfwd kinv -> forall bm ops (k s : list R) dt N,
  last_scaling true ops = true -> (2 <= length k)%nat -> (length k <= length s)%nat ->
  (length k + length s - 1 <= N)%nat -> (last_half false ops = true -> Nat.even N = true) ->
  exists c, (let* X := fft kfwd (fft_run ops) (padded N k) in
             let* Y := fft kfwd (fft_run ops) (padded N s) in
             ifft kinv (fft_run ops) (products X Y)) = Ok c /\
    naive_convolution bm k s dt false =
    Ok (dt * (nth (length k - 1) c 0 - (nth 0 k 0 * nth (length k - 1) s 0 + nth (length k - 1) k 0 * nth 0 s 0) / 2)).
Proof. exact naive_fast_pf. Qed.
Print Assumptions C147_naive_convolution.

(** (1, 2) * (3, 5) = (3, 11, 10) through half spectra of four samples; a delay
    of one sample; the engine exists (C102_engine). *)
Example C147_example : forall kfwd kinv, engine kfwd kinv ->
  (let* X := fft kfwd (fft_run [HalfSpectrumON]) (padded 4 [1; 2]) in
   let* Y := fft kfwd (fft_run [HalfSpectrumON]) (padded 4 [3; 5]) in
   ifft kinv (fft_run [HalfSpectrumON]) (products X Y)) = Ok [3; 11; 10; 0].
Proof. exact ex_fast. Qed.
Example C147_example_later : later 1 [1; 2; 3; 5] = [5; 1; 2; 3].
Proof. exact ex_later. Qed.
Example C147_engine : engine ref_fwd ref_inv.
Proof. exact engine_exists. Qed.
