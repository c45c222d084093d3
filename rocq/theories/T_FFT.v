(** C102: the FFT wrapper. *)
From Coq Require Import List Arith ZArith Bool Reals Lra Lia.
From Verif Require Import Outcome Num M_Basics S_Basics M_Integ S_Series M_FFT S_FFT L_FFT.
Import ListNotations.
Local Open Scope R_scope.

(** The transform of a non-empty signal is its discrete Fourier transform: all
    the bins, or the bins 0 .. n/2 with the half spectrum. *)
Theorem C102_fft_values : forall kfwd kinv fl (v : list R), engine kfwd kinv -> v <> [] ->
  exists X, fft kfwd fl v = Ok X /\
    length X = (if has_flag fl flag_half then length v / 2 + 1 else length v)%nat /\
    forall k, (k < length X)%nat -> nth k X (0, 0) = dft v k.
Proof. exact fft_values. Qed.
Print Assumptions C102_fft_values.

(** Empty vectors are undefined behaviour, or length_error for the inverse
    with the half spectrum. *)
Theorem C102_empty : forall kfwd kinv fl, fft (T := R) kfwd fl [] = UB /\
  ifft (T := R) kinv fl [] = if has_flag fl flag_half then Throw LengthError else UB.
Proof. exact empty_cases. Qed.
Print Assumptions C102_empty.

(** The flags are set by the last call that concerns them, independently. *)
Theorem C102_flags : forall ops, has_flag (fft_run ops) flag_half = last_half false ops /\
  has_flag (fft_run ops) flag_unscaled = negb (last_scaling true ops).
Proof. exact flags. Qed.
Print Assumptions C102_flags.

(** Whatever the calls made before, transforming forth and back gives the
    signal, times its length when the scaling is off - if the spectrum is
    complete or the length even. *)
Theorem C102_round_trip : forall kfwd kinv ops (v : list R), engine kfwd kinv -> v <> [] ->
  (last_half false ops = true -> Nat.even (length v) = true) ->
  (let* X := fft kfwd (fft_run ops) v in ifft kinv (fft_run ops) X) =
  Ok (map (fun x => (if last_scaling true ops then 1 else INR (length v)) * x) v).
Proof. exact round_trip. Qed.
Print Assumptions C102_round_trip.

(** With the half spectrum and an odd length one sample is lost (a single
    sample is undefined behaviour). *)
Theorem C102_round_trip_odd : forall kfwd kinv ops (v : list R), engine kfwd kinv ->
  last_half false ops = true -> Nat.odd (length v) = true ->
  (length v = 1%nat /\ (let* X := fft kfwd (fft_run ops) v in ifft kinv (fft_run ops) X) = UB) \/
  (exists out, (let* X := fft kfwd (fft_run ops) v in ifft kinv (fft_run ops) X) = Ok out /\
     length out = (length v - 1)%nat).
Proof. exact round_trip_odd. Qed.
Print Assumptions C102_round_trip_odd.
Theorem C102_round_trip_refuted : exists ops (v : list R), v <> [] /\ last_scaling true ops = true /\
  forall kfwd kinv, engine kfwd kinv -> (let* X := fft kfwd (fft_run ops) v in ifft kinv (fft_run ops) X) <> Ok v.
Proof. exact round_trip_refuted. Qed.
Print Assumptions C102_round_trip_refuted.

(** Energy. *)
Theorem C102_parseval : forall kfwd kinv (v : list R) X fl, engine kfwd kinv -> has_flag fl flag_half = false ->
  fft kfwd fl v = Ok X ->
  bsum (length X) (fun k => fst (nth k X (0, 0)) ^ 2 + snd (nth k X (0, 0)) ^ 2) =
  INR (length v) * bsum (length v) (fun j => nth j v 0 ^ 2).
Proof. exact fft_parseval. Qed.
Print Assumptions C102_parseval.

(** The returned frequencies label the bins: as many of them, and a sampled
    oscillation of amplitude A and phase phi at the frequency of bin k (below
    half the sampling frequency) appears in bin k only, as n A / 2 exp(i phi). *)
Theorem C102_tone : forall kfwd kinv fl n A fs phi k u, engine kfwd kinv -> (0 < k)%nat -> (2 * k < n)%nat -> fs <> 0 ->
  exists X F, fft_frequencies kfwd fl (tone n A (INR k * fs / INR n) fs phi) fs u = Ok (X, F) /\
    length F = length X /\ denotes_hertz PI u (nth k F 0) (INR k * fs / INR n) /\
    (n / 2 < length X)%nat /\
    forall m, (m <= n / 2)%nat ->
      nth m X (0, 0) = if (m =? k)%nat then (INR n * A / 2 * cos phi, INR n * A / 2 * sin phi) else (0, 0).
Proof. exact tone_full. Qed.
Print Assumptions C102_tone.

(** The assumption on the engine can be met; a round trip on four samples
    after some calls. *)
Example C102_engine : engine ref_fwd ref_inv.
Proof. exact engine_exists. Qed.
Example C102_example :
  (let* X := fft ref_fwd (fft_run [ScalingOFF; HalfSpectrumON; ScalingON]) [1; 2; 3; 5] in
   ifft ref_inv (fft_run [ScalingOFF; HalfSpectrumON; ScalingON]) X) = Ok [1; 2; 3; 5].
Proof.
  rewrite C102_round_trip by (first [exact engine_exists|discriminate|reflexivity]).
  cbn [last_scaling map]. rewrite !Rmult_1_l. reflexivity.
Qed.
