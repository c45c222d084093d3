(** Specification vocabulary: discrete Fourier transform. *)
From Coq Require Import List Arith ZArith Reals.
From Verif Require Import S_Series M_FFT.
Import ListNotations.
Open Scope R_scope.

(** 2 pi j k / n. *)
Definition angle (n j k : nat) : R := 2 * PI * INR j * INR k / INR n.

(** Sum over j of v_j exp(- i 2 pi j k / n), as (real, imaginary). *)
Definition dft (v : list R) (k : nat) : R * R :=
  let n := length v in
  (bsum n (fun j => nth j v 0 * cos (angle n j k)), - bsum n (fun j => nth j v 0 * sin (angle n j k))).

(** The n bins of a real signal given by its bins 0 .. n/2. *)
Definition hermitian (n : nat) (X : list (R * R)) (k : nat) : R * R :=
  if (k <=? n / 2)%nat then nth k X (0, 0) else (fst (nth (n - k) X (0, 0)), - snd (nth (n - k) X (0, 0))).

(** Real part of the sum over k of X_k exp(i 2 pi j k / n). *)
Definition inverse_sum (n : nat) (X : nat -> R * R) (j : nat) : R :=
  bsum n (fun k => fst (X k) * cos (angle n j k) - snd (X k) * sin (angle n j k)).

(** What is assumed of the transform engine. *)
Definition engine (kfwd : list R -> nat -> R * R) (kinv : nat -> list (R * R) -> nat -> R) : Prop :=
  (forall v k, (k <= length v / 2)%nat -> kfwd v k = dft v k) /\
  (forall n X j, (j < n)%nat -> (n / 2 < length X)%nat -> kinv n X j = inverse_sum n (hermitian n X) j).

(** Last call of a history that concerns the half spectrum or the scaling. *)
Fixpoint last_half (d : bool) (ops : list fft_op) : bool :=
  match ops with
  | [] => d
  | HalfSpectrumON :: l => last_half true l
  | HalfSpectrumOFF :: l => last_half false l
  | _ :: l => last_half d l
  end.
Fixpoint last_scaling (d : bool) (ops : list fft_op) : bool :=
  match ops with
  | [] => d
  | ScalingON :: l => last_scaling true l
  | ScalingOFF :: l => last_scaling false l
  | _ :: l => last_scaling d l
  end.

(** n samples of A cos(2 pi f t + phi) at t = j / fs. *)
Definition tone (n : nat) (A f fs phi : R) : list R :=
  map (fun j => A * cos (2 * PI * f * (INR j / fs) + phi)) (seq 0 n).
